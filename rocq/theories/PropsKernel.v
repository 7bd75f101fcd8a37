(* C38: the kernels of updatekernels.py, as assignment lists run over cells, do what the streaming model says. *)
From Coq Require Import List ZArith Bool Arith Lia Permutation.
From Verif Require Import StencilModel StencilProofs AccessModel AccessProofs StreamModel StreamSpec StreamProofs GridModel StreamProofs2
  KernelModel KernelSpec KernelProofs KernelProofs2 KernelProofs3.
Import ListNotations.

(* The destination lbmpy uses: the source field for in-place patterns, otherwise the given field, which has to be another one. *)
Definition destination_field (p : pattern) (f_src : nat) (given : option nat) (f_dst : nat) : Prop :=
  if is_inplace p then f_dst = f_src else given = Some f_dst /\ f_src <> f_dst.

(* The kernel made from a collision rule (as assignments: subexpressions, populations and outputs in any order) is the update of
   the streaming model with the rule's values as collision; it changes no other field than the destination and the rule's outputs. *)
Theorem C38_lbm_kernel : forall (L : lattice) (V Op : Type) (sem : Op -> V -> V -> V) S p t a r f_src given f_dst ot params,
  supported p (ldim L) S t -> get_accessor p t = Ok a -> destination_field p f_src given f_dst -> collision_rule (length S) f_src f_dst r ->
  exists k, create_lbm_kernel S r f_src given a ot = Ok k /\
  forall xs (h : heap L V), exists s',
    update L V p t S xs (collide sem r params h (length S)) {| src := h f_src; tmp := h f_dst |} = Ok s' /\
    (forall c i, run_kernel sem params (all_asg k) xs h f_dst c i = src s' c i) /\
    (forall g, g <> f_dst -> ~ writes_field r g -> forall c i, run_kernel sem params (all_asg k) xs h g c i = h g c i).
Proof.
  intros L V Op sem S p t a r f_src given f_dst ot params HP Ha HD HR. pose proof (accessor_inplace (L := L) p S t a HP Ha) as Ei.
  assert (Hd : destination (acc_inplace a) f_src given = Ok f_dst).
  { unfold destination. unfold destination_field in HD. rewrite Ei. destruct (is_inplace p); [now subst|]. now destruct HD as [-> _]. }
  assert (Hdiff : acc_inplace a = false -> f_src <> f_dst). { rewrite Ei. unfold destination_field in HD. intros E. rewrite E in HD. tauto. }
  set (rs := map (raddr (ldim L) S p t) (seq 0 (length S))). set (ws := map (waddr (ldim L) S p t) (seq 0 (length S))).
  assert (Lr : length rs = length S) by (unfold rs; now rewrite map_length, seq_length). assert (Lw : length ws = length S) by (unfold ws; now rewrite map_length, seq_length).
  pose proof (accessor_reads (L := L) p S t a HP Ha) as Hrs. pose proof (accessor_writes (L := L) p S t a HP Ha) as Hws. pose proof (write_slots (L := L) p S t HP) as Hsl.
  destruct (lbm_program S r f_src given a ot f_dst rs ws Hd Hrs Hws) as (k & Hk & _). exists k. split; auto. intros xs h.
  destruct (lbm_run sem S r f_src given a ot f_dst rs ws params Hd Hrs Hws Lr Lw Hsl HR Hdiff k Hk xs h) as [R1 R2].
  destruct (update_fold (L := L) (V := V) p S t a HP Ha (collide sem r params h (length S)) xs f_src f_dst h) as (s' & U1 & U2 & _).
  - unfold destination_field in HD. intros E. rewrite E in HD. auto.
  - unfold destination_field in HD. intros E. rewrite E in HD. tauto.
  - exists s'. split; auto. split; auto. intros c i. rewrite R1, U2. reflexivity.
Qed.
Print Assumptions C38_lbm_kernel.

(* ... and the outputs of the rule: every cell's outputs are the rule's, computed from the populations the cell read; no other cell's are touched. *)
Theorem C38_lbm_outputs : forall (L : lattice) (V Op : Type) (sem : Op -> V -> V -> V) S p t a r f_src given f_dst ot params rs k,
  supported p (ldim L) S t -> get_accessor p t = Ok a -> reads_of p t S = Ok rs -> destination_field p f_src given f_dst -> collision_rule (length S) f_src f_dst r ->
  (forall g w e, In (Acc g w, e) (all_asg r) -> off w = vzero (ldim L)) -> create_lbm_kernel S r f_src given a ot = Ok k ->
  forall xs (h : heap L V) x g i, NoDup xs -> g <> f_dst ->
  run_kernel sem params (all_asg k) xs h g x i =
  (if in_dec cell_eq_dec x xs then snd (exec sem x (all_asg r) (with_pre params (load L V (h f_src) x rs), h)) g x i else h g x i).
Proof.
  intros L V Op sem S p t a r f_src given f_dst ot params rs0 k HP Ha Hr0 HD HR Hc Hk. pose proof (accessor_inplace (L := L) p S t a HP Ha) as Ei.
  assert (Hd : destination (acc_inplace a) f_src given = Ok f_dst).
  { unfold destination. unfold destination_field in HD. rewrite Ei. destruct (is_inplace p); [now subst|]. now destruct HD as [-> _]. }
  assert (Hdiff : acc_inplace a = false -> f_src <> f_dst). { rewrite Ei. unfold destination_field in HD. intros E. rewrite E in HD. tauto. }
  rewrite (reads_of_seq p (ldim L) S t HP) in Hr0. injection Hr0 as <-.
  set (rs := map (raddr (ldim L) S p t) (seq 0 (length S))). set (ws := map (waddr (ldim L) S p t) (seq 0 (length S))).
  assert (Lr : length rs = length S) by (unfold rs; now rewrite map_length, seq_length). assert (Lw : length ws = length S) by (unfold ws; now rewrite map_length, seq_length).
  pose proof (accessor_reads (L := L) p S t a HP Ha) as Hrs. pose proof (accessor_writes (L := L) p S t a HP Ha) as Hws. pose proof (write_slots (L := L) p S t HP) as Hsl.
  apply (lbm_output sem S r f_src given a ot f_dst rs ws params Hd Hrs Hws Lr Lw Hsl HR Hdiff k Hk Hc).
  intros E. unfold destination_field in HD. destruct (is_inplace p) eqn:Ep; [|tauto]. now apply (exclusive p S t HP).
Qed.
Print Assumptions C38_lbm_outputs.

(* The stream-only kernel is the main kernel without collision. *)
Theorem C38_stream_only : forall (L : lattice) (V Op : Type) (sem : Op -> V -> V -> V) S p t a f_src given f_dst params,
  supported p (ldim L) S t -> get_accessor p t = Ok a -> destination_field p f_src given f_dst -> (is_inplace p = true -> given = None) ->
  exists k, create_stream_only_kernel S f_src given a = Ok k /\
  forall xs (h : heap L V), exists s',
    update L V p t S xs (fun _ f => f) {| src := h f_src; tmp := h f_dst |} = Ok s' /\
    (forall c i, run_kernel sem params (all_asg k) xs h f_dst c i = src s' c i) /\
    (forall g, g <> f_dst -> forall c i, run_kernel sem params (all_asg k) xs h g c i = h g c i).
Proof.
  intros L V Op sem S p t a f_src given f_dst params HP Ha HD HN. pose proof (accessor_inplace (L := L) p S t a HP Ha) as Ei.
  unfold create_stream_only_kernel. rewrite (accessor_reads (L := L) p S t a HP Ha), (accessor_writes (L := L) p S t a HP Ha), Ei.
  replace (match given with Some d => Ok d | None => if is_inplace p then Ok f_src else Err ValueError end) with (Ok f_dst : res nat).
  2: { unfold destination_field in HD. destruct (is_inplace p); [rewrite HN by auto; now subst|]. now destruct HD as [-> _]. }
  cbn [rbind]. eexists. split; [reflexivity|]. intros xs h.
  destruct (update_fold (L := L) (V := V) p S t a HP Ha (fun _ f => f) xs f_src f_dst h) as (s' & U1 & U2 & _).
  - unfold destination_field in HD. intros E. rewrite E in HD. auto.
  - unfold destination_field in HD. intros E. rewrite E in HD. tauto.
  - exists s'. split; auto.
    pose proof (transfer_run sem {| subs := []; mains := [] |} f_src f_dst (map (raddr (ldim L) S p t) (seq 0 (length S))) (map (waddr (ldim L) S p t) (seq 0 (length S))) params
      ltac:(now rewrite !map_length) (empty_output_rule _ _ _) xs h) as [T1 T2]. unfold transfer_program in T1, T2. cbn [subs mains app] in T1, T2. rewrite app_nil_r in T1, T2.
    split; [intros c i; rewrite U2; apply T1|]. intros g Hg c i. apply T2; auto. apply empty_writes.
Qed.
Print Assumptions C38_stream_only.

(* n stream-only kernels move every population n cells along its velocity, whatever the pattern, and change nothing else. *)
Theorem C38_streaming : forall (V : Type) (v0 : V) N S p t xs0 xs B f0 m_src m_tmp n x,
  supported p (length N) S t -> Permutation xs0 (torus_cells N) -> (forall n, Permutation (xs n) (torus_cells N)) -> (forall x, length (f0 x) = length S) ->
  simulate (torus N) V p t S xs0 xs (fun _ => []) (fun _ _ f => f) B f0 m_src m_tmp n x =
  Ok (map (fun j => nth j (f0 (back n x (nth j S []))) v0) (seq 0 (length S))).
Proof.
  intros V v0 N S p t xs0 xs B f0 m_src m_tmp n x HP H0 Hx Hf.
  rewrite (torus_correct V v0 N S p t xs0 xs (fun _ _ f => f) B f0 m_src m_tmp n x); auto. f_equal. now apply stream_moves.
Qed.
Print Assumptions C38_streaming.

(* An in-place accessor with a destination field given: the stream-only kernel uses it and leaves the source as it is. *)
Theorem C38_stream_only_given : forall (L : lattice) (V Op : Type) (sem : Op -> V -> V -> V) S p t a f_src f_dst params rs ws,
  supported p (ldim L) S t -> get_accessor p t = Ok a -> f_dst <> f_src -> reads_of p t S = Ok rs -> writes_of p t S = Ok ws ->
  exists k, create_stream_only_kernel S f_src (Some f_dst) a = Ok k /\
  forall xs (h : heap L V),
    (forall c i, run_kernel sem params (all_asg k) xs h f_dst c i = fold_left (fun m x => store L V m x ws (load L V (h f_src) x rs)) xs (h f_dst) c i) /\
    (forall g, g <> f_dst -> forall c i, run_kernel sem params (all_asg k) xs h g c i = h g c i).
Proof.
  intros L V Op sem S p t a f_src f_dst params rs ws HP Ha HN Hr Hw. unfold create_stream_only_kernel.
  rewrite (reads_of_seq p (ldim L) S t HP) in Hr. injection Hr as <-. rewrite (writes_of_seq p (ldim L) S t HP) in Hw. injection Hw as <-.
  rewrite (accessor_reads (L := L) p S t a HP Ha), (accessor_writes (L := L) p S t a HP Ha). cbn [rbind]. eexists. split; [reflexivity|]. intros xs h.
  pose proof (transfer_run sem {| subs := []; mains := [] |} f_src f_dst (map (raddr (ldim L) S p t) (seq 0 (length S))) (map (waddr (ldim L) S p t) (seq 0 (length S))) params
    ltac:(now rewrite !map_length) (empty_output_rule _ _ _) xs h) as [T1 T2]. unfold transfer_program in T1, T2. cbn [subs mains app] in T1, T2. rewrite app_nil_r in T1, T2.
  split; [|intros g Hg c i; apply T2; auto; apply empty_writes]. intros c i. etransitivity; [exact (T1 c i)|]. destruct (Nat.eqb_spec f_src f_dst); [congruence|reflexivity].
Qed.
Print Assumptions C38_stream_only_given.

(* Streaming with outputs moves the populations like stream-only, and stores the output equations of the streamed populations. *)
Theorem C38_stream_with_output : forall (L : lattice) (V Op : Type) (sem : Op -> V -> V -> V) S p t a o f_src given f_dst params rs,
  supported p (ldim L) S t -> get_accessor p t = Ok a -> reads_of p t S = Ok rs -> destination_field p f_src given f_dst -> output_rule (length S) f_src f_dst o ->
  (forall g w e, In (Acc g w, e) (all_asg o) -> off w = vzero (ldim L)) ->
  exists k, create_stream_pull_with_output_kernel S (Some o) f_src given a = Ok k /\
  forall xs (h : heap L V), NoDup xs -> exists s',
    update L V p t S xs (fun _ f => f) {| src := h f_src; tmp := h f_dst |} = Ok s' /\
    (forall c i, run_kernel sem params (all_asg k) xs h f_dst c i = src s' c i) /\
    (forall x g i, g <> f_dst -> run_kernel sem params (all_asg k) xs h g x i =
       (if in_dec cell_eq_dec x xs then snd (exec sem x (all_asg o) (with_streamed params (load L V (h f_src) x rs), h)) g x i else h g x i)).
Proof.
  intros L V Op sem S p t a o f_src given f_dst params rs0 HP Ha Hr0 HD HO Hc. pose proof (accessor_inplace (L := L) p S t a HP Ha) as Ei.
  rewrite (reads_of_seq p (ldim L) S t HP) in Hr0. injection Hr0 as <-.
  unfold create_stream_pull_with_output_kernel. rewrite (accessor_reads (L := L) p S t a HP Ha), (accessor_writes (L := L) p S t a HP Ha), Ei.
  replace (destination (is_inplace p) f_src given) with (Ok f_dst : res nat).
  2: { unfold destination. unfold destination_field in HD. destruct (is_inplace p); [now subst|]. now destruct HD as [-> _]. }
  cbn [rbind]. eexists. split; [reflexivity|]. intros xs h ND.
  destruct (update_fold (L := L) (V := V) p S t a HP Ha (fun _ f => f) xs f_src f_dst h) as (s' & U1 & U2 & _).
  - unfold destination_field in HD. intros E. rewrite E in HD. auto.
  - unfold destination_field in HD. intros E. rewrite E in HD. tauto.
  - exists s'. split; auto. set (rs := map (raddr (ldim L) S p t) (seq 0 (length S))). set (ws := map (waddr (ldim L) S p t) (seq 0 (length S))).
    assert (Lr : length rs = length S) by (unfold rs; now rewrite map_length, seq_length).
    assert (Lw : length ws = length rs) by (unfold ws; now rewrite map_length, seq_length).
    assert (HO' : output_rule (length rs) f_src f_dst o) by now rewrite Lr.
    destruct (transfer_run sem o f_src f_dst rs ws params Lw HO' xs h) as [T1 T2]. unfold all_asg at 1 2; cbn [subs mains].
    split; [intros c i; rewrite U2; apply T1|]. intros x g i Hg.
    apply (transfer_output sem o f_src f_dst rs ws params Lw HO' Hc); auto. intros E. unfold destination_field in HD. destruct (is_inplace p) eqn:Ep; [|tauto]. now apply (exclusive p S t HP).
Qed.
Print Assumptions C38_stream_with_output.

(* The copy kernel: at every visited cell, the getter finds the same populations in the destination as in the source; slots which
   belong to no visited cell, and all other fields, are unchanged. *)
Theorem C38_copy : forall (L : lattice) (V Op : Type) (sem : Op -> V -> V -> V) S p t a f_src f_dst params,
  supported p (ldim L) S t -> get_accessor p t = Ok a -> f_src <> f_dst ->
  exists k, create_copy_kernel S f_src f_dst a = Ok k /\
  forall xs (h : heap L V),
    (forall x, In x xs -> getter L V p t S false (run_kernel sem params (all_asg k) xs h f_dst) x = getter L V p t S false (h f_src) x) /\
    (forall c i, (forall x w ws, In x xs -> writes_of p t S = Ok ws -> In w ws -> slot x w <> (c, i)) -> run_kernel sem params (all_asg k) xs h f_dst c i = h f_dst c i) /\
    (forall g, g <> f_dst -> forall c i, run_kernel sem params (all_asg k) xs h g c i = h g c i).
Proof.
  intros L V Op sem S p t a f_src f_dst params HP Ha HN. unfold create_copy_kernel. rewrite (accessor_writes (L := L) p S t a HP Ha).
  cbn [rbind]. eexists. split; [reflexivity|]. intros xs h.
  set (ws := map (waddr (ldim L) S p t) (seq 0 (length S))).
  pose proof (transfer_run sem {| subs := []; mains := [] |} f_src f_dst ws ws params eq_refl (empty_output_rule _ _ _) xs h) as [T1 T2].
  unfold transfer_program in T1, T2. cbn [subs mains app] in T1, T2. rewrite app_nil_r in T1, T2.
  destruct (Nat.eqb_spec f_src f_dst); [tauto|]. cbn [negb] in T1.
  assert (IN : forall (x y : cell L) v w, In v ws -> In w ws -> slot x v = slot y w -> x = y /\ v = w).
  { intros x y v w Hv Hw E. unfold ws in Hv, Hw. apply in_map_iff in Hv. destruct Hv as (i & <- & Hv). apply in_map_iff in Hw. destruct Hw as (j & <- & Hw).
    apply in_seq in Hv. apply in_seq in Hw. apply (wloc_inj L S p t x i y j HP) in E; try lia. destruct E as [-> ->]. auto. }
  split; [|split].
  - intros x Hx. unfold getter, get_field_accesses. rewrite Ha. cbn [rbind]. rewrite (accessor_writes (L := L) p S t a HP Ha). cbn [rbind]. f_equal.
    fold ws. unfold load at 1 2. apply map_ext_in. intros w Hw. unfold all_asg; cbn [subs mains]. rewrite T1. clear T1 T2.
    generalize (h f_dst) as m. induction xs as [|y xs IH] using rev_ind; intros m; [destruct Hx|]. rewrite fold_left_app. cbn [fold_left].
    destruct (cell_eq_dec y x) as [->|Ny].
    + destruct (In_nth_error _ _ Hw) as [i Hi]. apply (store_hit _ x ws _ i); auto; [apply (write_slots p S t HP)|]. unfold load. now rewrite nth_error_map, Hi.
    + rewrite store_miss; [apply IH; apply in_app_or in Hx; destruct Hx as [|[|[]]]; tauto|]. intros v Hv E. apply Ny. now apply (IN y x v w).
  - intros c i Hm. unfold all_asg; cbn [subs mains]. rewrite T1. clear T1 T2. generalize (h f_dst) as m. induction xs as [|y xs IH]; intros m; cbn; auto.
    rewrite IH by (intros x w ws' Hx; apply Hm; now right). apply store_miss. intros w Hw. apply (Hm y w ws); auto; [now left|apply (writes_of_seq p (ldim L) S t HP)].
  - intros g Hg c i. unfold all_asg; cbn [subs mains]. apply T2; auto. apply empty_writes.
Qed.
Print Assumptions C38_copy.

(* Two-field accessors need a destination. *)
Theorem C38_destination_required : forall (V Op : Type) S (r : rule V Op) f_src a ot (out : option (rule V Op)), acc_inplace a = false ->
  create_lbm_kernel S r f_src None a ot = Err ValueError /\ create_stream_only_kernel (V := V) (Op := Op) S f_src None a = Err ValueError /\
  create_stream_pull_with_output_kernel S out f_src None a = Err ValueError.
Proof. intros V Op S r f_src a ot out H. unfold create_lbm_kernel, create_stream_only_kernel, create_stream_pull_with_output_kernel, destination. rewrite H. auto. Qed.
Print Assumptions C38_destination_required.

(* The array has room for what a kernel on the inner cells addresses: with g ghost layers, cell x of the inner domain is stored at x + g, and
   offsets with components up to g stay inside. *)
Theorem C38_pdf_array : forall size q g x v, (0 <= g)%Z -> length x = length size -> length v = length size ->
  (forall k s z, nth_error size k = Some s -> nth_error x k = Some z -> (0 <= z < s)%Z) -> (forall k z, nth_error v k = Some z -> (Z.abs z <= g)%Z) ->
  length (pdf_array_shape size q g) = Datatypes.S (length size) /\ nth_error (pdf_array_shape size q g) (length size) = Some (Z.of_nat q) /\
  forall k z w, nth_error x k = Some z -> nth_error v k = Some w -> exists s, nth_error (pdf_array_shape size q g) k = Some s /\ (0 <= z + w + g < s)%Z.
Proof.
  intros size q g x v Hg Hx Hv Hin Hw. unfold pdf_array_shape. split; [rewrite app_length, map_length; cbn; lia|]. split.
  - rewrite nth_error_app2 by now rewrite map_length. rewrite map_length, Nat.sub_diag. reflexivity.
  - intros k z w Hz Hk. assert (L : k < length size) by (rewrite <- Hx; apply nth_error_Some; congruence).
    destruct (nth_error size k) as [s|] eqn:Es; [|apply nth_error_None in Es; lia]. exists (s + 2 * g)%Z. split.
    + rewrite nth_error_app1 by now rewrite map_length. now rewrite nth_error_map, Es.
    + specialize (Hin k s z Es Hz). specialize (Hw k w Hk). lia.
Qed.
Print Assumptions C38_pdf_array.

(* ---------- examples ---------- *)
Definition line : stencil := [[0]; [1]; [-1]]%Z.
Example line_supported : supported PULL 1 line BOTH /\ supported AA 1 line EVEN.
Proof.
  assert (H : symmetric_stencil 1 line).
  { split; [discriminate|]. split; [repeat constructor; cbn; intuition discriminate|]. split; intros d Hd; cbn in Hd; destruct Hd as [<-|[<-|[<-|[]]]]; cbn; auto. }
  split; (split; [exact H|]); [exact I|discriminate].
Qed.
Definition plus_times (b : bool) : Z -> Z -> Z := if b then Z.add else Z.mul.
(* swaps the moving populations and adds a force read from field 7; stores the sum of the populations to field 5 *)
Definition ex_rule : rule Z bool := {|
  subs := [(Tmp 0, Bin true (Sym (Pre 1)) (Sym (Pre 2)))];
  mains := [(Acc 5 (mkacc [0]%Z 0), Bin true (Sym (Pre 0)) (Sym (Tmp 0))); (Post 1, Sym (Pre 2)); (Post 0, Bin true (Sym (Pre 0)) (Sym (Acc 7 (mkacc [0]%Z 0)))); (Post 2, Sym (Pre 1))] |}.
Example ex_rule_ok : forall f_src f_dst, f_src < 5 -> f_dst < 5 -> collision_rule 3 f_src f_dst ex_rule.
Proof.
  intros f_src f_dst H1 H2. split; [|split].
  - intros s e Hin. cbn in Hin. repeat (destruct Hin as [Hin|Hin]; [injection Hin as <- <-; cbn; lia || exact I|]). destruct Hin.
  - assert (W7 : ~ writes_field ex_rule 7). { intros (a & e & Hin). cbn in Hin. repeat (destruct Hin as [Hin|Hin]; [discriminate|]). destruct Hin. }
    intros s e t0 Hin Ht. cbn in Hin. repeat (destruct Hin as [Hin|Hin]; [injection Hin as <- <-; cbn in Ht; repeat (destruct Ht as [<-|Ht]; [solve [lia|exact I|split; [lia|split; [lia|exact W7]]]|]); destruct Ht|]). destruct Hin.
  - intros i Hi. destruct i as [|[|[|i]]]; [| | |lia]; eexists; cbn; [do 3 right; left|do 2 right; left|do 4 right; left]; reflexivity.
Qed.
Definition ex_heap : heap (torus [3%positive]) Z := fun g c k => match proj1_sig c with [z] => (100 * Z.of_nat g + 10 * z + Z.of_nat k)%Z | _ => 0%Z end.
Definition ex_env : env Z := fun _ => 0%Z.
Definition show (h : heap (torus [3%positive]) Z) (g : nat) : list (list Z) := map (fun c => map (h g c) [0; 1; 2]) (torus_cells [3%positive]).
Definition run_of (k : res (rule Z bool)) (g : nat) : option (list (list Z)) :=
  match k with Ok k => Some (show (run_kernel plus_times ex_env (all_asg k) (torus_cells [3%positive]) ex_heap) g) | Err _ => None end.
Example ex_runs :
  show ex_heap 1 = [[100; 101; 102]; [110; 111; 112]; [120; 121; 122]]%Z /\
  run_of (create_stream_only_kernel line 1 (Some 2) stream_pull_two_fields) 2 = Some [[100; 121; 112]; [110; 101; 122]; [120; 111; 102]]%Z /\
  run_of (create_copy_kernel line 1 2 stream_pull_two_fields) 2 = Some (show ex_heap 1) /\
  run_of (create_lbm_kernel line ex_rule 1 (Some 2) stream_pull_two_fields false) 2 = Some [[800; 112; 121]; [820; 122; 101]; [840; 102; 111]]%Z /\
  option_map (map (hd 0%Z)) (run_of (create_lbm_kernel line ex_rule 1 None aa_even false) 5) = Some [303; 333; 363]%Z.
Proof. vm_compute. repeat split; reflexivity. Qed.

(* The destination is not checked to differ from the source: a two-field accessor with the source field as destination is accepted and the
   kernel then reads values it has already overwritten. *)
Theorem C38_same_field_refuted : exists k, create_stream_only_kernel (V := Z) (Op := bool) line 1 (Some 1) stream_pull_two_fields = Ok k /\
  run_of (create_stream_only_kernel line 1 (Some 2) stream_pull_two_fields) 2 = Some [[100; 121; 112]; [110; 101; 122]; [120; 111; 102]]%Z /\
  show (run_kernel plus_times ex_env (all_asg k) (torus_cells [3%positive]) ex_heap) 1 = [[100; 121; 112]; [110; 121; 122]; [120; 121; 112]]%Z.
Proof. eexists. split; [reflexivity|]. vm_compute. split; reflexivity. Qed.
Print Assumptions C38_same_field_refuted.
