From Coq Require Import List ZArith Bool Arith Lia.
From Verif Require Import StencilModel StencilProofs AccessModel AccessProofs StreamModel StreamSpec StreamProofs KernelModel KernelSpec KernelProofs KernelProofs2.
Import ListNotations.

Lemma collide_length {L V Op} sem (r : rule V Op) params (h : heap L V) n x f : length (collide sem r params h n x f) = n.
Proof. unfold collide. now rewrite map_length, seq_length. Qed.

Section B.
  Context {L : lattice} {V : Type} {Op : Type} (sem : Op -> V -> V -> V).
  Notation mem := (mem L V).
  Notation heap := (heap L V).
  Notation load := (load L V).
  Notation store := (store L V).
  Notation exec := (exec (L := L) sem).

  (* ---------- loop over cells of loads, output equations, stores ---------- *)
  Section Transfer.
    Context (o : rule V Op) (src d : nat) (rs ws : list access) (params : env V).
    Hypothesis Hl : length ws = length rs.
    Hypothesis Ho : output_rule (length rs) src d o.
    Definition transfer_program : list (asg V Op) := (load_temporaries src rs ++ subs o) ++ mains o ++ store_temporaries d ws.
    Definition tstep (x : cell L) (h : heap) : heap := snd (exec x transfer_program (params, h)).
    Lemma tstep_correct x h : (forall c k, tstep x h d c k = store (h d) x ws (load (h src) x rs) c k) /\
      (forall g, g <> d -> forall c k, tstep x h g c k = snd (exec x (all_asg o) (with_streamed params (load (h src) x rs), h)) g c k).
    Proof. exact (transfer_cell sem x o src d rs ws params h Hl Ho). Qed.
    Lemma tstep_unwritten x h g : g <> d -> ~ writes_field o g -> forall c k, tstep x h g c k = h g c k.
    Proof.
      intros N W c k. rewrite (proj2 (tstep_correct x h)) by auto. rewrite (exec_heap_only sem); auto. intros w e Hin. exfalso. apply W. exists w, e. auto.
    Qed.
    Lemma transfer_nowrite_src : ~ writes_field o src.
    Proof. intros (w & e & H). apply (proj1 Ho) in H. tauto. Qed.
    Lemma transfer_run xs h : let h' := run_kernel sem params transfer_program xs h in
      (forall c i, h' d c i = fold_left (fun m x => store m x ws (load (if Nat.eqb src d then m else h src) x rs)) xs (h d) c i) /\
      (forall g, g <> d -> ~ writes_field o g -> forall c i, h' g c i = h g c i).
    Proof.
      cbv zeta. unfold run_kernel. change (fun h x => snd (exec x transfer_program (params, h))) with (fun h x => tstep x h). split.
      - intros c i. destruct (Nat.eqb_spec src d) as [E|N].
        + apply (loop_dst_inplace tstep (fun _ => True) src d rs ws (fun _ f => f)); auto. intros; apply tstep_correct.
        + apply (loop_dst_two tstep (fun _ => True) src d rs ws (fun _ f => f) (writes_field o)); auto.
          * intros; apply tstep_correct.
          * intros; now apply tstep_unwritten.
          * intros _. apply transfer_nowrite_src.
      - intros g N W c i. apply (loop_other tstep (fun _ => True) d (writes_field o)); auto. intros; now apply tstep_unwritten.
    Qed.
    Lemma transfer_output : (forall g w e, In (Acc g w, e) (all_asg o) -> off w = vzero (ldim L)) ->
      (src = d -> forall (x y : cell L) v w, In v rs -> In w ws -> slot x v = slot y w -> x = y) ->
      forall xs h x g i, NoDup xs -> g <> d ->
      run_kernel sem params transfer_program xs h g x i =
      (if in_dec cell_eq_dec x xs then snd (exec x (all_asg o) (with_streamed params (load (h src) x rs), h)) g x i else h g x i).
    Proof.
      intros Hc Hex xs h x g i ND N. unfold run_kernel. change (fun h x => snd (exec x transfer_program (params, h))) with (fun h x => tstep x h).
      assert (C : forall x h g c k, True -> g <> d -> c <> x -> tstep x h g c k = h g c k).
      { intros x' h1 g' c k _ N' Nc. rewrite (proj2 (tstep_correct x' h1)) by auto. rewrite (exec_heap_only sem); auto. intros w e Hin E. apply Nc.
        unfold slot in E. rewrite (Hc g' w e Hin), shift_zero in E. congruence. }
      destruct (in_dec cell_eq_dec x xs) as [Hin|Hin].
      - rewrite (loop_output tstep (fun _ => True) src d rs ws (fun _ f => f) (writes_field o)); auto.
        + now apply (proj2 (tstep_correct x h)).
        + intros; apply tstep_correct.
        + intros; now apply tstep_unwritten.
        + intros x' h1 h2 g' k' _ _ N' E El. rewrite !(proj2 (tstep_correct x' _)) by auto. rewrite El.
          apply (exec_cong sem x' (all_asg o) (fun g1 c1 k1 => (g1, c1, k1) = (g', x', k'))); auto.
          * intros s e g1 w Hi Ht. pose proof (proj2 Ho s e (Acc g1 w) Hi Ht) as X. contradiction X.
          * cbn. intros g1 c1 k1 [= -> -> ->]. auto.
        + intros _. apply transfer_nowrite_src.
      - apply (loop_outside tstep (fun _ => True) d); auto.
    Qed.
  End Transfer.

  Lemma empty_output_rule n s d : output_rule n s d ({| subs := []; mains := [] |} : rule V Op).
  Proof. split; cbn; tauto. Qed.
  Lemma empty_writes g : ~ writes_field ({| subs := []; mains := [] |} : rule V Op) g.
  Proof. intros (a & e & []). Qed.

  (* ---------- the accessors of lbmpy ---------- *)
  Section Pat.
    Context (p : pattern) (S : stencil) (t : timestep) (a : accessor).
    Hypothesis HP : supported p (ldim L) S t.
    Hypothesis Ha : get_accessor p t = Ok a.
    Lemma accessor_inplace : acc_inplace a = is_inplace p.
    Proof. destruct p, t; cbn in Ha; try discriminate; injection Ha as <-; reflexivity. Qed.
    Lemma accessor_reads : acc_read a S = Ok (map (raddr (ldim L) S p t) (seq 0 (length S))).
    Proof. pose proof (reads_of_seq p (ldim L) S t HP) as H. unfold reads_of in H. now rewrite Ha in H. Qed.
    Lemma accessor_writes : acc_write a S = Ok (map (waddr (ldim L) S p t) (seq 0 (length S))).
    Proof. pose proof (writes_of_seq p (ldim L) S t HP) as H. unfold writes_of in H. now rewrite Ha in H. Qed.
    Lemma write_slots : one_slot_each (map (waddr (ldim L) S p t) (seq 0 (length S))).
    Proof.
      unfold one_slot_each. rewrite map_map. assert (G : forall l, NoDup l -> (forall i, In i l -> (i < length S)%nat) -> NoDup (map (fun i => idx (waddr (ldim L) S p t i)) l)).
      { induction 1 as [|i l Hi ND IH]; intros Hl; cbn; constructor.
        - intros Hin. apply in_map_iff in Hin. destruct Hin as (j & E & Hj). apply (waddr_idx_inj p (ldim L) S t HP) in E; [subst; tauto|apply Hl; now right|apply Hl; now left].
        - apply IH. intros j Hj. apply Hl. now right. }
      apply G; [apply seq_NoDup|]. intros i Hi. apply in_seq in Hi. lia.
    Qed.
    Lemma exclusive : is_inplace p = true -> forall (x y : cell L) v w, In v (map (raddr (ldim L) S p t) (seq 0 (length S))) ->
      In w (map (waddr (ldim L) S p t) (seq 0 (length S))) -> slot x v = slot y w -> x = y.
    Proof.
      intros Hi x y v w Hv Hw E. apply in_map_iff in Hv. destruct Hv as (i & <- & Hv). apply in_map_iff in Hw. destruct Hw as (j & <- & Hw).
      apply in_seq in Hv. apply in_seq in Hw. assert (Li : (i < length S)%nat) by lia. assert (Lj : (j < length S)%nat) by lia.
      change (loc x (raddr (ldim L) S p t i) = loc y (waddr (ldim L) S p t j)) in E. rewrite (inplace_loc' L S p t x i HP Hi Li) in E.
      apply (wloc_inj L S p t) in E; try tauto. apply (opp_lt (ldim L) S (proj1 HP) i Li).
    Qed.
    Lemma fold_ext {A} (f g : mem -> A -> mem) (xs : list A) : (forall m m' x, (forall c k, m c k = m' c k) -> forall c k, f m x c k = g m' x c k) ->
      forall m m', (forall c k, m c k = m' c k) -> forall c k, fold_left f xs m c k = fold_left g xs m' c k.
    Proof. intros H. induction xs as [|x xs IH]; intros m m' E c k; cbn; [auto|]. apply IH. intros; now apply H. Qed.

    (* [update] of StreamModel in terms of the two fields *)
    Lemma update_fold C xs src d (h : heap) : (is_inplace p = true -> src = d) -> (is_inplace p = false -> src <> d) ->
      exists s', update L V p t S xs C {| StreamModel.src := h src; tmp := h d |} = Ok s' /\
        (forall c k, StreamModel.src s' c k = fold_left (fun m x => store m x (map (waddr (ldim L) S p t) (seq 0 (length S)))
           (C x (load (if Nat.eqb src d then m else h src) x (map (raddr (ldim L) S p t) (seq 0 (length S)))))) xs (h d) c k) /\
        tmp s' = (if is_inplace p then h d else h src).
    Proof.
      intros H1 H2. unfold update. rewrite Ha. cbn [rbind]. rewrite accessor_reads, accessor_writes. cbn [rbind StreamModel.src tmp].
      destruct (is_inplace p) eqn:E.
      - rewrite (H1 eq_refl), Nat.eqb_refl. eexists. split; [reflexivity|]. cbn [StreamModel.src tmp]. auto.
      - destruct (Nat.eqb_spec src d); [now destruct (H2 eq_refl)|]. eexists. split; [reflexivity|]. cbn [StreamModel.src tmp]. auto.
    Qed.
  End Pat.

  (* ---------- streaming without collision ---------- *)
  Fixpoint back (n : nat) (x : cell L) (v : vec) : cell L := match n with 0 => x | Datatypes.S n => back n (shift x (vneg v)) v end.
  Lemma stream_moves (v0 : V) S f0 n x : (forall x, length (f0 x) = length S) ->
    stream_collide v0 S (fun _ (_ : cell L) f => f) f0 n x = map (fun j => nth j (f0 (back n x (nth j S []))) v0) (seq 0 (length S)).
  Proof.
    intros Hf. revert x. induction n as [|n IH]; intros x; cbn.
    - symmetry. now apply map_nth_seq.
    - apply map_ext_in. intros j Hj. apply in_seq in Hj. rewrite IH.
      set (y := shift x (vneg (nth j S []))).
      assert (E : nth_error (map (fun j => nth j (f0 (back n y (nth j S []))) v0) (seq 0 (length S))) j = Some (nth j (f0 (back n y (nth j S []))) v0)).
      { rewrite nth_error_map. rewrite (nth_error_nth' _ 0) by (rewrite seq_length; lia). rewrite seq_nth by lia. reflexivity. }
      now apply nth_error_nth.
  Qed.
End B.
