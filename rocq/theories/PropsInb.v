(* C56: update kernels with built-in boundary conditions. *)
From Coq Require Import String List ZArith Bool Arith Lia Permutation.
From Verif Require Import StencilModel AccessModel StreamModel StreamSpec StreamProofs StreamProofs2 AccessProofs GridModel GridProofs
  BoundModel BoundSpec StencilProofs2 InbModel InbSpec InbProofs InbProofs2 InbProofs3 InbProofs4 InbProofs5.
Import ListNotations.

Lemma to_ldim {V} N Q spec : @local_rules V (length N) Q spec ->
  forall n r i, In (n, r) spec -> i < Q -> forall a, In a (b_reads (r i)) -> exists j, j < Q /\ a = FOut (vzero (ldim (torus N))) j.
Proof. intros H n r i Hn Hi a Ha. rewrite ldim_torus. exact (H n r i a Hn Hi Ha). Qed.

(* One call of the kernel with built-in boundaries leaves the same array as the ordinary update kernel followed by the ordinary
   boundary kernel over all links between inner cells and the ghost layer, for every in-place pattern, every number and order of
   inner cells, every rule that uses populations of its own cell. *)
Theorem C56_equivalence : forall V (v0 : V) N S p t spec B C xs s links,
  supported p (length N) S t -> is_inplace p = true -> nearest_neighbours S ->
  all_faces N spec -> local_rules (length N) (length S) spec -> responsible N S spec B ->
  (forall x f, length f = length S -> length (C x f) = length S) ->
  NoDup xs -> (forall x, In x xs <-> inner N x = true) ->
  (forall l, In l links <-> is_link S (inner N) l) ->
  exists m' s1 s2, kernel_with_boundaries N V p t S spec xs C (src s) = Ok m' /\
    update (torus N) V p t S xs C s = Ok s1 /\ boundary (torus N) V p t S B links s1 = Ok s2 /\
    forall c q, m' c q = src s2 c q.
Proof.
  intros V v0 N S p t spec B C xs s links HP Hip HN [Hk Ha] Hl HB HC Hnd Hxs Hlinks. rewrite <- ldim_torus in HP.
  exact (in_kernel_equivalence N V v0 S p t HP HN Hip spec Hk (to_ldim N _ spec Hl) C HC Ha B HB xs s links Hnd Hxs Hlinks).
Qed.
Print Assumptions C56_equivalence.

(* Setter, one boundary kernel for the initial state, n kernels with built-in boundaries, getter: the reference recursion of
   stream, collide and boundary rules. *)
Theorem C56_simulation : forall V (v0 : V) N S p t spec B C xs0 xs links f0 m0 m_tmp n x,
  supported p (length N) S t -> is_inplace p = true -> nearest_neighbours S ->
  all_faces N spec -> local_rules (length N) (length S) spec -> responsible N S spec B ->
  (forall n x f, length f = length S -> length (C n x f) = length S) ->
  (forall n, NoDup (xs n)) -> (forall n x, In x (xs n) <-> inner N x = true) ->
  (forall x, inner N x = true -> In x xs0) ->
  (forall l, In l links <-> is_link S (inner N) l) ->
  (forall x, length (f0 x) = length S) -> inner N x = true ->
  rbind (setter (torus N) V p t S false xs0 f0 m0) (fun m =>
  rbind (boundary (torus N) V p t S B links {| src := m; tmp := m_tmp |}) (fun s =>
  rbind (run_with_boundaries N V p S spec xs C n (t, src s)) (fun tm =>
    getter (torus N) V p (fst tm) S false (snd tm) x)))
  = Ok (post v0 S (inner N) C (fun _ => B) f0 n x).
Proof.
  intros V v0 N S p t spec B C xs0 xs links f0 m0 m_tmp n x HP Hip HN [Hk Ha] Hl HB HC Hnd Hxs H0 Hlinks Hf Hx. rewrite <- ldim_torus in HP.
  exact (in_kernel_simulation N V v0 S p HN Hip spec Hk Ha (to_ldim N _ spec Hl) B HB C HC xs Hnd Hxs xs0 links f0 t m0 m_tmp n x HP H0 Hlinks Hf Hx).
Qed.
Print Assumptions C56_simulation.

(* For every cell of the array, whatever its ghost layers: the border condition holds exactly in the last inner layer before the face,
   and never in the ghost cells beside it. *)
Theorem C56_border_cells : forall D k s shape gl x, k < D -> (s = 1 \/ s = -1)%Z -> length shape = D -> length x = D -> (0 <= gl)%Z ->
  exists c, border_conditions (axis_vec D k s) shape gl x = Ok c /\
    (c = true <-> nth k x 0%Z = (if (s <? 0)%Z then gl else nth k shape 0 - gl - 1)%Z /\
      (gl = 0%Z \/ forall j, j < D -> j <> k -> (gl <= nth j x 0 < nth j shape 0 - gl)%Z)).
Proof.
  intros D k s shape gl x Hk Hs Hsh Hx Hgl. unfold border_conditions. rewrite face_axis_axis by assumption. cbn [rbind]. eexists; split; [reflexivity|]. rewrite !axis_nth, Nat.eqb_refl by exact Hk.
  destruct (Z.eqb_spec gl 0) as [E|E]; [rewrite Z.eqb_eq; tauto|]. rewrite !andb_true_iff, !forallb_forall, Z.eqb_eq, axis_length. split.
  - intros ((E1 & E2) & E3). split; [exact E1|]. right. intros j Hj Hjk.
    assert (Hin : In j (filter (fun i => negb (Nat.eqb i k)) (seq 0 D))) by (apply filter_In; split; [apply in_seq; lia|]; destruct (Nat.eqb_spec j k); [contradiction|reflexivity]).
    specialize (E2 j Hin). specialize (E3 j Hin). apply Z.leb_le in E2. apply Z.ltb_lt in E3. lia.
  - intros (E1 & [E2|E2]); [contradiction|]. split; [split; [exact E1|]|]; intros j Hj; apply filter_In in Hj as [Hj Hjk]; apply in_seq in Hj; destruct (Nat.eqb_spec j k); try discriminate; specialize (E2 j ltac:(lia) ltac:(assumption)); [apply Z.leb_le|apply Z.ltb_lt]; lia.
Qed.
Print Assumptions C56_border_cells.

(* The kernel's border condition and direction list select exactly the links that leave through the face. *)
Theorem C56_faces : forall N S k s (x : cell (torus N)) i,
  symmetric_stencil (length N) S -> nearest_neighbours S -> inner N x = true -> i < length S -> k < length N -> (s = 1 \/ s = -1)%Z ->
  exists c, border_conditions (axis_vec (length N) k s) (map Zpos N) 1 (proj1_sig x) = Ok c /\
    (c = true /\ In i (direction_indices_in_direction (axis_vec (length N) k s) S) <->
     leaves_through N (proj1_sig x) (dir S i) (axis_vec (length N) k s)).
Proof.
  intros N S k s x i HS HN Hx Hi Hk Hs. destruct (border_axis N x k s Hx Hk Hs) as (c & E & Hc). exists c. split; [exact E|].
  rewrite (leaves_axis N S HN x i k s Hx Hi Hk Hs), Hc, (direction_indices_In (length N) S _ i HS).
  rewrite (in_direction_axis (length N) k s (dir S i) Hk Hs) by (apply (dir_length _ S HS); exact Hi). tauto.
Qed.
Print Assumptions C56_faces.

Theorem C56_rejected : forall V N S p t spec n r xs C m,
  (is_inplace p = true -> exists e, kernel_with_boundaries N V p BOTH S spec xs C m = Err e) /\
  (supported p (length N) S t -> xs <> [] -> fold_right Z.add 0%Z (map Z.abs n) <> 1%Z ->
   kernel_with_boundaries N V p t S [(n, r)] xs C m = Err AssertionError).
Proof.
  intros V N S p t spec n r xs C m. split; [apply kernel_both|]. intros HP Hxs Hn. rewrite <- ldim_torus in HP.
  destruct xs as [|x xs]; [congruence|]. apply (kernel_bad_face N V p t S n r (x :: xs) C m x HP (or_introl eq_refl) Hn).
Qed.
Print Assumptions C56_rejected.

(* ---------- concrete box: 4 x 3 cells, two of them inner ---------- *)
Definition ex56_N : list positive := [4; 3]%positive.
Definition ex56_S := D2Q9_walberla.
Definition ex56_a : cell (torus ex56_N) := exist _ [1; 1]%Z eq_refl.
Definition ex56_b : cell (torus ex56_N) := exist _ [2; 1]%Z eq_refl.
Definition bounce (i : nat) : brule Z := {| b_reads := [FOut [0; 0]%Z i]; b_fun := fun l => hd 0%Z l |}.
Definition ex56_spec : list (side Z) := [([1; 0]%Z, bounce); ([-1; 0]%Z, bounce); ([0; 1]%Z, bounce); ([0; -1]%Z, bounce)].
Definition ex56_m : mem (torus ex56_N) Z := fun c q => (100 * hd 0 (proj1_sig c) + 10 * hd 0 (tl (proj1_sig c)) + Z.of_nat q)%Z.
Definition ex56_links : list (link (torus ex56_N)) := torus_links ex56_N ex56_S (inner ex56_N).

Lemma ex56_S_ok : predefined_stencils "D2Q9" "walberla" = Ok ex56_S /\ symmetric_stencil 2 ex56_S /\ nearest_neighbours ex56_S.
Proof.
  split; [reflexivity|]. split.
  - exact (proj1 (predefined_wf "D2Q9" "walberla" ex56_S eq_refl)).
  - assert (T : forallb (forallb (fun z => (-1 <=? z)%Z && (z <=? 1)%Z)) ex56_S = true) by (vm_compute; reflexivity).
    intros d z Hd Hz. rewrite forallb_forall in T. specialize (T d Hd). rewrite forallb_forall in T. specialize (T z Hz). lia.
Qed.

Lemma ex56_xs : NoDup [ex56_a; ex56_b] /\ forall x, In x [ex56_a; ex56_b] <-> inner ex56_N x = true.
Proof.
  split.
  - constructor; [intros [H|[]]; discriminate H|]. constructor; [intros []|constructor].
  - intros x. split.
    + intros [<-|[<-|[]]]; reflexivity.
    + intros H. pose proof (proj1 (inner_spec ex56_N x) H) as G. pose proof (G 0%nat ltac:(cbn; lia)) as G0. pose proof (G 1%nat ltac:(cbn; lia)) as G1.
      cbn in G0, G1. destruct x as [v Hv]. cbn [proj1_sig] in G0, G1. pose proof (in_grid_length _ _ Hv) as HL.
      destruct v as [|a [|b [|]]]; try discriminate HL. cbn in G0, G1.
      assert (b = 1%Z) by lia. assert (a = 1 \/ a = 2)%Z as [->| ->] by lia; subst b.
      * left. apply gcell_eq. reflexivity.
      * right. left. apply gcell_eq. reflexivity.
Qed.

Lemma ex56_faces : all_faces ex56_N ex56_spec /\ local_rules 2 9 ex56_spec.
Proof.
  split; [split|].
  - intros n r [[= <- <-]|[[= <- <-]|[[= <- <-]|[[= <- <-]|[]]]]].
    + exists 0, 1%Z. split; [cbn; lia|]. split; [lia|reflexivity].
    + exists 0, (-1)%Z. split; [cbn; lia|]. split; [lia|reflexivity].
    + exists 1, 1%Z. split; [cbn; lia|]. split; [lia|reflexivity].
    + exists 1, (-1)%Z. split; [cbn; lia|]. split; [lia|reflexivity].
  - intros k s Hk Hs. exists bounce. cbn in Hk. destruct k as [|[|]]; [| |lia]; destruct Hs as [-> | ->]; cbn; tauto.
  - intros n r i a Hn Hi Ha. exists i. split; [exact Hi|].
    destruct Hn as [[= <- <-]|[[= <- <-]|[[= <- <-]|[[= <- <-]|[]]]]]; destruct Ha as [<-|[]]; reflexivity.
Qed.

(* The hypotheses are met, for every in-place pattern that supports the stencil. *)
Example C56_hypotheses_met : forall p, is_inplace p = true ->
  exists m' s1 s2, kernel_with_boundaries ex56_N Z p EVEN ex56_S ex56_spec [ex56_a; ex56_b] (fun _ f => f) ex56_m = Ok m' /\
    update (torus ex56_N) Z p EVEN ex56_S [ex56_a; ex56_b] (fun _ f => f) {| src := ex56_m; tmp := ex56_m |} = Ok s1 /\
    boundary (torus ex56_N) Z p EVEN ex56_S (fun _ => bounce) ex56_links s1 = Ok s2 /\
    forall c q, m' c q = src s2 c q.
Proof.
  intros p Hip. destruct ex56_S_ok as (HS & HW & HN). destruct ex56_faces as [HA HL]. destruct ex56_xs as [H1 H2].
  apply (C56_equivalence Z 0%Z ex56_N ex56_S p EVEN ex56_spec (fun _ => bounce) (fun _ f => f) [ex56_a; ex56_b] {| src := ex56_m; tmp := ex56_m |} ex56_links).
  - split; [exact HW|]. assert (HE : eso_pairs_stencil ex56_S).
    { exists D2Q9_walberla. repeat split; try reflexivity; auto. left; reflexivity. }
    destruct p; try exact I; try discriminate; try (split; [discriminate|exact HE]).
  - exact Hip.
  - exact HN.
  - exact HA.
  - exact HL.
  - intros x i before n r after _ _ E _ _.
    assert (Hin : In (n, r) ex56_spec) by (rewrite E; apply in_or_app; right; left; reflexivity).
    destruct Hin as [[= <- <-]|[[= <- <-]|[[= <- <-]|[[= <- <-]|[]]]]]; reflexivity.
  - intros x f Hf. exact Hf.
  - exact H1.
  - exact H2.
  - intros l. apply torus_links_spec.
Qed.

(* every listing of faces has responsible rules *)
Example C56_responsible_exists : forall V N S (dflt : brule V) (spec : list (side V)), exists B, responsible N S spec B.
Proof. intros V N S dflt spec. exists (face_rule N S dflt spec). apply face_rule_responsible. Qed.

(* The default streaming pattern 'pull' (and 'push') reads and writes the one field the function is given: cells processed later
   read populations that have already been overwritten.  The result is not that of the ordinary kernels. *)
Definition ex56_differ (p : pattern) : bool :=
  match kernel_with_boundaries ex56_N Z p BOTH ex56_S ex56_spec [ex56_a; ex56_b] (fun _ f => f) ex56_m,
        update (torus ex56_N) Z p BOTH ex56_S [ex56_a; ex56_b] (fun _ f => f) {| src := ex56_m; tmp := ex56_m |} with
  | Ok m', Ok s1 =>
      match boundary (torus ex56_N) Z p BOTH ex56_S (fun _ => bounce) ex56_links s1 with
      | Ok s2 => match getter (torus ex56_N) Z p BOTH ex56_S false m' ex56_b, getter (torus ex56_N) Z p BOTH ex56_S false (src s2) ex56_b with
                 | Ok a, Ok b => negb (vec_eqb a b) | _, _ => false end
      | Err _ => false
      end
  | _, _ => false
  end.
Theorem C56_two_field_patterns_refuted : forall p, is_inplace p = false -> exists m' s1 s2 x,
  inner ex56_N x = true /\
  kernel_with_boundaries ex56_N Z p BOTH ex56_S ex56_spec [ex56_a; ex56_b] (fun _ f => f) ex56_m = Ok m' /\
  update (torus ex56_N) Z p BOTH ex56_S [ex56_a; ex56_b] (fun _ f => f) {| src := ex56_m; tmp := ex56_m |} = Ok s1 /\
  boundary (torus ex56_N) Z p BOTH ex56_S (fun _ => bounce) ex56_links s1 = Ok s2 /\
  getter (torus ex56_N) Z p BOTH ex56_S false m' x <> getter (torus ex56_N) Z p BOTH ex56_S false (src s2) x.
Proof.
  intros p Hp. assert (E : ex56_differ p = true) by (destruct p; try discriminate Hp; vm_compute; reflexivity).
  unfold ex56_differ in E.
  destruct (kernel_with_boundaries _ _ _ _ _ _ _ _ _) as [m'|] eqn:E1; [|discriminate E].
  destruct (update _ _ _ _ _ _ _ _) as [s1|] eqn:E2; [|discriminate E].
  destruct (boundary _ _ _ _ _ _ _ _) as [s2|] eqn:E3; [|discriminate E].
  exists m', s1, s2, ex56_b. split; [reflexivity|]. split; [reflexivity|]. split; [reflexivity|]. split; [exact E3|].
  intros G. rewrite G in E. destruct (getter _ _ _ _ _ _ (src s2) _) as [b|]; [|discriminate E].
  rewrite (proj2 (vec_eqb_true b b) eq_refl) in E. discriminate E.
Qed.
Print Assumptions C56_two_field_patterns_refuted.

(* FreeSlip reads a population of a neighbouring cell, which the kernel may not have updated yet: the result depends on the order in
   which the cells are visited.  Same reads as free_slip of BoundModel.v, integer populations. *)
Definition ex56_mirror (axis : nat) (normal : vec) (i : nat) : brule Z :=
  match inverse_dirs ex56_S, mirrored_dirs ex56_S axis with
  | Ok inv, Ok mir => {| b_reads := b_reads (free_slip ex56_S inv mir normal i); b_fun := fun l => hd 0%Z l |}
  | _, _ => bounce i
  end.
Definition ex56_slip : list (side Z) :=
  [([1; 0]%Z, bounce); ([-1; 0]%Z, bounce); ([0; 1]%Z, bounce); ([0; -1]%Z, ex56_mirror 1 [0; 1]%Z)].
Definition ex56_order : bool :=
  match kernel_with_boundaries ex56_N Z AA EVEN ex56_S ex56_slip [ex56_a; ex56_b] (fun _ f => f) ex56_m,
        kernel_with_boundaries ex56_N Z AA EVEN ex56_S ex56_slip [ex56_b; ex56_a] (fun _ f => f) ex56_m with
  | Ok m1, Ok m2 => existsb (fun e => negb (Z.eqb (m1 (fst e) (snd e)) (m2 (fst e) (snd e)))) (list_prod (torus_cells ex56_N) (seq 0 9))
  | _, _ => false
  end.
Theorem C56_free_slip_refuted : exists m1 m2 c q,
  kernel_with_boundaries ex56_N Z AA EVEN ex56_S ex56_slip [ex56_a; ex56_b] (fun _ f => f) ex56_m = Ok m1 /\
  kernel_with_boundaries ex56_N Z AA EVEN ex56_S ex56_slip [ex56_b; ex56_a] (fun _ f => f) ex56_m = Ok m2 /\
  m1 c q <> m2 c q.
Proof.
  assert (E : ex56_order = true) by (vm_compute; reflexivity). unfold ex56_order in E.
  destruct (kernel_with_boundaries _ _ _ _ _ _ [ex56_a; ex56_b] _ _) as [m1|] eqn:E1; [|discriminate E].
  destruct (kernel_with_boundaries _ _ _ _ _ _ [ex56_b; ex56_a] _ _) as [m2|] eqn:E2; [|discriminate E].
  apply existsb_exists in E as ((c & q) & _ & E). cbn [fst snd] in E.
  exists m1, m2, c, q. split; [reflexivity|]. split; [reflexivity|]. intros G. rewrite G, Z.eqb_refl in E. discriminate E.
Qed.
Print Assumptions C56_free_slip_refuted.
