(* C58: polymer stress of an Oldroyd-B fluid. *)
From Coq Require Import String List ZArith Bool Arith Reals Lra Lia Permutation.
From Verif Require Import RealLib StencilModel StencilSpec StencilProofs AccessModel AccessProofs GridModel GridProofs StreamModel StreamProofs OldModel OldSpec OldProofs OldProofs2 OldProofs3.
Import ListNotations.
Local Open Scope R_scope.

(* force from the interpolated face stresses: the divergence, exact for stresses which are quadratic around the cell *)
Theorem C58_force_divergence : forall (L : lattice) D half (tau : cell L -> tensor) x g h,
  staggered_stencil D half -> ldim L = D -> quadratic_around D half tau x g h ->
  force L D half (tauface L half tau) x = Ok (map (divergence D g) (seq 0 D)).
Proof.
  intros L D half tau x g h HS HL Hq. rewrite (force_value D half HS L HL tau x). f_equal. apply map_ext. intros j. apply (quadratic_force D half HS L HL tau x g h j Hq).
Qed.
Print Assumptions C58_force_divergence.
(* cubic parts are not differentiated exactly *)
Theorem C58_force_cubic_refuted : ~ (forall (tau : cell (grid [None]) -> tensor) x, (forall z : Z, tau (shift x [z]) 0%nat 0%nat = IZR z * IZR z * IZR z) ->
  force (grid [None]) 1 [[(-1)%Z]] (tauface (grid [None]) [[(-1)%Z]] tau) x = Ok [0]).
Proof.
  intros H. assert (HS : staggered_stencil 1 [[(-1)%Z]]) by (apply (check_ok 1 _ [1%Z]); vm_compute; reflexivity).
  set (x0 := exist (fun x => in_grid [None] x = true) [0%Z] eq_refl : cell (grid [None])).
  specialize (H (fun x _ _ => IZR (hd 0%Z (proj1_sig x)) * IZR (hd 0%Z (proj1_sig x)) * IZR (hd 0%Z (proj1_sig x))) x0 (fun z => eq_refl)).
  rewrite (force_value 1 [[(-1)%Z]] HS (grid [None]) eq_refl) in H. injection H as H. revert H. unfold A0, norm, at_. cbn.
  replace (-1 * -1 + 0) with 1 by ring. replace (1 * 1 + 0) with 1 by ring. rewrite sqrt_1. lra.
Qed.
Print Assumptions C58_force_cubic_refuted.

(* no net force: whatever is stored on the faces of a periodic domain *)
Theorem C58_momentum : forall N half faces (f : cell (torus N) -> list R) j, staggered_stencil (length N) half ->
  (forall x, force (torus N) (length N) half faces x = Ok (f x)) -> (j < length N)%nat ->
  rsum (map (fun x => nth j (f x) 0) (torus_cells N)) = 0.
Proof. intros N half faces f j HS Hf Hj. exact (total_zero N half HS faces f j Hf Hj). Qed.
Print Assumptions C58_momentum.
(* it is defined in every cell *)
Theorem C58_force_defined : forall N half faces, staggered_stencil (length N) half -> exists f, (forall x, force (torus N) (length N) half faces x = Ok (f x)) /\ (forall x, length (f x) = length N)
  /\ exists b, forall x o, In o (full_stencil half) -> force_on_boundary (torus N) (length N) half faces x o = Ok (b x o).
Proof.
  intros N half faces HS. pose proof (values_field N half HS faces) as HF.
  eexists. split; [intros x; apply (force_faces _ half HS (torus N) faces _ x HF)|]. split; [intros x; now rewrite map_length, seq_length|].
  exists (fun x o => match force_on_boundary (torus N) (length N) half faces x o with Ok v => v | Err _ => [] end). intros x o Ho. unfold force_on_boundary. destruct (access_value _ half HS (torus N) faces _ x o HF Ho) as (T & -> & _). reflexivity.
Qed.
Print Assumptions C58_force_defined.

(* action and reaction between fluid and solid: for faces along the axes only *)
Theorem C58_reaction : forall N half faces (fluid : cell (torus N) -> bool) f b j, staggered_stencil (length N) half -> (forall d, In d half -> norm d = 1) -> length half = length N ->
  (forall x, force (torus N) (length N) half faces x = Ok (f x)) ->
  (forall x o, In o (full_stencil half) -> force_on_boundary (torus N) (length N) half faces x o = Ok (b x o)) -> (j < length N)%nat ->
  fluid_total N fluid f j + solid_total N fluid half b j = 0.
Proof. intros N half faces fluid f b j HS Hn Hl Hf Hb Hj. exact (reaction N half HS faces fluid f b j Hn Hl Hf Hb Hj). Qed.
Print Assumptions C58_reaction.
(* with diagonal faces the reaction lacks the weights of the faces *)
Theorem C58_reaction_refuted : ~ (forall N half faces (fluid : cell (torus N) -> bool) f b j, staggered_stencil (length N) half ->
  (forall x, force (torus N) (length N) half faces x = Ok (f x)) ->
  (forall x o, In o (full_stencil half) -> force_on_boundary (torus N) (length N) half faces x o = Ok (b x o)) -> (j < length N)%nat ->
  fluid_total N fluid f j + solid_total N fluid half b j = 0).
Proof.
  intros H. destruct diagonal_unbalanced as (f & b & Hf & Hb & Hn). apply Hn. apply (H P33 faces_D2Q8 west_faces one_cell f b 0%nat (proj2 staggered_2d) Hf Hb). cbn. lia.
Qed.
Print Assumptions C58_reaction_refuted.

(* extrapolation to the face half a cell ahead: exact for polynomials up to the order, not beyond *)
Theorem C58_extrapolation : forall (L : lattice) order src (x : cell L) o, 
  ((2 < order)%nat -> extrapolate L order src x o = Err NotImplementedError) /\
  ((order <= 2)%nat -> forall p, (length p <= S order)%nat -> (forall n, (n <= order)%nat -> src (shift x (map (fun i => (- Z.of_nat n * i)%Z) o)) = eval p (- INR n)) ->
    extrapolate L order src x o = Ok (eval p (1 / 2))).
Proof.
  intros L order src x o. split.
  - intros H. destruct order as [|[|[|order]]]; [lia..|]. reflexivity.
  - intros Ho p Hp H. apply extrapolate_exact; assumption.
Qed.
Print Assumptions C58_extrapolation.
Theorem C58_extrapolation_beyond_refuted : forall (L : lattice) order src (x : cell L) o, (order <= 2)%nat ->
  (forall n, (n <= order)%nat -> src (shift x (map (fun i => (- Z.of_nat n * i)%Z) o)) = eval (repeat 0 (S order) ++ [1]) (- INR n)) ->
  extrapolate L order src x o <> Ok (eval (repeat 0 (S order) ++ [1]) (1 / 2)).
Proof.
  intros L order src x o Ho H. pose proof (H 0%nat ltac:(lia)) as H0. destruct order as [|[|[|order]]]; [..|lia].
  - rewrite (extrapolate_value L 0 src x o [1] eq_refl). cbn [length seq combine map fst snd]. unfold behind. rewrite H0. cbn. intros E. injection E as E. lra.
  - rewrite (extrapolate_value L 1 src x o [3 / 2; - (1 / 2)] eq_refl). cbn [length seq combine map fst snd]. unfold behind. rewrite H0, (H 1%nat) by lia. cbn. intros E. injection E as E. lra.
  - rewrite (extrapolate_value L 2 src x o [15 / 8; - (10 / 8); 3 / 8] eq_refl). cbn [length seq combine map fst snd]. unfold behind. rewrite H0, (H 1%nat), (H 2%nat) by lia. cbn. intros E. injection E as E. lra.
Qed.
Print Assumptions C58_extrapolation_beyond_refuted.

(* source term: symmetric, the same in every orthonormal frame, relaxing in a fluid at rest *)
Theorem C58_source : forall D lambda_p eta_p g tau,
  (symmetric D tau -> symmetric D (source D lambda_p eta_p g tau)) /\
  (forall Q i j, orthogonal D Q -> (i < D)%nat -> (j < D)%nat -> source D lambda_p eta_p (rotate D Q g) (rotate D Q tau) i j = rotate D Q (source D lambda_p eta_p g tau) i j) /\
  (forall i j, source D lambda_p eta_p (fun _ _ => 0) tau i j = - tau i j / lambda_p).
Proof.
  intros D lambda_p eta_p g tau. split; [apply source_symmetric|]. split; [intros; now apply source_rotate|].
  intros i j. unfold source, matmul, transpose. rewrite (rsum_ext _ (fun _ => 0)) by (intros; ring). rewrite (rsum_ext (fun k => 0 * tau k j) (fun _ => 0)) by (intros; ring). rewrite !rsum_zero. unfold Rdiv. ring.
Qed.
Print Assumptions C58_source.
(* in terms of the conformation tensor: upper convected derivative and relaxation towards the unit tensor *)
Theorem C58_conformation : forall D lambda_p eta_p g c tau i j, lambda_p <> 0 ->
  (forall k l, (k < D)%nat -> (l < D)%nat -> tau k l = eta_p / lambda_p * (c k l - if Nat.eqb k l then 1 else 0)) -> (i < D)%nat -> (j < D)%nat ->
  source D lambda_p eta_p g tau i j = eta_p / lambda_p * (matmul D c g i j + matmul D (transpose g) c i j - (c i j - if Nat.eqb i j then 1 else 0) / lambda_p).
Proof. exact source_conformation. Qed.
Print Assumptions C58_conformation.
(* simple shear: the only steady stress has shear viscosity eta and first normal stress difference 2 eta lambda rate^2, and no second one *)
Theorem C58_simple_shear : forall D lambda_p eta_p rate tau, (2 <= D)%nat -> lambda_p <> 0 ->
  ((forall i j, (i < D)%nat -> (j < D)%nat -> source D lambda_p eta_p (simple_shear rate) tau i j = 0) <->
   (forall i j, (i < D)%nat -> (j < D)%nat -> tau i j = viscometric lambda_p eta_p rate i j)).
Proof. exact shear_steady. Qed.
Print Assumptions C58_simple_shear.

(* the update of the stress: every component from the old stress of all components, whatever the order of the assignments *)
Theorem C58_update : forall D cont s, NoDup (map fst cont) -> (forall i j r, In ((i, j), r) cont -> reads_below D r) ->
  (forall i j r, In ((i, j), r) cont -> own (continuity D cont s) i j = r (own s)) /\
  (forall i j, ~ In (i, j) (map fst cont) -> own (continuity D cont s) i j = own s i j).
Proof. exact continuity_value. Qed.
Print Assumptions C58_update.

(* the staggered stencils in use *)
Example C58_stencils : staggered_stencil 2 faces_D2Q4 /\ staggered_stencil 2 faces_D2Q8 /\ staggered_stencil 3 faces_D3Q6 /\ staggered_stencil 3 faces_D3Q18 /\ staggered_stencil 3 faces_D3Q26.
Proof. split; [apply staggered_2d|split; [apply staggered_2d|apply staggered_3d]]. Qed.
Example C58_axis : forall d, In d faces_D3Q6 -> norm d = 1.
Proof. intros d Hd. unfold norm. cbn in Hd. destruct Hd as [<-|[<-|[<-|[]]]]; cbn; [replace (-1 * -1 + (0 * 0 + (0 * 0 + 0))) with 1 by ring|replace (0 * 0 + (-1 * -1 + (0 * 0 + 0))) with 1 by ring|replace (0 * 0 + (0 * 0 + (-1 * -1 + 0))) with 1 by ring]; apply sqrt_1. Qed.
(* a stress x y^0 + x y in component (0, 1) of the unbounded plane, around the cell (2, 3) *)
Definition C58_stress (x : cell (grid [None; None])) : tensor := fun i j => if (Nat.eqb i 0 && Nat.eqb j 1)%bool then IZR (nth 0 (proj1_sig x) 0%Z) * (1 + IZR (nth 1 (proj1_sig x) 0%Z)) else 0.
Example C58_quadratic : force (grid [None; None]) 2 faces_D2Q8 (tauface (grid [None; None]) faces_D2Q8 C58_stress) (exist _ [2; 3]%Z eq_refl) = Ok [0; 4].
Proof.
  rewrite (C58_force_divergence (grid [None; None]) 2 faces_D2Q8 C58_stress _
    (fun i j k => if (Nat.eqb i 0 && Nat.eqb j 1)%bool then if Nat.eqb k 0 then 4 else 2 else 0)
    (fun i j k l => if (Nat.eqb i 0 && Nat.eqb j 1 && Nat.eqb k 0 && Nat.eqb l 1)%bool then 1 else 0) (proj2 staggered_2d) eq_refl).
  - cbn. unfold divergence. cbn. do 2 f_equal; [ring|]. f_equal. ring.
  - intros i j d Hd. unfold C58_stress. destruct i as [|i], j as [|[|j]]; cbn in Hd; repeat destruct Hd as [<-|Hd]; try destruct Hd; cbn; unfold at_; cbn; ring.
Qed.
(* a quarter turn *)
Example C58_rotation : orthogonal 2 (fun i j => match i, j with 0%nat, 1%nat => -1 | 1%nat, 0%nat => 1 | _, _ => 0 end).
Proof. intros i j Hi Hj. destruct i as [|[|i]], j as [|[|j]]; try lia; unfold matmul, transpose; cbn; ring. Qed.
Example C58_swap : let swap := continuity 2 [((0, 1), fun T => T 1 0); ((1, 0), fun T => T 0 1)]%nat in
  let s := {| own := fun i j => INR (2 * i + j); copies := fun _ _ => 0 |} in own (swap s) 0%nat 1%nat = 2 /\ own (swap s) 1%nat 0%nat = 1.
Proof. cbn. split; ring. Qed.
