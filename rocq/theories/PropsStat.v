From Coq Require Import List Arith Reals Lra Lia Permutation.
From Verif Require Import StencilModel RealLib StatModel StatSpec StatProofs.
Import ListNotations.
Local Open Scope R_scope.

(* C28: after any non-empty sequence of samples (counter 1, 2, 3, ...), whatever the mean field held initially,
   mean / sum of squares / sum of cubes hold the batch statistics of all samples so far; components outside
   the used range and fields that were not passed keep their contents *)
Theorem C28_batch_statistics dim sq cb xs st :
  (sq = None \/ sq = Some (dim ^ 2)%nat) /\ (cb = None \/ cb = Some (dim ^ 3)%nat) /\ (cb <> None -> sq <> None) ->
  xs <> [] ->
  (sq <> None -> forall i, (i < dim * dim)%nat -> w_sq st i = 0) ->
  (cb <> None -> forall i, (i < dim * dim * dim)%nat -> w_cb st i = 0) ->
  exists st', welford_run dim sq cb 0 xs st = Ok st' /\
    (forall i, (i < dim)%nat -> w_mean st' i = batch_mean xs i) /\
    (sq <> None -> forall i j, (i < dim)%nat -> (j < dim)%nat -> w_sq st' (i * dim + j)%nat = batch_cov xs i j) /\
    (cb <> None -> forall i j k, (i < dim)%nat -> (j < dim)%nat -> (k < dim)%nat ->
       w_cb st' ((i * dim + j) * dim + k)%nat = batch_third xs i j k) /\
    (forall i, (dim <= i)%nat -> w_mean st' i = w_mean st i) /\
    (forall i, (sq = None \/ dim * dim <= i)%nat -> w_sq st' i = w_sq st i) /\
    (forall i, (cb = None \/ dim * dim * dim <= i)%nat -> w_cb st' i = w_cb st i).
Proof. exact (welford_correct dim sq cb xs st). Qed.
Print Assumptions C28_batch_statistics.

(* C28: the order of the samples does not matter *)
Theorem C28_order_independent dim sq cb xs ys st :
  (sq = None \/ sq = Some (dim ^ 2)%nat) /\ (cb = None \/ cb = Some (dim ^ 3)%nat) /\ (cb <> None -> sq <> None) ->
  xs <> [] -> Permutation xs ys ->
  (sq <> None -> forall i, (i < dim * dim)%nat -> w_sq st i = 0) ->
  (cb <> None -> forall i, (i < dim * dim * dim)%nat -> w_cb st i = 0) ->
  exists s1 s2, welford_run dim sq cb 0 xs st = Ok s1 /\ welford_run dim sq cb 0 ys st = Ok s2 /\
    (forall i, w_mean s1 i = w_mean s2 i) /\ (forall i, w_sq s1 i = w_sq s2 i) /\ (forall i, w_cb s1 i = w_cb s2 i).
Proof. exact (welford_order dim sq cb xs ys st). Qed.
Print Assumptions C28_order_independent.

(* C28: wrong field layouts, and cubes without squares, are rejected *)
Theorem C28_layout_checks dim counter x st n :
  (n <> dim ^ 2 -> forall cb, welford_step dim (Some n) cb counter x st = Err AssertionError)%nat /\
  (n <> dim ^ 3 -> forall sq, sq = None \/ sq = Some (dim ^ 2) -> welford_step dim sq (Some n) counter x st = Err AssertionError)%nat /\
  (welford_step dim None (Some (dim ^ 3)%nat) counter x st = Err AssertionError).
Proof.
  split; [|split].
  - intros H cb. unfold welford_step, welford_layout. apply Nat.eqb_neq in H. rewrite H. reflexivity.
  - intros H sq [->| ->]; unfold welford_step, welford_layout; [|rewrite Nat.eqb_refl]; apply Nat.eqb_neq in H; rewrite H; reflexivity.
  - unfold welford_step, welford_layout. rewrite Nat.eqb_refl. reflexivity.
Qed.
Print Assumptions C28_layout_checks.

(* C27: the closed-form rate is the unique maximiser of the quadratic entropy relative to the equilibrium
   f + ds + dh among all values of the free rate (unforced rule: constant part = f) *)
Theorem C27_entropy_maximal f ds dh s : length f = length ds -> length ds = length dh ->
  Forall (fun x => 0 < x) (axpy (axpy f 1 ds) 1 dh) -> rsum dh = 0 -> ~ Forall (fun x => x = 0) dh ->
  exists wh post, add_entropy_condition false f f ds dh s = Ok (Some (wh, post)) /\
    post = axpy (axpy f s ds) wh dh /\
    forall w, w <> wh ->
      quadratic_entropy (axpy (axpy f s ds) w dh) (axpy (axpy f 1 ds) 1 dh)
      < quadratic_entropy post (axpy (axpy f 1 ds) 1 dh).
Proof. exact (entropic_maximal f ds dh s). Qed.
Print Assumptions C27_entropy_maximal.

(* C27: the iterative version, for update rules linear in the free rate (off + w fac): any number n+1 of
   Newton steps from any initial value gives the unique maximiser, with or without forcing *)
Theorem C27_newton_maximal n off fac feq w0 : length off = length fac -> length fac = length feq ->
  Forall (fun x => 0 < x) feq -> ~ Forall (fun x => x = 0) fac ->
  exists wh, newton_iterations (S n) off fac feq w0 = Some wh /\
    forall w, w <> wh -> quadratic_entropy (axpy off w fac) feq < quadratic_entropy (axpy off wh fac) feq.
Proof. exact (newton_maximal n off fac feq w0). Qed.
Print Assumptions C27_newton_maximal.

(* C27: zero-centered populations are rejected *)
Theorem C27_zero_centered_rejected f const ds dh s : add_entropy_condition true f const ds dh s = Err NotImplementedError.
Proof. reflexivity. Qed.
Print Assumptions C27_zero_centered_rejected.

(* C27, finding: with a (mass-conserving) force term in the constant part the closed-form rate is not the maximiser *)
Theorem C27_forced_refuted : exists f const ds dh s wh post w,
  length f = length ds /\ length ds = length dh /\ length const = length dh /\ rsum const = rsum f /\
  Forall (fun x => 0 < x) (axpy (axpy f 1 ds) 1 dh) /\ rsum dh = 0 /\ ~ Forall (fun x => x = 0) dh /\
  add_entropy_condition false f const ds dh s = Ok (Some (wh, post)) /\
  quadratic_entropy post (axpy (axpy f 1 ds) 1 dh)
  < quadratic_entropy (axpy (axpy const s ds) w dh) (axpy (axpy f 1 ds) 1 dh).
Proof.
  exists [1; 1], [11 / 10; 9 / 10], [0; 0], [1 / 2; - (1 / 2)], 1, 1, [16 / 10; 4 / 10], (8 / 10).
  cbn [length rsum fold_right axpy quadratic_entropy].
  split; [reflexivity|]. split; [reflexivity|]. split; [reflexivity|]. split; [lra|]. split; [repeat constructor; lra|]. split; [lra|].
  split; [intros H; apply Forall_cons_iff in H as [H _]; lra|]. split.
  2: { apply Rminus_gt_0_lt. match goal with |- 0 < ?x => replace x with (2 / 75) by field end. lra. }
  unfold add_entropy_condition, entropy_maximizing_omega, entropic_feq, entropic_update. cbn [combine map fst snd rsum fold_right].
  match goal with |- context [rdiv _ ?b] => replace b with (2 / 3) by field end.
  rewrite rdiv_ok by lra. cbn [obind].
  match goal with |- context [1 - ?x] => replace (1 - x) with 1 by field end.
  do 3 f_equal. f_equal; [field|]. f_equal. field.
Qed.
Print Assumptions C27_forced_refuted.

(* the hypotheses are met *)
Example C27_ex : let f := [2; 1; 1] in let ds := [1 / 4; - (1 / 4); 0] in let dh := [1 / 8; 1 / 8; - (1 / 4)] in
  Forall (fun x => 0 < x) (axpy (axpy f 1 ds) 1 dh) /\ rsum dh = 0 /\ ~ Forall (fun x => x = 0) dh.
Proof.
  cbn [axpy rsum fold_right]. split; [repeat constructor; lra|]. split; [lra|]. intros H; apply Forall_cons_iff in H as [H _]; lra.
Qed.
Example C28_ex : (Some 9 = None \/ Some 9 = Some (3 ^ 2))%nat /\ (Some 27 = None \/ Some 27 = Some (3 ^ 3))%nat.
Proof. auto. Qed.
