(* Newton iterations for increasing concave functions; the three wall laws. *)
From Coq Require Import List ZArith Bool Arith Reals Lra Lia Psatz.
From Verif Require Import StencilModel RealLib LinLib WallModel WallSpec.
Import ListNotations.
Local Open Scope R_scope.

Section Newton.
  Context (f f' : R -> R) (lo r : R).
  Hypothesis (Hr : lo < r) (Hroot : f r = 0).
  Hypothesis Hpos : forall t, lo < t -> 0 < f' t.
  Hypothesis Htan : forall s t, lo < s -> lo < t -> f s <= f t + f' t * (s - t).
  Lemma below_root t : lo < t -> t <= r -> f t <= 0.
  Proof. intros Ht H. pose proof (Htan t r Ht Hr). pose proof (Hpos r Hr). nra. Qed.
  Lemma below_strict t : lo < t -> t < r -> f t < 0.
  Proof. intros Ht H. pose proof (Htan t r Ht Hr). pose proof (Hpos r Hr). nra. Qed.
  Lemma above_root t : r < t -> 0 < f t.
  Proof. intros H. pose proof (Htan r t Hr ltac:(lra)). pose proof (Hpos t ltac:(lra)). nra. Qed.
  Lemma root_unique t : lo < t -> f t = 0 -> t = r.
  Proof. intros Ht E. destruct (Rtotal_order t r) as [H|[H|H]]; auto. pose proof (below_strict t Ht H). lra. pose proof (above_root t H). lra. Qed.
  Definition step t := t + - f t / f' t.
  Lemma quotient t : lo < t -> f' t * (- f t / f' t) = - f t.
  Proof. intros H. pose proof (Hpos t H). field. lra. Qed.
  Lemma step_below t : lo < t -> step t <= r.
  Proof. intros Ht. unfold step. pose proof (Htan r t Hr Ht). pose proof (Hpos t Ht). pose proof (quotient t Ht). nra. Qed.
  Lemma step_up t : lo < t -> t <= r -> t <= step t.
  Proof. intros Ht H. unfold step. pose proof (below_root t Ht H). pose proof (Hpos t Ht). pose proof (quotient t Ht). nra. Qed.
  Lemma slope_decreasing s t : lo < s -> s <= t -> f' t <= f' s.
  Proof. intros Hs H. pose proof (Htan s t Hs ltac:(lra)). pose proof (Htan t s ltac:(lra) Hs). destruct (Req_dec s t) as [->|]; [lra|]. nra. Qed.
  (* one step shrinks the distance to the root by a fixed factor *)
  Lemma step_contracts t0 t : lo < t0 -> t0 <= t -> t <= r -> r - step t <= (1 - f' r / f' t0) * (r - t).
  Proof.
    intros H0 H1 H2. pose proof (Hpos t0 H0) as P0. assert (Ht : lo < t) by lra. pose proof (Hpos t Ht) as P1. pose proof (Hpos r Hr) as P2.
    pose proof (slope_decreasing t0 t H0 H1) as D. pose proof (Htan t r Ht Hr) as T. rewrite Hroot in T. pose proof (quotient t Ht) as Q.
    set (q := - f t / f' t) in *. unfold step. fold q. assert (K : f' r / f' t0 * (r - t) <= q); [|lra].
    apply Rmult_le_reg_l with (f' t0); [auto|]. replace (f' t0 * (f' r / f' t0 * (r - t))) with (f' r * (r - t)) by (field; lra).
    assert (0 <= q). { pose proof (below_root t Ht H2). nra. } nra.
  Qed.
  Fixpoint iterate n t := match n with O => t | S n => iterate n (step t) end.
  Lemma iterate_bounds n : forall t, lo < t -> t <= r -> t <= iterate n t <= r.
  Proof. induction n; intros t H0 H1; cbn; [lra|]. pose proof (step_up t H0 H1). pose proof (step_below t H0). specialize (IHn (step t) ltac:(lra) ltac:(assumption)). lra. Qed.
  Lemma ratio t0 : lo < t0 -> t0 <= r -> 0 < f' r / f' t0 <= 1.
  Proof.
    intros H0 H1. pose proof (Hpos t0 H0). pose proof (Hpos r Hr). pose proof (slope_decreasing t0 r H0 H1). split; [apply Rdiv_lt_0_compat; auto|].
    apply Rmult_le_reg_r with (f' t0); auto. unfold Rdiv. rewrite Rmult_assoc, Rinv_l by lra. lra.
  Qed.
  Lemma iterate_converges t0 : lo < t0 -> t0 <= r -> forall n t, t0 <= t -> t <= r -> r - iterate n t <= (1 - f' r / f' t0) ^ n * (r - t).
  Proof.
    intros H0 H1. pose proof (ratio t0 H0 H1) as Q. induction n; intros t H2 H3; cbn [iterate pow]; [lra|].
    assert (Ht : lo < t) by lra. pose proof (step_up t Ht H3). pose proof (step_below t Ht). pose proof (step_contracts t0 t H0 H2 H3). specialize (IHn (step t) ltac:(lra) ltac:(lra)).
    assert (Q1 : 0 <= 1 - f' r / f' t0) by lra. set (q := 1 - f' r / f' t0) in *. assert (0 <= q ^ n) by (apply pow_le; exact Q1). apply Rle_trans with (q ^ n * (r - step t)); [auto|]. replace (q * q ^ n * (r - t)) with (q ^ n * (q * (r - t))) by ring.
    apply Rmult_le_compat_l; auto.
  Qed.
  (* the kernel's iteration; the law may have either sign *)
  Lemma newton_defined law diff (sg : R) : sg <> 0 -> (forall t, lo < t -> law t = Some (sg * f t) /\ diff t = Some (sg * f' t)) -> forall n t, lo < t -> t <= r ->
    exists l, newton_iteration law diff n t = Some l /\ length l = Datatypes.S n /\ last l 0 = iterate n t /\ (forall i, (i <= n)%nat -> nth i l 0 = iterate i t).
  Proof.
    intros Hsg HL. induction n; intros t H0 H1; cbn [newton_iteration].
    - exists [t]. repeat split. intros i Hi. now replace i with 0%nat by lia.
    - destruct (HL t H0) as [-> ->]. cbn [obind]. pose proof (Hpos t H0). rewrite rdiv_ok by (apply Rmult_integral_contrapositive_currified; lra). cbn [obind].
      replace (t + - (sg * f t) / (sg * f' t)) with (step t) by (unfold step; field; split; lra).
      pose proof (step_up t H0 H1). destruct (IHn (step t)) as (l & -> & Ll & Hl & Hn); [lra|now apply step_below|]. cbn [obind]. exists (t :: l). split; [reflexivity|]. split; [cbn; lia|]. split.
      + destruct l; [discriminate|]. exact Hl.
      + intros [|i] Hi; [reflexivity|]. cbn [nth iterate]. apply Hn. lia.
  Qed.
  Lemma newton_limit law diff (sg : R) : 0 <= lo -> sg <> 0 -> (forall t, lo < t -> law t = Some (sg * f t) /\ diff t = Some (sg * f' t)) -> forall t0, lo < t0 -> lo < step t0 ->
    converges_from_below (fun n => iterate n t0) r /\ forall n, exists l, newton_iteration law diff n t0 = Some l /\ last l 0 = iterate n t0.
  Proof.
    intros Hlo Hsg HL t0 H0 H1. pose proof (step_below t0 H0) as H2. split; [split|].
    - intros [|n] Hn; [lia|]. cbn [iterate]. pose proof (iterate_bounds n (step t0) H1 H2).
      pose proof (iterate_bounds 1 (iterate n (step t0)) ltac:(lra) ltac:(lra)) as B1.
      assert (C : forall n t, iterate n (step t) = step (iterate n t)) by (induction n0; intros; cbn; auto). rewrite (C n (step t0)). cbn [iterate] in B1. lra.
    - exists (1 - f' r / f' (step t0)). pose proof (ratio (step t0) H1 H2) as Q. split; [lra|]. intros n. cbn [iterate].
      pose proof (iterate_converges (step t0) H1 H2 n (step t0) ltac:(lra) H2) as C. assert (Q0 : 0 <= 1 - f' r / f' (step t0)) by lra. apply Rle_trans with (1 := C). apply Rmult_le_compat_l; [apply pow_le; exact Q0|lra].
    - intros [|n]; cbn [newton_iteration].
      + exists [t0]. auto.
      + destruct (HL t0 H0) as [-> ->]. cbn [obind]. pose proof (Hpos t0 H0). rewrite rdiv_ok by (apply Rmult_integral_contrapositive_currified; lra). cbn [obind].
        replace (t0 + - (sg * f t0) / (sg * f' t0)) with (step t0) by (unfold step; field; split; lra).
        destruct (newton_defined law diff sg Hsg HL n (step t0) H1 H2) as (l & -> & Ll & Hl & _). cbn [obind]. exists (t0 :: l). split; [reflexivity|]. destruct l; [discriminate|]. exact Hl.
  Qed.
End Newton.

(* ---- elementary inequalities ---- *)
Lemma ln_tangent s t : 0 < s -> 0 < t -> ln s <= ln t + / t * (s - t).
Proof.
  intros Hs Ht. assert (E : ln s = ln t + ln (s / t)) by (unfold Rdiv; rewrite ln_mult, ln_Rinv by (auto using Rinv_0_lt_compat); ring). rewrite E.
  assert (P : 0 < s / t) by (apply Rdiv_lt_0_compat; auto). assert (ln (s / t) <= s / t - 1).
  { pose proof (exp_ineq1_le (ln (s / t))). rewrite exp_ln in H by auto. lra. }
  replace (/ t * (s - t)) with (s / t - 1) by (field; lra). lra.
Qed.
Lemma inv_tangent s t : 0 < s -> 0 < t -> / t - (s - t) / (t ^ 2) <= / s.
Proof.
  intros Hs Ht. assert (E : / s - (/ t - (s - t) / t ^ 2) = (s - t) ^ 2 * (/ s * / (t ^ 2))) by (field; lra).
  assert (0 <= (s - t) ^ 2 * (/ s * / (t ^ 2))); [|lra]. apply Rmult_le_pos; [apply pow2_ge_0|]. left. apply Rmult_lt_0_compat; apply Rinv_0_lt_compat; auto. apply pow_lt; auto.
Qed.
(* remainders of the exponential series *)
Definition E1 z := exp z - 1 - z.
Definition E2 z := exp z - 1 - z - z ^ 2 / 2.
Definition E3 z := exp z - 1 - z - z ^ 2 / 2 - z ^ 3 / 6.
Lemma E1_pos z : 0 <= E1 z. Proof. unfold E1. pose proof (exp_ineq1_le z). lra. Qed.
Lemma E2_deriv z : derivable_pt_lim E2 z (E1 z).
Proof.
  unfold E2, E1. replace (exp z - 1 - z) with (exp z - 0 - 1 - (/ 2) * (INR 2 * z ^ 1)) by (cbn; lra).
  apply derivable_pt_lim_minus with (f1 := fun z => exp z - 1 - z) (f2 := fun z => z ^ 2 / 2).
  - apply derivable_pt_lim_minus with (f1 := fun z => exp z - 1) (f2 := fun z => z); [|apply derivable_pt_lim_id].
    apply derivable_pt_lim_minus with (f1 := exp) (f2 := fun z => 1); [apply derivable_pt_lim_exp|apply derivable_pt_lim_const].
  - apply derivable_pt_lim_ext with (f := mult_real_fct (/ 2) (fun z => z ^ 2)); [intros; unfold mult_real_fct; field|]. apply derivable_pt_lim_scal. apply (derivable_pt_lim_pow z 2).
Qed.
Lemma E3_deriv z : derivable_pt_lim E3 z (E2 z).
Proof.
  apply derivable_pt_lim_ext with (f := fun z => E2 z - z ^ 3 / 6); [reflexivity|]. replace (E2 z) with (E1 z - / 6 * (INR 3 * z ^ 2)) by (unfold E1, E2; cbn; lra).
  apply derivable_pt_lim_minus with (f1 := E2) (f2 := fun z => z ^ 3 / 6); [apply E2_deriv|].
  apply derivable_pt_lim_ext with (f := mult_real_fct (/ 6) (fun z => z ^ 3)); [intros; unfold mult_real_fct; field|]. apply derivable_pt_lim_scal. apply (derivable_pt_lim_pow z 3).
Qed.
Lemma E2_mono x y : x <= y -> E2 x <= E2 y.
Proof.
  intros [H | ->]; [|lra]. destruct (MVT_cor2 E2 E1 x y H) as (c & E & _); [intros; apply E2_deriv|]. pose proof (E1_pos c). nra.
Qed.
Lemma E2_0 : E2 0 = 0. Proof. unfold E2. rewrite exp_0. lra. Qed.
Lemma E2_pos x : 0 <= x -> 0 <= E2 x. Proof. intros H. rewrite <- E2_0. now apply E2_mono. Qed.
Lemma E3_tangent x y : E3 x + E2 x * (y - x) <= E3 y.
Proof.
  destruct (Rtotal_order x y) as [H|[ -> |H]]; [| lra |].
  - destruct (MVT_cor2 E3 E2 x y H) as (c & E & Hc); [intros; apply E3_deriv|]. pose proof (E2_mono x c ltac:(lra)). nra.
  - destruct (MVT_cor2 E3 E2 y x H) as (c & E & Hc); [intros; apply E3_deriv|]. pose proof (E2_mono c x ltac:(lra)). nra.
Qed.
Lemma E3_0 : E3 0 = 0. Proof. unfold E3. rewrite exp_0. lra. Qed.
Lemma E3_pos x : 0 <= x -> 0 <= E3 x. Proof. intros H. pose proof (E3_tangent 0 x). rewrite E3_0, E2_0 in H0. lra. Qed.
