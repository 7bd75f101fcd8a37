From Coq Require Import List ZArith Bool Arith Reals Lra Lia Psatz.
From Verif Require Import StencilModel RealLib RateModel RateSpec RateProofs.
Import ListNotations.
Local Open Scope R_scope.

Lemma stress_som S f i j : stress S f i j = second_order_moment f S i j.
Proof. unfold stress, second_order_moment. f_equal. Qed.
Lemma stress_sym S f i j : stress S f i j = stress S f j i.
Proof. unfold stress. f_equal. apply map_ext. intros [x c]. cbn. lra. Qed.
Lemma Rmax_scal k a : 0 <= k -> Rmax (k * a) 0 = k * Rmax a 0.
Proof. intros H. unfold Rmax. destruct (Rle_dec (k * a) 0), (Rle_dec a 0); nra. Qed.
Lemma gt_Rmax r : (if Rgt_dec r 0 then r else 0) = Rmax r 0.
Proof. unfold Rmax. destruct (Rgt_dec r 0), (Rle_dec r 0); lra. Qed.
Lemma qr_law D S c w rho fneq w' nu_e : D = 2%nat \/ D = 3%nat -> 0 < w < 2 -> 0 < rho -> qr_model D S c w rho fneq = Some (w', nu_e) -> 0 < w' -> viscosity w' = viscosity w + nu_e ->
  nu_e = qr_eddy_viscosity D S c w' rho fneq.
Proof.
  intros HD Hw Hr H Hw' Hv. unfold qr_eddy_viscosity. set (M := second_order_moment fneq S) in *. set (k := 3 * w' / (2 * rho)).
  assert (Hk : 0 < k) by (unfold k; apply Rdiv_lt_0_compat; lra).
  assert (ES : forall i j, strain S w' rho fneq i j = - k * M i j). { intros i j. unfold strain, k, M. rewrite stress_som. field. lra. }
  assert (SY : forall i j, M i j = M j i). { intros i j. unfold M. rewrite <- !stress_som. apply stress_sym. }
  destruct HD as [-> | ->].
  - unfold qr_model in H. fold M in H. rewrite (visc_val w) in H by lra. cbn [obind qr_r] in H. apply obind_Some in H as (cp & Hcp & H). apply rdiv_Some in Hcp as [Hq Hcp].
    cbn [qr_nu_e obind] in H. apply obind_Some in H as (w1 & _ & H). injection H as _ <-. rewrite gt_Rmax in Hcp. rewrite Hcp.
    unfold determinant. cbn [Nat.eqb]. cbn zeta. rewrite !ES. unfold sq_norm, trace_sq, rsum in *. cbn [seq map fold_right] in *. rewrite !ES. unfold det2.
    replace (- (- k * M 0%nat 0%nat * (- k * M 1%nat 1%nat) - - k * M 0%nat 1%nat * (- k * M 1%nat 0%nat))) with (k * k * ((-1) ^ 3 * (M 0%nat 0%nat * M 1%nat 1%nat - M 0%nat 1%nat * M 1%nat 0%nat))) by ring.
    rewrite (Rmax_scal (k * k)) by nra. rewrite (SY 1%nat 0%nat) in *. field. set (q := M 0%nat 0%nat * M 0%nat 0%nat + M 0%nat 1%nat * M 0%nat 1%nat + (M 0%nat 1%nat * M 0%nat 1%nat + M 1%nat 1%nat * M 1%nat 1%nat)). assert (Hq' : q <> 0) by (unfold q; intros E; apply Hq; lra).
    split; [|exact Hq']. match goal with |- ?x <> 0 => replace x with (k * k * q) by (unfold q; ring) end. apply Rmult_integral_contrapositive. split; [nra|exact Hq'].
  - pose proof (qr_root 3 S c w rho fneq w' nu_e (viscosity w) eq_refl Hw Hr ltac:(apply visc_val; lra) H) as R. cbn zeta in R. fold M in R.
    assert (Hq : 1 / 2 * trace_sq 3 M <> 0). { unfold qr_model in H. fold M in H. rewrite (visc_val w) in H by lra. cbn [obind qr_r] in H. apply obind_Some in H as (cp & Hcp & H). now apply rdiv_Some in Hcp as [Hq _]. }
    assert (EK : nu_e * (2 / w') = 3 * (c * Rmax (det3 M) 0 / (1 / 2 * trace_sq 3 M)) / rho).
    { rewrite <- R. f_equal. unfold viscosity in Hv. assert (2 / w' = 2 * (1 / w')) by (field; lra). unfold viscosity. lra. }
    assert (EN : nu_e = k * (c * Rmax (det3 M) 0 / (1 / 2 * trace_sq 3 M))).
    { replace nu_e with (nu_e * (2 / w') * (w' / 2)) by (field; lra). rewrite EK. unfold k. field. repeat split; lra. }
    rewrite EN. replace (- determinant 3 (strain S w' rho fneq)) with (k * k * k * det3 M) by (unfold determinant, det3; cbn [Nat.eqb]; cbn zeta; rewrite !ES; ring).
    rewrite (Rmax_scal (k * k * k)) by (assert (0 < k * k) by nra; nra).
    replace (sq_norm 3 (strain S w' rho fneq)) with (k * k * trace_sq 3 M).
    + field. split; lra.
    + unfold sq_norm, trace_sq, rsum. cbn [seq map fold_right]. rewrite !ES. rewrite (SY 1%nat 0%nat), (SY 2%nat 0%nat), (SY 2%nat 1%nat). ring.
Qed.
Lemma C26_qr_full D S c w rho fneq : D = 2%nat \/ D = 3%nat -> 0 < w < 2 -> 0 < rho -> 0 <= c ->
  (exists i j, (i < D)%nat /\ (j < D)%nat /\ stress S fneq i j <> 0) ->
  exists w' nu_e, qr_model D S c w rho fneq = Some (w', nu_e) /\ 0 <= nu_e /\ 0 < w' <= w /\
    viscosity w' = viscosity w + nu_e /\ nu_e = qr_eddy_viscosity D S c w' rho fneq.
Proof.
  intros HD Hw Hr Hc Hne. destruct (C26_qr D S c w rho fneq HD Hw Hr Hc Hne) as (w' & nu_e & E & H1 & H2 & H3). exists w', nu_e.
  split; [auto|]. split; [auto|]. split; [auto|]. split; [auto|]. eapply qr_law; eauto. lra.
Qed.
