(* The three implicit wall laws: derivatives, friction velocity, convergence of the iteration. *)
From Coq Require Import List ZArith Bool Arith Reals Lra Lia Psatz.
From Verif Require Import StencilModel RealLib LinLib WallModel WallSpec WallProofs.
Import ListNotations.
Local Open Scope R_scope.

Lemma rln_ok x : 0 < x -> rln x = Some (ln x).
Proof. intros H. unfold rln. destruct (Rlt_dec 0 x); [reflexivity|contradiction]. Qed.
Lemma rln_none x : x <= 0 -> rln x = None.
Proof. intros H. unfold rln. destruct (Rlt_dec 0 x); [lra|reflexivity]. Qed.
Lemma guess_starts u target t : starts_at u target t -> initial_guess target u = t.
Proof. intros [x Hx| |]; cbn; auto; destruct (Req_EM_T _ _); auto; contradiction. Qed.

Lemma inv_deriv t : t <> 0 -> derivable_pt_lim (fun t => / t) t (- / t ^ 2).
Proof.
  intros H. apply derivable_pt_lim_ext with (f := div_fct (fct_cte 1) id); [intros; unfold div_fct, fct_cte, id; unfold Rdiv; ring|].
  replace (- / t ^ 2) with ((0 * id t - 1 * fct_cte 1 t) / Rsqr (id t)) by (unfold id, fct_cte, Rsqr; field; auto).
  apply derivable_pt_lim_div; [apply derivable_pt_lim_const|apply derivable_pt_lim_id|exact H].
Qed.

(* ---- logarithmic law ---- *)
Section Log.
  Context (nu kappa b d U : R).
  Hypothesis (Hnu : 0 < nu) (Hk : 0 < kappa) (Hd : 0 < d) (HU : 0 < U).
  Definition flog t := / kappa * ln (d * t / nu) + b - U / t.
  Definition flog' t := / (kappa * t) + U / t ^ 2.
  Lemma c_pos : 0 < d / nu. Proof. apply Rdiv_lt_0_compat; auto. Qed.
  Lemma yp_pos t : 0 < t -> 0 < d * t / nu.
  Proof. intros. apply Rdiv_lt_0_compat; auto. apply Rmult_lt_0_compat; auto. Qed.
  Lemma log_law_ok t : 0 < t -> log_law nu kappa b d U t = Some (flog t).
  Proof. intros Ht. unfold log_law, with_plus. rewrite !rdiv_ok by lra. cbn [obind]. rewrite rln_ok by now apply yp_pos. cbn [obind]. unfold flog. do 2 f_equal. field. repeat split; lra. Qed.
  Lemma log_law_neg t : t < 0 -> log_law nu kappa b d U t = None.
  Proof. intros Ht. unfold log_law, with_plus. rewrite !rdiv_ok by lra. cbn [obind]. rewrite rln_none; [reflexivity|]. assert (d * t < 0) by nra. pose proof (Rinv_0_lt_compat _ Hnu). unfold Rdiv. nra. Qed.
  Lemma log_law_zero : log_law nu kappa b d U 0 = None.
  Proof. unfold log_law, with_plus. now rewrite rdiv_zero. Qed.
  Lemma log_diff_ok t : 0 < t -> log_diff kappa U t = Some (flog' t).
  Proof. intros Ht. pose proof (pow_lt t 2 Ht). assert (0 < kappa * t) by (apply Rmult_lt_0_compat; auto). unfold log_diff. rewrite !rdiv_ok by lra. cbn [obind]. unfold flog'. do 2 f_equal. field. lra. Qed.
  Lemma flog'_pos t : 0 < t -> 0 < flog' t.
  Proof. intros Ht. unfold flog'. apply Rplus_lt_0_compat; [apply Rinv_0_lt_compat, Rmult_lt_0_compat; auto|apply Rdiv_lt_0_compat; auto using pow_lt]. Qed.
  Lemma ln_yp t : 0 < t -> ln (d * t / nu) = ln (d / nu) + ln t.
  Proof. intros. rewrite <- ln_mult by (auto using c_pos). f_equal. field. lra. Qed.
  Lemma flog_tangent s t : 0 < s -> 0 < t -> flog s <= flog t + flog' t * (s - t).
  Proof.
    intros Hs Ht. unfold flog, flog'. rewrite !ln_yp by auto. pose proof (ln_tangent s t Hs Ht) as L. pose proof (inv_tangent s t Hs Ht) as I.
    pose proof (Rinv_0_lt_compat _ Hk) as K. rewrite Rinv_mult. unfold Rdiv in *. set (x := / t ^ 2) in *. set (y := / s) in *. set (z := / t) in *. set (k := / kappa) in *. nra.
  Qed.
  Lemma flog_root : exists r, 0 < r /\ flog r = 0.
  Proof.
    pose (h := fun s => / kappa * (ln (d / nu) + s) + b - U * exp (- s)).
    assert (Hh : forall s, h s = flog (exp s)).
    { intros s. unfold h, flog. rewrite ln_yp, ln_exp by apply exp_pos. unfold Rdiv. now rewrite exp_Ropp. }
    assert (C : continuity h) by (unfold h; reg).
    pose (x := - (kappa * b) - ln (d / nu)). pose (y := Rmax 0 (kappa * (U - b) - ln (d / nu)) + 1).
    pose proof (Rmax_l 0 (kappa * (U - b) - ln (d / nu))) as M1. pose proof (Rmax_r 0 (kappa * (U - b) - ln (d / nu))) as M2.
    assert (KU : 0 < kappa * U) by (apply Rmult_lt_0_compat; auto). pose proof (Rinv_0_lt_compat _ Hk) as K. assert (KK : / kappa * kappa = 1) by (field; lra).
    destruct (IVT h x y C) as (z & _ & Hz).
    - unfold x, y. lra.
    - unfold h, x. pose proof (exp_pos (- (- (kappa * b) - ln (d / nu)))) as E. replace (/ kappa * (ln (d / nu) + (- (kappa * b) - ln (d / nu))) + b) with 0 by (field; lra). nra.
    - unfold h. assert (exp (- y) <= 1). { rewrite <- exp_0. destruct (Req_dec y 0) as [->|]; [rewrite Ropp_0; lra|]. left. apply exp_increasing. unfold y. lra. }
      assert (kappa * (U - b) < ln (d / nu) + y) by (unfold y; lra). assert (/ kappa * (kappa * (U - b)) < / kappa * (ln (d / nu) + y)) by (apply Rmult_lt_compat_l; auto).
      replace (/ kappa * (kappa * (U - b))) with (U - b) in H1 by (field; lra). nra.
    - exists (exp z). split; [apply exp_pos|]. now rewrite <- Hh.
  Qed.
  Lemma flog_friction r : friction_velocity (log_profile kappa b) nu d U r <-> 0 < r /\ flog r = 0.
  Proof. unfold friction_velocity, log_profile, flog. split; intros [H E]; split; auto; lra. Qed.
  (* the first step stays positive exactly under this condition *)
  Lemma log_step_pos t : 0 < t -> (0 < step flog flog' t <-> ln (d * t / nu) + kappa * b < 1 + 2 * kappa * (U / t)).
  Proof.
    intros Ht. pose proof (flog'_pos t Ht) as P. unfold step. assert (E : flog' t * (t + - flog t / flog' t) = / kappa * (1 + 2 * kappa * (U / t) - (ln (d * t / nu) + kappa * b))).
    { replace (flog' t * (t + - flog t / flog' t)) with (flog' t * t - flog t) by (field; lra). unfold flog, flog'. field. split; lra. }
    pose proof (Rinv_0_lt_compat _ Hk) as K. set (q := t + - flog t / flog' t) in *. set (w := 1 + 2 * kappa * (U / t)) in *. set (v := ln (d * t / nu) + kappa * b) in *. split; intros H.
    - assert (0 < / kappa * (w - v)) by (rewrite <- E; apply Rmult_lt_0_compat; auto). assert (0 < kappa * (/ kappa * (w - v))) by (apply Rmult_lt_0_compat; auto). replace (kappa * (/ kappa * (w - v))) with (w - v) in H1 by (field; lra). lra.
    - assert (0 < / kappa * (w - v)) by (apply Rmult_lt_0_compat; lra). rewrite <- E in H0. nra.
  Qed.
  Lemma log_defined t : 0 < t -> log_law nu kappa b d U t = Some (1 * flog t) /\ log_diff kappa U t = Some (1 * flog' t).
  Proof. intros Ht. rewrite !Rmult_1_l. split; [now apply log_law_ok|now apply log_diff_ok]. Qed.
  Lemma log_undefined t n : 0 < t -> 1 + 2 * kappa * (U / t) <= ln (d * t / nu) + kappa * b -> newton_iteration (log_law nu kappa b d U) (log_diff kappa U) (2 + n) t = None.
  Proof.
    intros Ht H. assert (S : step flog flog' t <= 0). { apply Rnot_lt_le. intros H1. apply (log_step_pos t Ht) in H1. lra. }
    cbn [Nat.add newton_iteration]. rewrite log_law_ok, log_diff_ok by auto. cbn [obind]. pose proof (flog'_pos t Ht). rewrite rdiv_ok by lra. cbn [obind]. fold (step flog flog' t).
    destruct S as [S|S]; [now rewrite log_law_neg|]. now rewrite S, log_law_zero.
  Qed.
  Lemma flog_deriv t : 0 < t -> derivable_pt_lim flog t (flog' t).
  Proof.
    intros Ht. unfold flog, flog'.
    replace (/ (kappa * t) + U / t ^ 2) with (/ kappa * (/ (d * t / nu) * (d / nu)) + 0 - U * - / t ^ 2) by (field; repeat split; lra).
    apply derivable_pt_lim_minus with (f1 := fun t => / kappa * ln (d * t / nu) + b) (f2 := fun t => U / t).
    - apply derivable_pt_lim_plus with (f1 := fun t => / kappa * ln (d * t / nu)) (f2 := fun _ => b); [|apply derivable_pt_lim_const].
      apply (derivable_pt_lim_scal (fun t => ln (d * t / nu)) (/ kappa)).
      apply (derivable_pt_lim_comp (fun t => d * t / nu) ln).
      + apply derivable_pt_lim_ext with (f := mult_real_fct (d / nu) id); [intros z; unfold mult_real_fct, id; field; lra|].
        replace (d / nu) with (d / nu * 1) at 2 by ring. apply derivable_pt_lim_scal. apply derivable_pt_lim_id.
      + apply derivable_pt_lim_ln. now apply yp_pos.
    - apply (derivable_pt_lim_scal (fun t => / t) U). now apply inv_deriv, Rgt_not_eq.
  Qed.
End Log.

(* ---- Spalding's law ---- *)
Section Spald.
  Context (nu kappa b d U : R).
  Hypothesis (Hnu : 0 < nu) (Hk : 0 < kappa) (Hd : 0 < d) (HU : 0 < U).
  Definition gsp x := x + exp (- (kappa * b)) * E3 (kappa * x).
  Definition gsp' x := 1 + exp (- (kappa * b)) * (E2 (kappa * x) * kappa).
  Definition fsp t := d * t / nu - gsp (U / t).
  Definition fsp' t := d / nu + gsp' (U / t) * (U / t ^ 2).
  Lemma up_pos t : 0 < t -> 0 < U / t. Proof. intros. now apply Rdiv_lt_0_compat. Qed.
  Lemma gsp'_ge1 x : 0 <= x -> 1 <= gsp' x.
  Proof. intros H. unfold gsp'. pose proof (E2_pos (kappa * x) ltac:(nra)). pose proof (exp_pos (- (kappa * b))). assert (0 <= E2 (kappa * x) * kappa) by nra. nra. Qed.
  Lemma gsp_ge x : 0 <= x -> x <= gsp x.
  Proof. intros H. unfold gsp. pose proof (E3_pos (kappa * x) ltac:(nra)). pose proof (exp_pos (- (kappa * b))). nra. Qed.
  Lemma gsp_tangent x y : gsp x + gsp' x * (y - x) <= gsp y.
  Proof. unfold gsp, gsp'. pose proof (E3_tangent (kappa * x) (kappa * y)). pose proof (exp_pos (- (kappa * b))). set (e := exp (- (kappa * b))) in *. set (a1 := E3 (kappa * x)) in *. set (a2 := E3 (kappa * y)) in *. set (a3 := E2 (kappa * x)) in *. clearbody e a1 a2 a3. nra. Qed.
  Lemma spald_defined t : 0 < t -> spalding_law nu kappa b d U t = Some (-1 * fsp t) /\ spalding_diff nu kappa b d U t = Some (-1 * fsp' t).
  Proof.
    intros Ht. pose proof (pow_lt t 2 Ht). unfold spalding_law, spalding_diff, with_plus. rewrite !rdiv_ok by lra. cbn [obind].
    replace (- kappa * b) with (- (kappa * b)) by ring. unfold fsp, fsp', gsp, gsp', E3, E2. split; apply f_equal; [ring|]. field. lra.
  Qed.
  Lemma fsp'_pos t : 0 < t -> 0 < fsp' t.
  Proof.
    intros Ht. pose proof (up_pos t Ht). pose proof (gsp'_ge1 (U / t) ltac:(lra)). assert (0 < U / t ^ 2) by (apply Rdiv_lt_0_compat; auto using pow_lt). assert (0 < d / nu) by (apply Rdiv_lt_0_compat; auto).
    unfold fsp'. nra.
  Qed.
  Lemma fsp_tangent s t : 0 < s -> 0 < t -> fsp s <= fsp t + fsp' t * (s - t).
  Proof.
    intros Hs Ht. pose proof (gsp_tangent (U / t) (U / s)) as T. pose proof (inv_tangent s t Hs Ht) as I. pose proof (up_pos t Ht). pose proof (gsp'_ge1 (U / t) ltac:(lra)) as G. unfold fsp, fsp'.
    assert (I2 : - (U / t ^ 2 * (s - t)) <= U / s - U / t). { replace (- (U / t ^ 2 * (s - t))) with (U * (/ t - (s - t) / t ^ 2 - / t)) by (field; lra). replace (U / s - U / t) with (U * (/ s - / t)) by (field; lra). apply Rmult_le_compat_l; lra. }
    replace (d * s / nu) with (d * t / nu + d / nu * (s - t)) by (field; lra).
    set (g := gsp' (U / t)) in *. set (x := U / t ^ 2 * (s - t)) in *. set (a1 := gsp (U / s)) in *. set (a2 := gsp (U / t)) in *. set (w := U / s - U / t) in *.
    replace ((d / nu + g * (U / t ^ 2)) * (s - t)) with (d / nu * (s - t) + g * x) by (unfold x; ring). clearbody g x a1 a2 w. assert (g * - x <= g * w) by (apply Rmult_le_compat_l; lra). lra.
  Qed.
  Lemma gsp_mono x y : 0 <= x -> x <= y -> gsp x <= gsp y.
  Proof. intros H0 H1. pose proof (gsp_tangent x y). pose proof (gsp'_ge1 x H0). nra. Qed.
  Lemma fsp_root : exists r, 0 < r /\ fsp r = 0.
  Proof.
    pose (h := fun s => d / nu * exp s - (U * exp (- s) + exp (- (kappa * b)) * (exp (kappa * (U * exp (- s))) - 1 - kappa * (U * exp (- s)) - (kappa * (U * exp (- s))) ^ 2 / 2 - (kappa * (U * exp (- s))) ^ 3 / 6))).
    assert (Hh : forall s, h s = fsp (exp s)).
    { intros s. unfold h, fsp, gsp, E3. replace (U / exp s) with (U * exp (- s)) by (rewrite exp_Ropp; reflexivity). replace (d * exp s / nu) with (d / nu * exp s) by (field; lra). reflexivity. }
    assert (C : continuity h) by (unfold h; reg).
    pose (c := d / nu). assert (Hc : 0 < c) by (apply Rdiv_lt_0_compat; auto).
    pose (t1 := U / (c + U)). pose (t2 := 1 + gsp U / c).
    assert (P1 : 0 < t1) by (apply Rdiv_lt_0_compat; lra). assert (L1 : t1 < 1). { unfold t1. apply Rmult_lt_reg_r with (c + U); [lra|]. unfold Rdiv. rewrite Rmult_assoc, Rinv_l by lra. lra. }
    pose proof (gsp_ge U ltac:(lra)) as G. assert (L2 : 1 < t2). { unfold t2. assert (0 < gsp U / c) by (apply Rdiv_lt_0_compat; lra). lra. }
    destruct (IVT h (ln t1) (ln t2) C) as (z & _ & Hz).
    - apply ln_increasing; lra.
    - rewrite Hh, exp_ln by auto. unfold fsp. pose proof (gsp_ge (U / t1) ltac:(left; now apply up_pos)) as G1. replace (U / t1) with (c + U) in * by (unfold t1; field; split; lra).
      replace (d * t1 / nu) with (c * t1) by (unfold c; field; lra). clearbody c t1. nra.
    - rewrite Hh, exp_ln by lra. unfold fsp. assert (gsp (U / t2) <= gsp U). { apply gsp_mono; [left; apply up_pos; lra|]. apply Rmult_le_reg_r with t2; [lra|]. unfold Rdiv. rewrite Rmult_assoc, Rinv_l by lra. clearbody t2. nra. }
      replace (d * t2 / nu) with (c + gsp U) by (unfold t2, c; field; split; lra). lra.
    - exists (exp z). split; [apply exp_pos|]. now rewrite <- Hh.
  Qed.
  Lemma fsp_friction r : friction_velocity (spalding_profile kappa b) nu d U r <-> 0 < r /\ fsp r = 0.
  Proof. unfold friction_velocity, spalding_profile, fsp, gsp, E3. split; intros [H E]; split; auto; lra. Qed.
  Lemma spald_step_pos t : 0 < t -> 0 < step fsp fsp' t.
  Proof.
    intros Ht. pose proof (fsp'_pos t Ht) as P. pose proof (up_pos t Ht) as Pu. pose proof (gsp_ge (U / t) ltac:(lra)). pose proof (gsp'_ge1 (U / t) ltac:(lra)). unfold step.
    assert (E : fsp' t * (t + - fsp t / fsp' t) = gsp' (U / t) * (U / t) + gsp (U / t)). { replace (fsp' t * (t + - fsp t / fsp' t)) with (fsp' t * t - fsp t) by (field; lra). unfold fsp, fsp'. field. split; lra. }
    assert (0 < gsp' (U / t) * (U / t) + gsp (U / t)) by nra. rewrite <- E in H1. clear E. apply Rnot_le_lt. intros N. nra.
  Qed.
  Lemma gsp_deriv x : derivable_pt_lim gsp x (gsp' x).
  Proof.
    unfold gsp, gsp'. apply derivable_pt_lim_plus with (f1 := fun x => x) (f2 := fun x => exp (- (kappa * b)) * E3 (kappa * x)); [apply derivable_pt_lim_id|].
    apply (derivable_pt_lim_scal (fun x => E3 (kappa * x))). apply (derivable_pt_lim_comp (fun x => kappa * x) E3); [|apply E3_deriv].
    pose proof (derivable_pt_lim_scal id kappa x 1 (derivable_pt_lim_id x)) as D. rewrite Rmult_1_r in D. exact D.
  Qed.
  Lemma fsp_deriv t : 0 < t -> derivable_pt_lim fsp t (fsp' t).
  Proof.
    intros Ht. unfold fsp, fsp'. replace (d / nu + gsp' (U / t) * (U / t ^ 2)) with (d / nu * 1 - gsp' (U / t) * (U * - / t ^ 2)) by (field; lra).
    apply derivable_pt_lim_minus with (f1 := fun t => d * t / nu) (f2 := fun t => gsp (U / t)).
    - apply derivable_pt_lim_ext with (f := mult_real_fct (d / nu) id); [intros z; unfold mult_real_fct, id; field; lra|]. apply derivable_pt_lim_scal. apply derivable_pt_lim_id.
    - apply (derivable_pt_lim_comp (fun t => U / t) gsp); [|apply gsp_deriv]. apply (derivable_pt_lim_scal (fun t => / t) U). now apply inv_deriv, Rgt_not_eq.
  Qed.
End Spald.

(* ---- Musker's law ---- *)
Lemma square_pos_ne x : x <> 0 -> 0 < x ^ 2.
Proof. intros. assert (E : x ^ 2 = Rsqr x) by (unfold Rsqr; ring). rewrite E. now apply Rsqr_pos_lt. Qed.
Lemma musker_A_pos y : 0 < musker_A y.
Proof. unfold musker_A. assert (0 <= (y - 815 / 200) ^ 2) by apply pow2_ge_0. lra. Qed.
Definition mB (y : R) := 1 + (musker_a * y - musker_b) ^ 2.
Lemma mB_pos y : 0 < mB y.
Proof. unfold mB. assert (0 <= (musker_a * y - musker_b) ^ 2) by apply pow2_ge_0. lra. Qed.
Definition mk y := 5424 / 1000 * atan (musker_a * y - musker_b) + 434 / 1000 * (96 / 10 * ln (y + 106 / 10) - 2 * ln (musker_A y)) - musker_c.
Definition mk' y := 5424 / 1000 * (musker_a / mB y) + 434 / 1000 * (96 / 10 / (y + 106 / 10) - 2 * (2 * y - 815 / 100) / musker_A y).
Definition mk'' y := 5424 / 1000 * (musker_a * (- (2 * musker_a * (musker_a * y - musker_b)) / mB y ^ 2)) +
  434 / 1000 * (- (96 / 10) / (y + 106 / 10) ^ 2 - (4 * musker_A y - 2 * (2 * y - 815 / 100) ^ 2) / musker_A y ^ 2).
Lemma linear_deriv p q y : derivable_pt_lim (fun y => p * y + q) y p.
Proof.
  assert (D : derivable_pt_lim (fun y => p * y + q) y (p * 1 + 0)); [|now rewrite Rmult_1_r, Rplus_0_r in D]. apply derivable_pt_lim_plus with (f1 := fun y => p * y) (f2 := fun _ => q); [|apply derivable_pt_lim_const].
  apply (derivable_pt_lim_scal id). apply derivable_pt_lim_id.
Qed.
Lemma A_deriv y : derivable_pt_lim musker_A y (2 * y - 815 / 100).
Proof.
  apply derivable_pt_lim_ext with (f := fun y => y ^ 2 + (- (815 / 100) * y + 86)); [intros; unfold musker_A; ring|].
  replace (2 * y - 815 / 100) with (INR 2 * y ^ 1 + - (815 / 100)) by (cbn; ring).
  apply derivable_pt_lim_plus with (f1 := fun y => y ^ 2) (f2 := fun y => - (815 / 100) * y + 86); [apply (derivable_pt_lim_pow y 2)|apply linear_deriv].
Qed.
Lemma arg_deriv y : derivable_pt_lim (fun y => musker_a * y - musker_b) y musker_a.
Proof. apply derivable_pt_lim_ext with (f := fun y => musker_a * y + - musker_b); [intros; ring|apply linear_deriv]. Qed.
Lemma B_deriv y : derivable_pt_lim mB y (2 * musker_a * (musker_a * y - musker_b)).
Proof.
  replace (2 * musker_a * (musker_a * y - musker_b)) with (0 + INR 2 * (musker_a * y - musker_b) ^ 1 * musker_a) by (cbn; ring).
  apply derivable_pt_lim_plus with (f1 := fun _ => 1) (f2 := fun y => (musker_a * y - musker_b) ^ 2); [apply derivable_pt_lim_const|].
  apply (derivable_pt_lim_comp (fun y => musker_a * y - musker_b) (fun z => z ^ 2)); [apply arg_deriv|apply (derivable_pt_lim_pow _ 2)].
Qed.
Lemma shift_deriv y : derivable_pt_lim (fun y => y + 106 / 10) y 1.
Proof. apply derivable_pt_lim_ext with (f := fun y => 1 * y + 106 / 10); [intros; ring|apply linear_deriv]. Qed.
Lemma mk_deriv y : 0 <= y -> derivable_pt_lim mk y (mk' y).
Proof.
  intros Hy. pose proof (musker_A_pos y) as PA. pose proof (mB_pos y) as PB.
  replace (mk' y) with (5424 / 1000 * (/ (1 + (musker_a * y - musker_b) ^ 2) * musker_a) + 434 / 1000 * (96 / 10 * (/ (y + 106 / 10) * 1) - 2 * (/ musker_A y * (2 * y - 815 / 100))) - 0)
    by (unfold mk'; fold (mB y); unfold Rdiv; ring).
  unfold mk. apply derivable_pt_lim_minus with (f1 := fun y => 5424 / 1000 * atan (musker_a * y - musker_b) + 434 / 1000 * (96 / 10 * ln (y + 106 / 10) - 2 * ln (musker_A y))) (f2 := fun _ => musker_c); [|apply derivable_pt_lim_const].
  apply derivable_pt_lim_plus with (f1 := fun y => 5424 / 1000 * atan (musker_a * y - musker_b)) (f2 := fun y => 434 / 1000 * (96 / 10 * ln (y + 106 / 10) - 2 * ln (musker_A y))).
  - apply (derivable_pt_lim_scal (fun y => atan (musker_a * y - musker_b))). apply (derivable_pt_lim_comp (fun y => musker_a * y - musker_b) atan); [apply arg_deriv|].
    apply derivable_pt_lim_atan.
  - apply (derivable_pt_lim_scal (fun y => 96 / 10 * ln (y + 106 / 10) - 2 * ln (musker_A y))).
    apply derivable_pt_lim_minus with (f1 := fun y => 96 / 10 * ln (y + 106 / 10)) (f2 := fun y => 2 * ln (musker_A y)).
    + apply (derivable_pt_lim_scal (fun y => ln (y + 106 / 10))). apply (derivable_pt_lim_comp (fun y => y + 106 / 10) ln); [apply shift_deriv|apply derivable_pt_lim_ln; lra].
    + apply (derivable_pt_lim_scal (fun y => ln (musker_A y))). apply (derivable_pt_lim_comp musker_A ln); [apply A_deriv|apply derivable_pt_lim_ln; auto].
Qed.
Lemma mk'_deriv y : 0 <= y -> derivable_pt_lim mk' y (mk'' y).
Proof.
  intros Hy. pose proof (musker_A_pos y) as PA. pose proof (mB_pos y) as PB.
  replace (mk'' y) with (5424 / 1000 * ((0 * mB y - 2 * musker_a * (musker_a * y - musker_b) * fct_cte musker_a y) / Rsqr (mB y)) +
    434 / 1000 * ((0 * (y + 106 / 10) - 1 * fct_cte (96 / 10) y) / Rsqr (y + 106 / 10) - (4 * musker_A y - (2 * y - 815 / 100) * (4 * y + - (2 * (815 / 100)))) / Rsqr (musker_A y)))
    by (unfold mk'', Rsqr, fct_cte; set (A := musker_A y) in *; set (B := mB y) in *; field; repeat split; lra).
  unfold mk'. apply derivable_pt_lim_plus with (f1 := fun y => 5424 / 1000 * (musker_a / mB y)) (f2 := fun y => 434 / 1000 * (96 / 10 / (y + 106 / 10) - 2 * (2 * y - 815 / 100) / musker_A y)).
  - apply (derivable_pt_lim_scal (fun y => musker_a / mB y)). apply (derivable_pt_lim_div (fct_cte musker_a) mB); [apply derivable_pt_lim_const|apply B_deriv|lra].
  - apply (derivable_pt_lim_scal (fun y => 96 / 10 / (y + 106 / 10) - 2 * (2 * y - 815 / 100) / musker_A y)).
    apply derivable_pt_lim_minus with (f1 := fun y => 96 / 10 / (y + 106 / 10)) (f2 := fun y => 2 * (2 * y - 815 / 100) / musker_A y).
    + apply (derivable_pt_lim_div (fct_cte (96 / 10)) (fun y => y + 106 / 10)); [apply derivable_pt_lim_const|apply shift_deriv|lra].
    + apply derivable_pt_lim_ext with (f := div_fct (fun y => 4 * y + - (2 * (815 / 100))) musker_A); [intros z; unfold div_fct; f_equal; ring|].
      apply (derivable_pt_lim_div (fun y => 4 * y + - (2 * (815 / 100))) musker_A); [apply linear_deriv|apply A_deriv|lra].
Qed.
Lemma mk'_pos y : 0 <= y -> 0 < mk' y.
Proof.
  intros Hy. pose proof (musker_A_pos y) as PA. pose proof (mB_pos y) as PB. unfold mk'.
  assert (P1 : 0 < musker_a / mB y) by (apply Rdiv_lt_0_compat; auto; unfold musker_a; lra).
  assert (P2 : 0 < 96 / 10 / (y + 106 / 10) - 2 * (2 * y - 815 / 100) / musker_A y); [|lra].
  replace (96 / 10 / (y + 106 / 10) - 2 * (2 * y - 815 / 100) / musker_A y) with ((96 / 10 * musker_A y - 2 * (2 * y - 815 / 100) * (y + 106 / 10)) / ((y + 106 / 10) * musker_A y)) by (field; split; lra).
  apply Rdiv_lt_0_compat; [|apply Rmult_lt_0_compat; lra]. unfold musker_A. assert (0 <= (y - 10434 / 1120) ^ 2) by apply pow2_ge_0. lra.
Qed.
Lemma mk''_neg y : 1 / 5 <= y -> mk'' y <= 0.
Proof.
  intros Hy. pose proof (musker_A_pos y) as PA. pose proof (mB_pos y) as PB. set (C := y + 106 / 10). assert (PC : 0 < C) by (unfold C; lra).
  pose (L := musker_a * y - musker_b).
  pose (P := 5424 / 1000 * (musker_a * - (2 * musker_a * L)) * musker_A y ^ 2 * C ^ 2 - 434 / 1000 * (96 / 10) * mB y ^ 2 * musker_A y ^ 2 - 434 / 1000 * (4 * musker_A y - 2 * (2 * y - 815 / 100) ^ 2) * mB y ^ 2 * C ^ 2).
  assert (E : mk'' y = P * / (musker_A y ^ 2 * mB y ^ 2 * C ^ 2)). { unfold mk'', P. fold C. fold L. set (A := musker_A y) in *. set (B := mB y) in *. clearbody A B C L. field. repeat split; lra. }
  rewrite E. assert (HP : P <= 0).
  { clear E. pose (z := y - 1 / 5). assert (Hz : 0 <= z) by (unfold z; lra). unfold P, C, L, mB, musker_A, musker_a, musker_b. replace y with (z + 1 / 5) by (unfold z; ring). clearbody z. clear - Hz.
    match goal with |- ?p <= 0 => replace p with (- ((762255307574379645707489656588126961223475944191581050970834031596018064040858587 / 15625000000000000000000000000000000000000000000000000000000000000000000000000000) * (z ^ 2 * (z - 7) ^ 2) + (11088345837820969267094638238845565451717387187136746609275767803998136908469 / 36621093750000000000000000000000000000000000000000000000000000000000000000000) * (z ^ 4 * (z - 15) ^ 2) + (22419861687028987960113082098263102131384518981287394071313767502379331 / 48828125000000000000000000000000000000000000000000000000000000000000000000) * (z ^ 6 * (z - 8) ^ 2) + (209252540614906876582172589235373182054374720972557785981077455860606739813550017217 / 1953125000000000000000000000000000000000000000000000000000000000000000000000000000) + (654025999377626307864446705745023139897561712145736187876170050182172621199519170373 / 390625000000000000000000000000000000000000000000000000000000000000000000000000000) * z + (415579272910997091568666442471950463293302349324913614505769300565991411352616467647 / 312500000000000000000000000000000000000000000000000000000000000000000000000000000) * z ^ 2 + (184331402793050456127977597373366782231100384531766707318106299924734922560011613 / 15625000000000000000000000000000000000000000000000000000000000000000000000000000) * z ^ 4 + (12463400401571438656538952246149799394275221358513600544260048312313886871131 / 36621093750000000000000000000000000000000000000000000000000000000000000000000) * z ^ 6 + (1992056301459415050294060210655071439112480065330623638819371581985149 / 48828125000000000000000000000000000000000000000000000000000000000000000000) * z ^ 8)) by field end.
    assert (0 <= z ^ 2) by apply pow2_ge_0. assert (0 <= z ^ 6) by (apply pow_le; auto). assert (0 <= z ^ 4) by (apply pow_le; auto). assert (0 <= z ^ 8) by (apply pow_le; auto).
    assert (0 <= z ^ 2 * (z - 7) ^ 2) by (apply Rmult_le_pos; auto using pow2_ge_0). assert (0 <= z ^ 4 * (z - 15) ^ 2) by (apply Rmult_le_pos; auto using pow2_ge_0). assert (0 <= z ^ 6 * (z - 8) ^ 2) by (apply Rmult_le_pos; auto using pow2_ge_0).
    rewrite <- Ropp_0. apply Ropp_le_contravar. repeat (apply Rplus_le_le_0_compat); try (apply Rmult_le_pos; [lra|assumption]). lra. }
  assert (0 < / (musker_A y ^ 2 * mB y ^ 2 * C ^ 2)); [|nra]. apply Rinv_0_lt_compat. apply Rmult_lt_0_compat; [apply Rmult_lt_0_compat|]; apply pow_lt; auto.
Qed.
Lemma mk'_decreasing x y : 1 / 5 <= x -> x <= y -> mk' y <= mk' x.
Proof.
  intros Hx [H | ->]; [|lra]. destruct (MVT_cor2 mk' mk'' x y H) as (c & E & Hc); [intros z Hz; apply mk'_deriv; lra|]. pose proof (mk''_neg c ltac:(lra)). nra.
Qed.
Lemma mk_tangent x y : 1 / 5 <= x -> 1 / 5 <= y -> mk y <= mk x + mk' x * (y - x).
Proof.
  intros Hx Hy. destruct (Rtotal_order x y) as [H|[ -> |H]]; [| lra |].
  - destruct (MVT_cor2 mk mk' x y H) as (c & E & Hc); [intros; apply mk_deriv; lra|]. pose proof (mk'_decreasing x c ltac:(lra) ltac:(lra)). nra.
  - destruct (MVT_cor2 mk mk' y x H) as (c & E & Hc); [intros; apply mk_deriv; lra|]. pose proof (mk'_decreasing c x ltac:(lra) ltac:(lra)). nra.
Qed.
Lemma mk_increasing x y : 0 <= x -> x < y -> mk x < mk y.
Proof. intros Hx H. destruct (MVT_cor2 mk mk' x y H) as (c & E & Hc); [intros; apply mk_deriv; lra|]. pose proof (mk'_pos c ltac:(lra)). nra. Qed.
