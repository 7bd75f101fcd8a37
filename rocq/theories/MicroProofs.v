(* Derivatives of the fields of the channel solution. *)
From Coq Require Import List ZArith Bool Reals Lra Lia Psatz.
From Verif Require Import RealLib MicroModel MicroSpec.
Import ListNotations.
Local Open Scope R_scope.

(* ---- hyperbolic functions ---- *)
Lemma ch_sq x : cosh x ^ 2 = 1 + sinh x ^ 2.
Proof. unfold cosh, sinh. assert (E : exp x * exp (- x) = 1) by (rewrite <- exp_plus, Rplus_opp_r; apply exp_0). nra. Qed.
Lemma sinh_double x : sinh (2 * x) = 2 * sinh x * cosh x.
Proof. unfold cosh, sinh. replace (2 * x) with (x + x) by ring. rewrite Ropp_plus_distr, !exp_plus. field. Qed.
Lemma sinh_diff x y : sinh (x - y) = sinh x * cosh y - cosh x * sinh y.
Proof. unfold cosh, sinh. replace (- (x - y)) with (- x + y) by ring. replace (x - y) with (x + - y) by ring. rewrite !exp_plus. field. Qed.
Lemma sinh_opp x : sinh (- x) = - sinh x.
Proof. unfold sinh. rewrite Ropp_involutive. field. Qed.
Lemma cosh_opp x : cosh (- x) = cosh x.
Proof. unfold cosh. rewrite Ropp_involutive. field. Qed.
Lemma cosh_pos x : 0 < cosh x.
Proof. unfold cosh. pose proof (exp_pos x). pose proof (exp_pos (- x)). lra. Qed.
Lemma cosh_gt x : x <> 0 -> 1 < cosh x.
Proof.
  intros H. unfold cosh. pose proof (exp_pos x) as P. assert (E : exp x * exp (- x) = 1) by (rewrite <- exp_plus, Rplus_opp_r; apply exp_0).
  assert (N : exp x <> 1) by (intros C; apply H; rewrite <- exp_0 in C; apply exp_inv in C; exact C).
  assert (K : 0 < (exp x - 1) ^ 2) by (rewrite <- Rsqr_pow2; apply Rsqr_pos_lt; lra). nra.
Qed.
Lemma sinh_gt x : 0 < x -> x < sinh x.
Proof.
  intros H. destruct (MVT_cor2 (fun t => sinh t - t) (fun t => cosh t - 1) 0 x H) as (c & E & Hc).
  - intros c _. apply (derivable_pt_lim_minus sinh id); [apply derivable_pt_lim_sinh|apply derivable_pt_lim_id].
  - rewrite sinh_0 in E. pose proof (cosh_gt c ltac:(lra)). assert (0 < (cosh c - 1) * (x - 0)) by (apply Rmult_lt_0_compat; lra). lra.
Qed.
Lemma sinh_lt x : x < 0 -> sinh x < x.
Proof. intros H. pose proof (sinh_gt (- x) ltac:(lra)) as G. rewrite sinh_opp in G. lra. Qed.
Lemma sinh_ne x : x <> 0 -> sinh x <> x.
Proof. intros H E. destruct (Rtotal_order x 0) as [L|[L|L]]; [pose proof (sinh_lt x L)|contradiction|pose proof (sinh_gt x L)]; lra. Qed.
Lemma sinh_nz x : x <> 0 -> sinh x <> 0.
Proof. intros H E. destruct (Rtotal_order x 0) as [L|[L|L]]; [pose proof (sinh_lt x L)|contradiction|pose proof (sinh_gt x L)]; lra. Qed.
Lemma sinh_sq x : x <> 0 -> sinh x ^ 2 - x ^ 2 <> 0.
Proof. intros H E. destruct (Rtotal_order x 0) as [L|[L|L]]; [pose proof (sinh_lt x L)|contradiction|pose proof (sinh_gt x L)]; nra. Qed.

(* ---- derivatives ---- *)
Lemma lim_ext f g x d : (forall t, f t = g t) -> derivable_pt_lim g x d -> derivable_pt_lim f x d.
Proof. intros E H eps He. destruct (H eps He) as (dl & Hd). exists dl. intros h Hh Hl. rewrite !E. apply Hd; assumption. Qed.
Lemma lim_local f g x d r : 0 < r -> (forall t, Rabs (t - x) < r -> f t = g t) -> derivable_pt_lim g x d -> derivable_pt_lim f x d.
Proof.
  intros Hr E H eps He. destruct (H eps He) as (dl & Hd). assert (P : 0 < Rmin dl r) by (apply Rmin_pos; [apply cond_pos|exact Hr]).
  exists (mkposreal _ P). intros h Hh Hl. cbn [pos] in Hl. rewrite !E.
  - apply Hd; [exact Hh|]. eapply Rlt_le_trans; [exact Hl|apply Rmin_l].
  - rewrite Rminus_diag_eq by reflexivity. rewrite Rabs_R0. exact Hr.
  - replace (x + h - x) with h by ring. eapply Rlt_le_trans; [exact Hl|apply Rmin_r].
Qed.
Lemma lim_eq f x d d' : d = d' -> derivable_pt_lim f x d -> derivable_pt_lim f x d'.
Proof. intros ->. exact (fun H => H). Qed.
Lemma lim_lin w x : derivable_pt_lim (fun t => w * t) x w.
Proof. apply (lim_eq _ _ (w * 1)); [ring|]. apply (derivable_pt_lim_scal id). apply derivable_pt_lim_id. Qed.
Lemma lim_cos w x : derivable_pt_lim (fun t => cos (w * t)) x (- w * sin (w * x)).
Proof. apply (lim_eq _ _ (- sin (w * x) * w)); [ring|]. apply (derivable_pt_lim_comp (fun t => w * t) cos); [apply lim_lin|apply derivable_pt_lim_cos]. Qed.
Lemma lim_sin w x : derivable_pt_lim (fun t => sin (w * t)) x (w * cos (w * x)).
Proof. apply (lim_eq _ _ (cos (w * x) * w)); [ring|]. apply (derivable_pt_lim_comp (fun t => w * t) sin); [apply lim_lin|apply derivable_pt_lim_sin]. Qed.
Lemma lim_ch w x : derivable_pt_lim (fun t => cosh (w * t)) x (w * sinh (w * x)).
Proof. apply (lim_eq _ _ (sinh (w * x) * w)); [ring|]. apply (derivable_pt_lim_comp (fun t => w * t) cosh); [apply lim_lin|apply derivable_pt_lim_cosh]. Qed.
Lemma lim_sh w x : derivable_pt_lim (fun t => sinh (w * t)) x (w * cosh (w * x)).
Proof. apply (lim_eq _ _ (cosh (w * x) * w)); [ring|]. apply (derivable_pt_lim_comp (fun t => w * t) sinh); [apply lim_lin|apply derivable_pt_lim_sinh]. Qed.
Lemma lim_const c x : derivable_pt_lim (fun _ => c) x 0.
Proof. apply derivable_pt_lim_const. Qed.
Lemma lim_scal c f x d : derivable_pt_lim f x d -> derivable_pt_lim (fun t => c * f t) x (c * d).
Proof. apply derivable_pt_lim_scal. Qed.
Lemma lim_plus f g x d e : derivable_pt_lim f x d -> derivable_pt_lim g x e -> derivable_pt_lim (fun t => f t + g t) x (d + e).
Proof. apply derivable_pt_lim_plus. Qed.
Lemma lim_affine p q x : derivable_pt_lim (fun t => p + q * t) x q.
Proof. apply (lim_eq _ _ (0 + q)); [ring|]. apply lim_plus; [apply lim_const|apply lim_lin]. Qed.
(* the family of profiles and their derivatives *)
Definition fam (w A B C E y : R) : R := (A + B * y) * cosh (w * y) + (C + E * y) * sinh (w * y).
Lemma fam_lim w A B C E y : derivable_pt_lim (fam w A B C E) y (fam w (B + w * C) (w * E) (E + w * A) (w * B) y).
Proof.
  unfold fam. apply (lim_eq _ _ ((B * cosh (w * y) + (A + B * y) * (w * sinh (w * y))) + (E * sinh (w * y) + (C + E * y) * (w * cosh (w * y))))); [ring|].
  apply lim_plus; [apply (derivable_pt_lim_mult (fun t => A + B * t) (fun t => cosh (w * t)))|apply (derivable_pt_lim_mult (fun t => C + E * t) (fun t => sinh (w * t)))]; try apply lim_affine; [apply lim_ch|apply lim_sh].
Qed.
(* products of a factor in x and a profile, with a linear part *)
Definition field (l0 l1 c w A B C E : R) (X : R -> R) (x y : R) : R := l0 + l1 * y + c * fam w A B C E y * X x.
Lemma field_y l0 l1 c w A B C E X x y : partial_y (field l0 l1 c w A B C E X) x y (field l1 0 c w (B + w * C) (w * E) (E + w * A) (w * B) X x y).
Proof.
  unfold partial_y, field. apply (lim_eq _ _ (l1 + (c * X x) * fam w (B + w * C) (w * E) (E + w * A) (w * B) y)); [ring|].
  apply lim_plus; [apply lim_affine|]. apply (lim_ext _ (fun t => (c * X x) * fam w A B C E t)); [intros; ring|]. apply lim_scal. apply fam_lim.
Qed.
Lemma field_x l0 l1 c w A B C E X X' x y : derivable_pt_lim X x (X' x) -> partial_x (field l0 l1 c w A B C E X) x y (field 0 0 c w A B C E X' x y).
Proof.
  intros H. unfold partial_x, field. apply (lim_eq _ _ (0 + (c * fam w A B C E y) * X' x)); [ring|].
  apply lim_plus; [apply lim_const|]. apply lim_scal. exact H.
Qed.

(* ---- the constants ---- *)
Record channel_ok (l_ref : Z) (kt kb th tc t0 st mu : R) (k : channel) : Prop := {
  ok_kb : kb <> 0; ok_l : IZR l_ref <> 0; ok_mu : mu <> 0; ok_mp : ch_mp k = channel_mp l_ref; ok_mp0 : ch_mp k <> 0;
  ok_w : ch_w k = PI / IZR l_ref; ok_w0 : ch_w k <> 0; ok_a : ch_a k = ch_mp k * ch_w k; ok_a0 : ch_a k <> 0; ok_ks : ch_kstar k = kt / kb; ok_ks0 : 1 + ch_kstar k <> 0;
  ok_f : ch_f k = 1 / ((1 + ch_kstar k) * sinh (ch_a k) * cosh (ch_a k));
  ok_Ca1 : ch_Ca1 k = sinh (ch_a k) ^ 2 / (sinh (ch_a k) ^ 2 - ch_a k ^ 2);
  ok_Ca2 : ch_Ca2 k = - (ch_mp k * ch_a k) / (sinh (ch_a k) ^ 2 - ch_a k ^ 2);
  ok_Ca3 : ch_Ca3 k = (ch_a k - sinh (ch_a k) * cosh (ch_a k)) / (sinh (ch_a k) ^ 2 - ch_a k ^ 2);
  ok_Cb1 : ch_Cb1 k = ch_Ca1 k; ok_Cb2 : ch_Cb2 k = ch_Ca2 k; ok_Cb3 : ch_Cb3 k = - ch_Ca3 k;
  ok_umax : ch_umax k * (2 * ch_Ca3 k) = t0 * st / mu * (sinh (ch_a k) * ch_f k) / 2;
  ok_Ca30 : ch_Ca3 k <> 0;
  ok_tt : ch_tt k = tc - th; ok_nom : ch_nom k = ch_mp k * (ch_kstar k * tc + th); ok_denom : ch_denom k = ch_mp k * (1 + ch_kstar k); ok_t0 : ch_t0 k = t0 }.

Lemma rdiv_some a b c : rdiv a b = Some c -> b <> 0 /\ c = a / b.
Proof. unfold rdiv. destruct (Req_EM_T b 0); [discriminate|]. intros [= <-]. split; [assumption|reflexivity]. Qed.
Lemma ok_umax_num q s f a c : (sinh a ^ 2 - a ^ 2) <> 0 -> sinh (2 * a) - 2 * a <> 0 -> c = (a - sinh a * cosh a) / (sinh a ^ 2 - a ^ 2) ->
  -1 * q * (s * f) * ((sinh a ^ 2 - a ^ 2) * (sinh a ^ 2 - a ^ 2) / ((sinh a ^ 2 - a ^ 2) * (sinh (2 * a) - 2 * a) + (sinh a ^ 2 - a ^ 2) * (sinh (2 * a) - 2 * a))) * (2 * c) = q * (s * f) / 2.
Proof.
  intros HQ HS ->. rewrite sinh_double in *. set (Q := sinh a ^ 2 - a ^ 2) in *. assert (HS' : sinh a * cosh a - a <> 0) by (intros C; apply HS; lra).
  replace (a - sinh a * cosh a) with (- (sinh a * cosh a - a)) by ring. replace (2 * sinh a * cosh a - 2 * a) with (2 * (sinh a * cosh a - a)) by ring.
  generalize dependent (sinh a * cosh a - a). intros z Hz2. field. repeat split; try assumption. replace (Q * (2 * z) + Q * (2 * z)) with (4 * (Q * z)) by ring. intros C. assert (K : Q * z = 0) by lra. apply Rmult_integral in K. tauto.
Qed.
Lemma constants_ok l_ref kt kb th tc t0 st mu k : channel_constants l_ref kt kb th tc t0 st mu = Some k -> channel_ok l_ref kt kb th tc t0 st mu k.
Proof.
  unfold channel_constants. destruct (rdiv kt kb) as [ks|] eqn:E1; [|discriminate]. cbn [obind]. apply rdiv_some in E1. destruct E1 as [N1 E1].
  destruct (rdiv PI (IZR l_ref)) as [w|] eqn:E2; [|discriminate]. cbn [obind]. apply rdiv_some in E2. destruct E2 as [N2 E2]. set (mp := channel_mp l_ref). set (a := mp * w).
  destruct (rdiv 1 (ks * sinh a * cosh a + sinh a * cosh a)) as [f|] eqn:E3; [|discriminate]. cbn [obind]. apply rdiv_some in E3. destruct E3 as [N3 E3].
  destruct (rdiv ((sinh a ^ 2 - a ^ 2) * (sinh a ^ 2 - a ^ 2)) ((sinh a ^ 2 - a ^ 2) * (sinh (2 * a) - 2 * a) + (sinh a ^ 2 - a ^ 2) * (sinh (2 * a) - 2 * a))) as [h|] eqn:E4; [|discriminate]. cbn [obind]. apply rdiv_some in E4. destruct E4 as [N4 E4].
  destruct (rdiv (sinh a ^ 2) (sinh a ^ 2 - a ^ 2)) as [Ca1|] eqn:E5; [|discriminate]. cbn [obind]. apply rdiv_some in E5. destruct E5 as [N5 E5].
  destruct (rdiv (-1 * mp * a) (sinh a ^ 2 - a ^ 2)) as [Ca2|] eqn:E6; [|discriminate]. cbn [obind]. apply rdiv_some in E6. destruct E6 as [_ E6].
  destruct (rdiv (2 * a - sinh (2 * a)) (2 * (sinh a ^ 2 - a ^ 2))) as [Ca3|] eqn:E7; [|discriminate]. cbn [obind]. apply rdiv_some in E7. destruct E7 as [_ E7].
  destruct (rdiv (-2 * a + sinh (2 * a)) (2 * (sinh a ^ 2 - a ^ 2))) as [Cb3|] eqn:E8; [|discriminate]. cbn [obind]. apply rdiv_some in E8. destruct E8 as [_ E8].
  destruct (rdiv (t0 * st) mu) as [q|] eqn:E9; [|discriminate]. cbn [obind]. apply rdiv_some in E9. destruct E9 as [N9 E9]. intros [= <-].
  assert (Ha : a <> 0) by (intros C; apply N5; rewrite C, sinh_0; ring).
  assert (HS : sinh (2 * a) - 2 * a <> 0) by (intros C; apply N4; rewrite C; ring).
  assert (H3 : Ca3 = (a - sinh a * cosh a) / (sinh a ^ 2 - a ^ 2)) by (rewrite E7, sinh_double; field; exact N5).
  constructor; cbn [ch_mp ch_w ch_a ch_b ch_kstar ch_f ch_Ca1 ch_Ca2 ch_Ca3 ch_Cb1 ch_Cb2 ch_Cb3 ch_umax ch_tt ch_nom ch_denom ch_t0]; try assumption; try reflexivity.
  - intros C. apply Ha. unfold a. rewrite C. ring.
  - intros C. apply Ha. unfold a. rewrite C. ring.
  - intros C. apply N3. transitivity ((1 + ks) * sinh a * cosh a); [ring|rewrite C; ring].
  - rewrite E3. f_equal. ring.
  - rewrite E6. f_equal. ring.
  - rewrite E8, H3, sinh_double. field. exact N5.
  - rewrite E4, E9. apply ok_umax_num; assumption.
  - rewrite H3. intros C. apply HS. rewrite sinh_double. assert (K : a - sinh a * cosh a = 0) by (unfold Rdiv in C; apply Rmult_integral in C; destruct C as [C|C]; [exact C|exfalso; revert C; apply Rinv_neq_0_compat; exact N5]). lra.
  - ring.
  - ring.
Qed.
Lemma constants_defined l_ref kt kb th tc t0 st mu : (exists k, channel_constants l_ref kt kb th tc t0 st mu = Some k) <->
  kb <> 0 /\ l_ref <> 0%Z /\ (l_ref / 2 <> 1)%Z /\ kt + kb <> 0 /\ mu <> 0.
Proof.
  split.
  - intros (k & H). apply constants_ok in H. split; [exact (ok_kb _ _ _ _ _ _ _ _ _ H)|]. split; [intros ->; apply (ok_l _ _ _ _ _ _ _ _ _ H); reflexivity|].
    split; [intros E; apply (ok_mp0 _ _ _ _ _ _ _ _ _ H); rewrite (ok_mp _ _ _ _ _ _ _ _ _ H); unfold channel_mp; rewrite E; reflexivity|].
    split; [|exact (ok_mu _ _ _ _ _ _ _ _ _ H)]. intros E. apply (ok_ks0 _ _ _ _ _ _ _ _ _ H). rewrite (ok_ks _ _ _ _ _ _ _ _ _ H). replace kt with (- kb) by lra. field. exact (ok_kb _ _ _ _ _ _ _ _ _ H).
  - intros (H1 & H2 & H3 & H4 & H5). assert (HL : IZR l_ref <> 0) by (intros C; apply H2; apply eq_IZR; exact C).
    assert (HM : channel_mp l_ref <> 0) by (unfold channel_mp; intros C; apply H3; apply (eq_IZR _ 0) in C; lia).
    assert (HW : PI / IZR l_ref <> 0) by (pose proof PI_RGT_0; unfold Rdiv; apply Rmult_integral_contrapositive_currified; [lra|apply Rinv_neq_0_compat; exact HL]).
    unfold channel_constants. rewrite (rdiv_ok kt kb H1). cbn [obind]. rewrite (rdiv_ok PI _ HL). cbn [obind]. set (a := channel_mp l_ref * (PI / IZR l_ref)).
    assert (Ha : a <> 0) by (apply Rmult_integral_contrapositive_currified; assumption). pose proof (sinh_sq a Ha) as HQ. pose proof (sinh_ne (2 * a) ltac:(lra)) as HS. pose proof (cosh_pos a) as HC. pose proof (sinh_nz a Ha) as HZ.
    assert (HK : 1 + kt / kb <> 0) by (replace (1 + kt / kb) with ((kt + kb) * / kb) by (field; exact H1); apply Rmult_integral_contrapositive_currified; [exact H4|apply Rinv_neq_0_compat; exact H1]).
    rewrite rdiv_ok.
    2:{ replace (kt / kb * sinh a * cosh a + sinh a * cosh a) with ((1 + kt / kb) * (sinh a * cosh a)) by ring. apply Rmult_integral_contrapositive_currified; [exact HK|]. apply Rmult_integral_contrapositive_currified; lra. }
    cbn [obind]. rewrite rdiv_ok.
    2:{ replace ((sinh a ^ 2 - a ^ 2) * (sinh (2 * a) - 2 * a) + (sinh a ^ 2 - a ^ 2) * (sinh (2 * a) - 2 * a)) with (2 * ((sinh a ^ 2 - a ^ 2) * (sinh (2 * a) - 2 * a))) by ring. apply Rmult_integral_contrapositive_currified; [lra|]. apply Rmult_integral_contrapositive_currified; [exact HQ|lra]. }
    cbn [obind]. rewrite !(rdiv_ok _ (sinh a ^ 2 - a ^ 2) HQ). cbn [obind]. rewrite !(rdiv_ok _ (2 * (sinh a ^ 2 - a ^ 2))) by lra. cbn [obind]. rewrite (rdiv_ok _ mu H5). cbn [obind]. eexists. reflexivity.
Qed.
