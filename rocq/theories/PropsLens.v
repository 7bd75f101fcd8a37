(* C75: the angles of a liquid lens. *)
From Coq Require Import List Bool Arith Reals Lra Lia.
From Verif Require Import EnergyModel EnergySpec LensModel LensSpec LensProofs.
Import ListNotations.
Local Open Scope R_scope.

(* the circles of a lens meet in its two triple points *)
Theorem C75_triple_points : forall px py h alpha beta, 0 < h -> 0 < alpha < PI -> 0 < beta < PI -> alpha + beta <> PI ->
  circle_intersections (center (upper_interface px py h alpha)) (center (lower_interface px py h beta)) (radius (upper_interface px py h alpha)) (radius (lower_interface px py h beta)) = Some [(px, py); (px + 2 * h, py)] /\
  circle_intersections (center (lower_interface px py h beta)) (center (upper_interface px py h alpha)) (radius (lower_interface px py h beta)) (radius (upper_interface px py h alpha)) = Some [(px, py); (px + 2 * h, py)].
Proof.
  intros px py h a b Hh Ha Hb N. assert (Sa : 0 < sin a) by (apply sin_gt_0; lra). assert (Sb : 0 < sin b) by (apply sin_gt_0; lra). cbn [center radius upper_interface lower_interface].
  assert (K : cos a / sin a + cos b / sin b <> 0).
  { replace (cos a / sin a + cos b / sin b) with (sin (a + b) / (sin a * sin b)) by (rewrite sin_plus; field; lra). intros Q. assert (S0 : sin (a + b) = 0) by (apply (Rmult_eq_reg_r (/ (sin a * sin b))); [rewrite Rmult_0_l; exact Q|]; apply Rinv_neq_0_compat; apply Rmult_integral_contrapositive; lra).
    destruct (Rtotal_order (a + b) PI) as [L|[L|L]]; [|contradiction|]; [pose proof (sin_gt_0 (a + b)); lra|pose proof (sin_lt_0 (a + b)); lra]. }
  assert (D : - (h * (cos a / sin a)) <> h * (cos b / sin b)) by (intros Q; apply K; apply (Rmult_eq_reg_l h); lra).
  assert (P0 : 0 <= h / sin a) by (left; apply Rdiv_lt_0_compat; assumption). assert (P1 : 0 <= h / sin b) by (left; apply Rdiv_lt_0_compat; assumption).
  assert (E0 : (h / sin a) ^ 2 = (- (h * (cos a / sin a))) ^ 2 + h ^ 2) by (rewrite radius_sq by exact Sa; ring). pose proof (radius_sq h b Sb) as E1.
  replace (py - h * (cos a / sin a)) with (py + - (h * (cos a / sin a))) by ring. split.
  - rewrite (circles_vertical (px + h) py h _ _ _ _ Hh D P0 P1 E0 E1). do 2 f_equal; [|f_equal]; f_equal; ring.
  - assert (D' : h * (cos b / sin b) <> - (h * (cos a / sin a))) by (intros Q; apply D; symmetry; exact Q). rewrite (circles_vertical (px + h) py h _ _ _ _ Hh D' P1 P0 E1 E0). do 2 f_equal; [|f_equal]; f_equal; ring.
Qed.
Print Assumptions C75_triple_points.

(* a lens with an angle below 180 degrees at its rim: the angles of the phase above, the phase below and the drop, whichever circle comes first *)
Theorem C75_angles : forall px py h alpha beta, 0 < h -> 0 < alpha -> 0 < beta -> alpha + beta < PI ->
  liquid_lens_neumann_angles (upper_interface px py h alpha) (lower_interface px py h beta) = Some (lens_angles alpha beta) /\
  liquid_lens_neumann_angles (lower_interface px py h beta) (upper_interface px py h alpha) = Some (lens_angles alpha beta).
Proof.
  intros px py h a b Hh Ha Hb S. assert (Sa : 0 < sin a) by (apply sin_gt_0; lra). assert (Sb : 0 < sin b) by (apply sin_gt_0; lra). assert (Sab : 0 < sin (a + b)) by (apply sin_gt_0; lra).
  assert (Ia : 0 < a < PI) by lra. assert (Ib : 0 < b < PI) by lra. assert (N : a + b <> PI) by lra. destruct (C75_triple_points px py h a b Hh Ia Ib N) as [I1 I2].
  pose proof (Rmult_lt_0_compat _ _ Hh (cot_sum_pos a b Sa Sb Sab)) as K. unfold liquid_lens_neumann_angles. rewrite I1, I2. cbn [fst snd].
  replace (py - py) with 0 by ring. rewrite Rabs_R0. destruct (Rlt_dec 0 (1 / 10)); [|lra]. unfold leftmost. cbn [fst snd]. destruct (Rlt_dec (px + 2 * h) px); [lra|].
  unfold by_height. cbn [center upper_interface lower_interface snd]. destruct (Rlt_dec (py + h * (cos b / sin b)) (py - h * (cos a / sin a))); [exfalso; lra|]. destruct (Rlt_dec (py - h * (cos a / sin a)) (py + h * (cos b / sin b))); [|exfalso; lra].
  cbn [fst snd center]. fold (upper_interface px py h a) (lower_interface px py h b). cbn [center upper_interface lower_interface]. rewrite tangent_ccw, tangent_cw by assumption. cbn [map]. unfold dot. cbn [fst snd].
  replace (cos a * -1 + sin a * 0) with (- cos a) by ring. replace (-1 * cos b + 0 * - sin b) with (- cos b) by ring. replace (cos b * cos a + - sin b * sin a) with (cos (a + b)) by (rewrite cos_plus; ring).
  rewrite !acos_neg_cos, acos_cos by lra. split; reflexivity.
Qed.
Print Assumptions C75_angles.
(* they add up to 360 degrees *)
Theorem C75_sum : forall alpha beta, exists a b c, lens_angles alpha beta = [a; b; c] /\ a + b + c = 360.
Proof. intros a b. do 3 eexists. split; [reflexivity|]. unfold degrees. field. exact PI_neq0. Qed.
Print Assumptions C75_sum.

(* if the tensions at the triple points are in balance, the measured angles are the angles computed from the surface tensions *)
Theorem C75_equilibrium : forall px py h alpha beta g, 0 < h -> 0 < alpha -> 0 < beta -> alpha + beta < PI ->
  0 < g 0%nat 1%nat -> 0 < g 0%nat 2%nat -> 0 < g 1%nat 2%nat -> equilibrium (g 0%nat 1%nat) (g 0%nat 2%nat) (g 1%nat 2%nat) alpha beta ->
  liquid_lens_neumann_angles (upper_interface px py h alpha) (lower_interface px py h beta) = Some (neumann_angles g).
Proof.
  intros px py h a b g Hh Ha Hb S P01 P02 P12 [E1 E2]. rewrite (proj1 (C75_angles px py h a b Hh Ha Hb S)). f_equal. unfold neumann_angles, lens_angles, degrees. set (x := g 0%nat 1%nat) in *. set (y := g 0%nat 2%nat) in *. set (z := g 1%nat 2%nat) in *.
  pose proof (sin2_cos2 a) as Qa. pose proof (sin2_cos2 b) as Qb. unfold Rsqr in Qa, Qb.
  assert (Z2 : z * z = x * x - 2 * x * y * cos a + y * y).
  { transitivity ((z * cos b) * (z * cos b) + (z * sin b) * (z * sin b)); [transitivity (z * z * (sin b * sin b + cos b * cos b)); [rewrite Qb; ring|ring]|]. rewrite <- E2. replace (z * cos b) with (x - y * cos a) by (rewrite E1; ring). transitivity (x * x - 2 * x * y * cos a + y * y * (sin a * sin a + cos a * cos a)); [ring|rewrite Qa; ring]. }
  assert (Y2 : y * y = x * x - 2 * x * z * cos b + z * z).
  { transitivity ((y * cos a) * (y * cos a) + (y * sin a) * (y * sin a)); [transitivity (y * y * (sin a * sin a + cos a * cos a)); [rewrite Qa; ring|ring]|]. rewrite E2. replace (y * cos a) with (x - z * cos b) by (rewrite E1; ring). transitivity (x * x - 2 * x * z * cos b + z * z * (sin b * sin b + cos b * cos b)); [ring|rewrite Qb; ring]. }
  assert (X2 : x * x = y * y + z * z + 2 * y * z * cos (a + b)).
  { rewrite cos_plus. transitivity ((y * cos a + z * cos b) * (y * cos a + z * cos b) + (y * sin a - z * sin b) * (y * sin a - z * sin b)); [rewrite <- E1, E2; ring|]. transitivity (y * y * (sin a * sin a + cos a * cos a) + z * z * (sin b * sin b + cos b * cos b) + 2 * y * z * (cos a * cos b - sin a * sin b)); [ring|rewrite Qa, Qb; ring]. }
  cbn [map]. f_equal; [|f_equal; [|f_equal]]; do 2 f_equal.
  - rewrite <- (acos_neg_cos a) by lra. f_equal. rewrite Z2. field. lra.
  - rewrite <- (acos_neg_cos b) by lra. f_equal. rewrite Y2. field. lra.
  - rewrite <- (acos_cos (a + b)) by lra. f_equal. rewrite X2. field. lra.
Qed.
Print Assumptions C75_equilibrium.

(* the documentation promises the angle of the first enclosing phase first.  The result does not depend on which phase is named first, it starts with the phase above:
   for the phase below named first the angle of the other phase is returned, unless the lens is symmetric *)
Theorem C75_order_refuted : forall px py h alpha beta, 0 < h -> 0 < alpha -> 0 < beta -> alpha + beta < PI -> alpha <> beta ->
  exists a b c, liquid_lens_neumann_angles (lower_interface px py h beta) (upper_interface px py h alpha) = Some [a; b; c] /\ a = degrees (PI - alpha) /\ a <> degrees (PI - beta).
Proof.
  intros px py h a b Hh Ha Hb S N. do 3 eexists. split; [exact (proj2 (C75_angles px py h a b Hh Ha Hb S))|]. split; [reflexivity|]. unfold degrees. intros Q. apply N. pose proof PI_RGT_0. assert (E : PI - a = PI - b) by (apply (Rmult_eq_reg_r (180 / PI)); [unfold Rdiv in *; lra|apply Rgt_not_eq; apply Rdiv_lt_0_compat; lra]). lra.
Qed.
Print Assumptions C75_order_refuted.
(* a drop that bulges at its rim (more than 180 degrees, for example before it has relaxed): the circles change their places and the reported angle of the drop is the rest to 360 degrees *)
Theorem C75_bulging_refuted : forall px py h alpha beta, 0 < h -> 0 < alpha < PI -> 0 < beta < PI -> PI < alpha + beta ->
  liquid_lens_neumann_angles (upper_interface px py h alpha) (lower_interface px py h beta) = Some [degrees beta; degrees alpha; 360 - degrees (alpha + beta)].
Proof.
  intros px py h a b Hh Ha Hb S. assert (EU : upper_interface px py h a = lower_interface px py h (PI - a)) by (unfold upper_interface, lower_interface; rewrite Rtrigo_facts.cos_pi_minus, Rtrigo_facts.sin_pi_minus; f_equal; f_equal; unfold Rdiv; ring).
  assert (EL : lower_interface px py h b = upper_interface px py h (PI - b)) by (unfold upper_interface, lower_interface; rewrite Rtrigo_facts.cos_pi_minus, Rtrigo_facts.sin_pi_minus; f_equal; f_equal; unfold Rdiv; ring).
  rewrite EU, EL. assert (A1 : 0 < PI - b) by lra. assert (A2 : 0 < PI - a) by lra. assert (A3 : PI - b + (PI - a) < PI) by lra. rewrite (proj2 (C75_angles px py h (PI - b) (PI - a) Hh A1 A2 A3)). unfold lens_angles, degrees. do 2 f_equal; [f_equal; f_equal; ring|f_equal; [f_equal; f_equal; ring|f_equal]]. field. exact PI_neq0.
Qed.
Print Assumptions C75_bulging_refuted.

(* every reported angle lies between 0 and 180 degrees, and circles with other than two common points are errors *)
Theorem C75_range : forall c0 c1 l, liquid_lens_neumann_angles c0 c1 = Some l -> length l = 3%nat /\ Forall (fun a => 0 <= a <= 180) l.
Proof.
  intros c0 c1 l H. unfold liquid_lens_neumann_angles in H. destruct (circle_intersections _ _ _ _) as [[|p [|q [|]]]|]; try discriminate. destruct (Rlt_dec _ _); [|discriminate]. injection H as <-. split; [reflexivity|].
  assert (B : forall x, 0 <= acos x * 180 / PI <= 180).
  { intros x. pose proof (acos_bound x) as [B1 B2]. pose proof PI_RGT_0. split; [apply Rmult_le_pos; [lra|left; apply Rinv_0_lt_compat; lra]|]. apply (Rmult_le_reg_r PI); [lra|]. unfold Rdiv. rewrite Rmult_assoc, Rinv_l by lra. lra. }
  apply Forall_forall. intros a [<-|[<-|[<-|[]]]]; apply B.
Qed.
Print Assumptions C75_range.
Theorem C75_no_lens : forall c0 c1, (forall p q, circle_intersections (center c0) (center c1) (radius c0) (radius c1) <> Some [p; q]) -> liquid_lens_neumann_angles c0 c1 = None.
Proof. intros c0 c1 H. unfold liquid_lens_neumann_angles. destruct (circle_intersections _ _ _ _) as [[|p [|q [|]]]|]; try reflexivity. exfalso. exact (H p q eq_refl). Qed.
Print Assumptions C75_no_lens.
Theorem C75_rotated : forall c0 c1 p q, circle_intersections (center c0) (center c1) (radius c0) (radius c1) = Some [p; q] -> (liquid_lens_neumann_angles c0 c1 = None <-> 1 / 10 <= Rabs (snd p - snd q)).
Proof. intros c0 c1 p q E. unfold liquid_lens_neumann_angles. rewrite E. destruct (Rlt_dec _ _); split; intros H; try discriminate; try lra; reflexivity. Qed.
Print Assumptions C75_rotated.

(* equal tensions: three angles of 120 degrees *)
Example C75_example : equilibrium 1 1 1 (PI / 3) (PI / 3) /\ lens_angles (PI / 3) (PI / 3) = [120; 120; 120] /\ 0 < PI / 3 /\ PI / 3 + PI / 3 < PI.
Proof.
  pose proof PI_RGT_0. split; [split; [rewrite cos_PI3; lra|ring]|]. split; [unfold lens_angles, degrees; f_equal; [|f_equal; [|f_equal]]; field; exact PI_neq0|lra].
Qed.
