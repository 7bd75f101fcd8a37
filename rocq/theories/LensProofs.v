From Coq Require Import List Bool Arith Reals Lra Lia Psatz.
From Verif Require Import RealLib EnergyModel LensModel LensSpec.
Import ListNotations.
Local Open Scope R_scope.

Lemma circles_vertical x p h a b r0 r1 : 0 < h -> a <> b -> 0 <= r0 -> 0 <= r1 -> r0 ^ 2 = a ^ 2 + h ^ 2 -> r1 ^ 2 = b ^ 2 + h ^ 2 ->
  circle_intersections (x, p + a) (x, p + b) r0 r1 = Some [(x - h, p); (x + h, p)].
Proof.
  intros Hh N P0 P1 E0 E1. unfold circle_intersections.
  assert (D : sqrt ((x - x) ^ 2 + (p + a - (p + b)) ^ 2) = Rabs (a - b)) by (replace ((x - x) ^ 2 + (p + a - (p + b)) ^ 2) with (Rsqr (a - b)) by (unfold Rsqr; ring); apply sqrt_Rsqr_abs).
  rewrite D. set (d := Rabs (a - b)). assert (Pd : 0 < d) by (apply Rabs_pos_lt; lra). assert (Ed : d ^ 2 = (a - b) ^ 2) by (unfold d; rewrite <- !Rsqr_pow2; symmetry; apply Rsqr_abs).
  assert (h2 : 0 < h ^ 2) by (apply pow_lt; exact Hh). assert (ab : 0 < (a - b) ^ 2) by (rewrite <- Ed; apply pow_lt; exact Pd).
  assert (R01 : (r0 * r1) ^ 2 = (a * b + h ^ 2) ^ 2 + h ^ 2 * (a - b) ^ 2) by (rewrite Rpow_mult_distr, E0, E1; ring).
  assert (Q : 0 < h ^ 2 * (a - b) ^ 2) by (apply Rmult_lt_0_compat; assumption).
  assert (Pr : 0 <= r0 * r1) by (apply Rmult_le_pos; assumption).
  assert (L : a * b + h ^ 2 < r0 * r1) by (destruct (Rlt_dec (a * b + h ^ 2) (r0 * r1)) as [L|L]; [exact L|exfalso; apply Rnot_lt_le in L; assert ((r0 * r1) ^ 2 <= (a * b + h ^ 2) ^ 2) by (apply pow_incr; split; assumption); lra]).
  assert (L2 : - (a * b + h ^ 2) < r0 * r1).
  { destruct (Rlt_dec (- (a * b + h ^ 2)) (r0 * r1)) as [L2|L2]; [exact L2|exfalso]. apply Rnot_lt_le in L2. assert ((r0 * r1) ^ 2 <= (- (a * b + h ^ 2)) ^ 2) by (apply pow_incr; split; assumption). replace ((- (a * b + h ^ 2)) ^ 2) with ((a * b + h ^ 2) ^ 2) in * by ring. lra. }
  assert (U : d < r0 + r1). { destruct (Rlt_dec d (r0 + r1)) as [U|U]; [exact U|exfalso]. apply Rnot_lt_le in U. assert (S : (r0 + r1) ^ 2 <= d ^ 2) by (apply pow_incr; split; lra). rewrite Ed in S. nra. }
  assert (V : Rabs (r1 - r0) < d). { destruct (Rlt_dec (Rabs (r1 - r0)) d) as [V|V]; [exact V|exfalso]. apply Rnot_lt_le in V. assert (S : d ^ 2 <= Rabs (r1 - r0) ^ 2) by (apply pow_incr; split; lra). rewrite Ed, <- (Rsqr_pow2 (Rabs _)), <- Rsqr_abs in S. unfold Rsqr in S. nra. }
  destruct (Rlt_dec (r0 + r1) d); [lra|]. destruct (Req_EM_T (Rabs (r1 - r0)) d); [lra|]. destruct (Req_EM_T d (r0 + r1)); [lra|]. destruct (Rlt_dec (Rabs (r1 - r0)) d); [|lra].
  destruct (Req_EM_T x x); [|congruence]. destruct (Req_EM_T (p + a) (p + b)); [exfalso; lra|].
  assert (B2 : (r0 ^ 2 - r1 ^ 2 - x ^ 2 + x ^ 2 - (p + a) ^ 2 + (p + b) ^ 2) / (2 * (p + b - (p + a))) = p) by (rewrite E0, E1; field; lra).
  rewrite B2. replace (- p ^ 2 + r1 ^ 2 + 0 ^ 2 * r1 ^ 2 - 2 * p * 0 * x - 0 ^ 2 * x ^ 2 + 2 * p * (p + b) + 2 * 0 * x * (p + b) - (p + b) ^ 2) with (Rsqr h) by (rewrite E1; unfold Rsqr; ring).
  unfold rsqrt. destruct (Rlt_dec (Rsqr h) 0) as [C|_]; [exfalso; pose proof (Rle_0_sqr h); lra|]. rewrite sqrt_Rsqr by lra. cbn [obind]. do 2 f_equal; [|f_equal]; f_equal; field.
Qed.

Lemma cot_sum_pos a b : 0 < sin a -> 0 < sin b -> 0 < sin (a + b) -> 0 < cos a / sin a + cos b / sin b.
Proof. intros Ha Hb H. replace (cos a / sin a + cos b / sin b) with (sin (a + b) / (sin a * sin b)) by (rewrite sin_plus; field; lra). apply Rdiv_lt_0_compat; [exact H|]. apply Rmult_lt_0_compat; assumption. Qed.
Lemma cot_sum_neg a b : 0 < sin a -> 0 < sin b -> sin (a + b) < 0 -> cos a / sin a + cos b / sin b < 0.
Proof. intros Ha Hb H. replace (cos a / sin a + cos b / sin b) with (- (- sin (a + b) / (sin a * sin b))) by (rewrite sin_plus; field; lra). apply Ropp_lt_gt_0_contravar. apply Rdiv_lt_0_compat; [lra|]. apply Rmult_lt_0_compat; assumption. Qed.
Lemma radius_sq h a : 0 < sin a -> (h / sin a) ^ 2 = (h * (cos a / sin a)) ^ 2 + h ^ 2.
Proof. intros H. pose proof (sin2_cos2 a) as E. unfold Rsqr in E. apply (Rmult_eq_reg_r (sin a ^ 2)); [|apply pow_nonzero; lra]. transitivity (h ^ 2); [field; lra|]. transitivity (h ^ 2 * (sin a * sin a + cos a * cos a)); [rewrite E; ring|field; lra]. Qed.
(* the norm of the vector from the triple point to a center *)
Lemma norm_center h a u v : 0 < h -> 0 < sin a -> u ^ 2 + v ^ 2 = (h * (cos a / sin a)) ^ 2 + h ^ 2 -> sqrt (u ^ 2 + v ^ 2) = h / sin a.
Proof. intros Hh H E. rewrite E, <- radius_sq by exact H. rewrite <- Rsqr_pow2. apply sqrt_Rsqr. left. apply Rdiv_lt_0_compat; assumption. Qed.
Lemma tangent_ccw px py h a : 0 < h -> 0 < sin a -> normalize (rotate90_ccw (minus (px + h, py - h * (cos a / sin a)) (px, py))) = (cos a, sin a).
Proof.
  intros Hh H. unfold normalize, rotate90_ccw, minus. cbn [fst snd]. rewrite (norm_center h a) by (auto; ring). f_equal; field; lra.
Qed.
Lemma tangent_cw px py h b : 0 < h -> 0 < sin b -> normalize (rotate90_cw (minus (px + h, py + h * (cos b / sin b)) (px, py))) = (cos b, - sin b).
Proof.
  intros Hh H. unfold normalize, rotate90_cw, minus. cbn [fst snd]. rewrite (norm_center h b) by (auto; ring). f_equal; field; lra.
Qed.
Lemma acos_neg_cos a : 0 <= a <= PI -> acos (- cos a) = PI - a.
Proof. intros H. rewrite <- (Rtrigo_facts.cos_pi_minus a). apply acos_cos. lra. Qed.
