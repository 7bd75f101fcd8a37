From Coq Require Import List Bool Arith Lia Reals Lra Psatz.
From Verif Require Import StencilModel RealLib LinLib EnergyModel EnergySpec EnergyProofs EnergyProofs2 EnergyProofs3.
Import ListNotations.
Local Open Scope R_scope.

(* ---- pure phases ---- *)
Lemma rsum_pure n a : rsum (pure n a) = if a <? n then 1 else 0.
Proof.
  rewrite rsum_seq. unfold pure. rewrite map_length, seq_length. destruct (Nat.ltb_spec a n) as [H|H].
  - rewrite (sumn_one n _ a) by (first [lia | intros i Hi Hia; rewrite nth_map_seq by lia; destruct (Nat.eqb_spec i a); [lia|reflexivity]]). rewrite nth_map_seq by lia. now rewrite Nat.eqb_refl.
  - apply sumn_zero. intros i Hi. rewrite nth_map_seq by lia. destruct (Nat.eqb_spec i a); [lia|reflexivity].
Qed.
Lemma all_pure n a : (a <= n)%nat -> all_phases (pure n a) = pure (S n) a.
Proof.
  intros H. unfold all_phases. rewrite rsum_pure. unfold pure. rewrite seq_S, map_app. cbn [map Nat.add]. f_equal. f_equal. destruct (Nat.ltb_spec a n), (Nat.eqb_spec n a); try lia; lra.
Qed.
Lemma f_bulk_pure tau eta f1 f2 triple n a : f1 0 = 0 -> f1 1 = 0 -> f2 0 = 0 -> f2 1 = 0 -> f_bulk tau eta f1 f2 triple (pure (S n) a) = 0.
Proof.
  intros H10 H11 H20 H21. assert (L : length (pure (S n) a) = S n) by (unfold pure; now rewrite map_length, seq_length).
  assert (V : forall i, nth i (pure (S n) a) 0 = 0 \/ (i = a /\ nth i (pure (S n) a) 0 = 1)).
  { intros i. destruct (lt_dec i (S n)) as [Hi|Hi]; [|left; apply nth_overflow; lia]. unfold pure. rewrite nth_map_seq by exact Hi. destruct (Nat.eqb_spec i a); auto. }
  unfold f_bulk. rewrite rsum_filter, pairs_sum, L. rewrite sumn_zero.
  - rewrite Rmult_0_r, Rplus_0_l. apply (sumn_zero (S n)). intros i Hi. apply (sumn_zero i). intros j Hj. apply (sumn_zero j). intros k Hk.
    destruct (V i) as [->|[-> ->]]; [ring|]. destruct (V j) as [->|[-> _]]; [ring|lia].
  - intros i Hi. apply sumn_zero. intros j Hj. cbn [fst snd]. destruct (Nat.eqb_spec i j) as [->|Ne]; [reflexivity|]. cbn [negb]. unfold bulk_term.
    destruct (V i) as [->|[-> ->]]; destruct (V j) as [->|[-> ->]]; rewrite ?Rplus_0_l, ?Rplus_0_r, ?H10, ?H11, ?H20, ?H21; try ring. contradiction.
Qed.
Lemma f_interface_zero tau eta n m : f_interface tau eta n (zero_gradient m) = 0.
Proof.
  unfold f_interface. rewrite pairs_sum. apply sumn_zero. intros i Hi. apply sumn_zero. intros j Hj. cbn [fst snd]. assert (Z : forall k, nth k (zero_gradient m) 0 = 0) by (intros k; unfold zero_gradient; destruct (lt_dec k m); [now rewrite nth_repeat|apply nth_overflow; rewrite repeat_length; lia]).
  rewrite !Z. ring.
Qed.
Lemma correction_pure beta power : n_phases_correction_function beta power 0 = 0 /\ n_phases_correction_function beta power 1 = 0.
Proof. unfold n_phases_correction_function, double_well. split; repeat (destruct (Rlt_dec _ _); try lra). Qed.
Lemma sign_switch_pure beta : n_phases_correction_function_sign_switch beta 0 = 0 /\ n_phases_correction_function_sign_switch beta 1 = 0.
Proof. unfold n_phases_correction_function_sign_switch, double_well. split; repeat (destruct (Rlt_dec _ _); try lra). Qed.

(* ---- penalty functional ---- *)
Lemma penalty_pure kappa alpha penalty n a : (a < n)%nat -> energy_penalty kappa alpha penalty (pure n a) (zero_gradient n) = 0.
Proof.
  intros H. unfold energy_penalty. rewrite rsum_pure. destruct (Nat.ltb_spec a n); [|lia]. replace (penalty * (1 - 1) ^ 2) with 0 by ring.
  assert (Z : forall l, (forall x, In x l -> x = 0) -> rsum l = 0). { induction l as [|x l IH]; intros Hl; [reflexivity|]. change (rsum (x :: l)) with (x + rsum l). rewrite (Hl x), IH by (auto with datatypes). lra. }
  rewrite !Z; [lra| |].
  - intros x Hx. apply in_map_iff in Hx. destruct Hx as ([d k] & <- & Hd). apply in_combine_l in Hd. apply repeat_spec in Hd. subst d. cbn [fst snd]. lra.
  - intros x Hx. apply in_map_iff in Hx. destruct Hx as ([c k] & <- & Hc). apply in_combine_l in Hc. apply in_map_iff in Hc. destruct Hc as (i & <- & _). cbn [fst snd].
    assert (E : double_well (if i =? a then 1 else 0) = 0) by (apply double_well_zero; destruct (i =? a); auto). rewrite E. lra.
Qed.
(* without gradients the energy vanishes in the pure phases only *)
Lemma penalty_only_pure kappa alpha penalty c : length kappa = length c -> (forall k, In k kappa -> 0 < k) -> 0 < penalty ->
  energy_penalty kappa alpha penalty c (zero_gradient (length c)) = 0 -> exists a, (a < length c)%nat /\ c = pure (length c) a.
Proof.
  intros L Hk Hp H. unfold energy_penalty in H.
  set (s1 := rsum (map (fun p => double_well (fst p) * snd p / 2) (combine c kappa))) in H. set (s2 := rsum (map (fun p => fst p ^ 2 / 2 * alpha ^ 2 * snd p) (combine (zero_gradient (length c)) kappa))) in H.
  assert (N1 : forall x, In x (map (fun p => double_well (fst p) * snd p / 2) (combine c kappa)) -> 0 <= x).
  { intros x Hx. apply in_map_iff in Hx. destruct Hx as ([d k] & <- & Hd). cbn [fst snd]. pose proof (double_well_nonneg d). pose proof (Hk k (in_combine_r _ _ _ _ Hd)). assert (0 <= double_well d * k) by (apply Rmult_le_pos; lra). lra. }
  assert (N2 : s2 = 0).
  { unfold s2. assert (Z : forall l, (forall x, In x l -> x = 0) -> rsum l = 0). { induction l as [|x l IH]; intros Hl; [reflexivity|]. change (rsum (x :: l)) with (x + rsum l). rewrite (Hl x), IH by (auto with datatypes). lra. }
    apply Z. intros x Hx. apply in_map_iff in Hx. destruct Hx as ([d k] & <- & Hd). apply in_combine_l in Hd. apply repeat_spec in Hd. subst d. cbn [fst snd]. lra. }
  assert (P1 : 0 <= s1) by (apply rsum_nonneg, N1). assert (P3 : 0 <= (1 - rsum c) ^ 2) by apply pow2_ge_0. assert (P4 : 0 <= penalty * (1 - rsum c) ^ 2) by (apply Rmult_le_pos; lra).
  assert (E1 : s1 = 0) by lra. assert (E3 : penalty * (1 - rsum c) ^ 2 = 0) by lra. apply Rmult_integral in E3. destruct E3 as [E3|E3]; [lra|]. assert (Esum : rsum c = 1) by (assert (1 - rsum c = 0); [|lra]; apply Rsqr_0_uniq; unfold Rsqr; lra).
  assert (B : forall i, (i < length c)%nat -> nth i c 0 = 0 \/ nth i c 0 = 1).
  { intros i Hi. apply double_well_zero. pose proof (rsum_nonneg_zero _ N1 E1 (double_well (nth i c 0) * nth i kappa 0 / 2)) as Z.
    assert (I : In (nth i c 0, nth i kappa 0) (combine c kappa)) by (rewrite <- combine_nth by auto; apply nth_In; rewrite combine_length; lia).
    specialize (Z (in_map (fun p => double_well (fst p) * snd p / 2) _ _ I)). pose proof (Hk _ (in_combine_r _ _ _ _ I)). assert (E : double_well (nth i c 0) * nth i kappa 0 = 0) by lra. apply Rmult_integral in E. lra. }
  (* a vector of zeros and ones with sum one *)
  clear - B Esum. revert B Esum. set (n := length c). rewrite rsum_seq. fold n. intros B E.
  assert (G : forall m, (forall i, (i < m)%nat -> nth i c 0 = 0 \/ nth i c 0 = 1) -> 0 <= sumn m (fun i => nth i c 0) /\
     (sumn m (fun i => nth i c 0) = 0 -> forall i, (i < m)%nat -> nth i c 0 = 0) /\
     (sumn m (fun i => nth i c 0) = 1 -> exists a, (a < m)%nat /\ forall i, (i < m)%nat -> nth i c 0 = if i =? a then 1 else 0)).
  { induction m as [|m IH]; intros Bm; [unfold sumn; cbn; split; [lra|]; split; [lia|lra]|]. rewrite !sumn_S. destruct IH as (I0 & I1 & I2); [intros; apply Bm; lia|]. destruct (Bm m ltac:(lia)) as [Em|Em]; rewrite Em.
    - split; [lra|]. split.
      + intros Es i Hi. destruct (Nat.eq_dec i m) as [->|]; [exact Em|]. apply I1; [lra|lia].
      + intros Es. destruct I2 as (a & Ha & Hi); [lra|]. exists a. split; [lia|]. intros i Him. destruct (Nat.eq_dec i m) as [->|]; [destruct (Nat.eqb_spec m a); [lia|exact Em]|apply Hi; lia].
    - split; [lra|]. split; [intros; lra|]. intros Es. exists m. split; [lia|]. intros i Him. destruct (Nat.eqb_spec i m) as [->|]; [exact Em|]. apply I1; [lra|lia]. }
  destruct (G n B) as (_ & _ & G2). destruct (G2 E) as (a & Ha & Hi). exists a. split; [exact Ha|]. apply list_ext; [unfold pure; now rewrite map_length, seq_length|].
  intros i Hil. fold n in Hil. rewrite Hi by exact Hil. unfold pure. now rewrite nth_map_seq.
Qed.

(* ---- Neumann's triangle ---- *)
Lemma div_range p t : 0 < p -> - p <= t <= p -> -1 <= t / p <= 1.
Proof.
  intros Hp Ht. assert (E : t / p * p = t) by (field; lra). split; apply (Rmult_le_reg_r p); lra.
Qed.
Section Neumann.
  Context (a b c : R) (Ha : 0 < a) (Hb : 0 < b) (Hc : 0 < c) (Tc : c <= a + b) (Tb : b <= a + c) (Ta : a <= b + c).
  Definition corner (x y z : R) : R := - (x * x + y * y - z * z) / 2 / x / y.
  Lemma corner_range x y z : 0 < x -> 0 < y -> 0 < z -> z <= x + y -> x <= y + z -> y <= x + z -> -1 <= corner x y z <= 1.
  Proof.
    intros Hx Hy Hz H1 H2 H3. unfold corner. replace (- (x * x + y * y - z * z) / 2 / x / y) with (- (x * x + y * y - z * z) / (2 * x * y)) by (field; split; lra).
    assert (P : 0 < 2 * x * y) by (repeat apply Rmult_lt_0_compat; lra).
    assert (Q1 : 0 <= (x + y - z) * (x + y + z)) by (apply Rmult_le_pos; lra). assert (Q2 : 0 <= (z - x + y) * (z + x - y)) by (apply Rmult_le_pos; lra).
    apply div_range; [exact P|]. lra.
  Qed.
  Lemma corner_sin x y z q : 0 < x -> 0 < y -> -1 <= corner x y z <= 1 -> 0 <= q -> q * q = 4 * (x * x) * (y * y) - (x * x + y * y - z * z) ^ 2 -> sin (acos (corner x y z)) = q / (2 * x * y).
  Proof.
    intros Hx Hy Hr Hq E. rewrite sin_acos by exact Hr. replace (1 - (corner x y z)²) with ((q / (2 * x * y)) * (q / (2 * x * y))).
    - apply sqrt_square. apply Rmult_le_pos; [exact Hq|]. left. apply Rinv_0_lt_compat. repeat apply Rmult_lt_0_compat; lra.
    - unfold Rsqr, corner. replace (q / (2 * x * y) * (q / (2 * x * y))) with (q * q / (4 * (x * x) * (y * y))) by (field; split; lra). rewrite E. field. split; lra.
  Qed.
  Let A0 := acos (corner a b c). Let A1 := acos (corner a c b). Let A2 := acos (corner c b a).
  Let q := sqrt ((a + b + c) * (a + b - c) * ((c + a - b) * (c + b - a))).
  Lemma q_sq : q * q = (a + b + c) * (a + b - c) * ((c + a - b) * (c + b - a)).
  Proof. apply sqrt_sqrt. apply Rmult_le_pos; apply Rmult_le_pos; lra. Qed.
  Lemma r0 : -1 <= corner a b c <= 1. Proof. apply corner_range; lra. Qed.
  Lemma r1 : -1 <= corner a c b <= 1. Proof. apply corner_range; lra. Qed.
  Lemma r2 : -1 <= corner c b a <= 1. Proof. apply corner_range; lra. Qed.
  Lemma sin0 : sin A0 = q / (2 * a * b). Proof. apply corner_sin; [lra|lra|apply r0|apply sqrt_pos|]. rewrite q_sq. ring. Qed.
  Lemma sin1 : sin A1 = q / (2 * a * c). Proof. apply corner_sin; [lra|lra|apply r1|apply sqrt_pos|]. rewrite q_sq. ring. Qed.
  Lemma sin2 : sin A2 = q / (2 * c * b). Proof. apply corner_sin; [lra|lra|apply r2|apply sqrt_pos|]. rewrite q_sq. ring. Qed.
  Lemma cos0 : cos A0 = corner a b c. Proof. apply cos_acos, r0. Qed.
  Lemma cos1 : cos A1 = corner a c b. Proof. apply cos_acos, r1. Qed.
  Lemma cos2 : cos A2 = corner c b a. Proof. apply cos_acos, r2. Qed.
  (* balance of the three tensions along and across the first interface *)
  Lemma balance : a + b * cos A0 + c * cos A1 = 0 /\ b * sin A0 = c * sin A1.
  Proof. rewrite cos0, cos1, sin0, sin1. unfold corner. split; field; repeat split; lra. Qed.
  Lemma angle_sum : A0 + A1 + A2 = 2 * PI.
  Proof.
    assert (C : cos (A0 + A1 + A2) = 1).
    { rewrite !cos_plus, sin_plus, sin0, sin1, sin2, cos0, cos1, cos2. unfold corner.
      assert (P : a * a * b * b * c * c <> 0) by (repeat apply Rmult_integral_contrapositive_currified; lra).
      apply (Rmult_eq_reg_l (8 * (a * a * b * b * c * c))); [|apply Rmult_integral_contrapositive_currified; [lra|exact P]].
      transitivity (- (a * a + b * b - c * c) * ((a * a + c * c - b * b) * (c * c + b * b - a * a)) + q * q * ((c * c + b * b - a * a) + (a * a + c * c - b * b) + (a * a + b * b - c * c))).
      - field. repeat split; lra.
      - rewrite q_sq. ring. }
    assert (B0 := acos_bound (corner a b c)). assert (B1 := acos_bound (corner a c b)). assert (B2 := acos_bound (corner c b a)). fold A0 in B0. fold A1 in B1. fold A2 in B2.
    set (S := A0 + A1 + A2) in *. assert (Z : sin (S / 2) = 0).
    { assert (E : cos S = 1 - 2 * (sin (S / 2) * sin (S / 2))). { replace S with (2 * (S / 2)) at 1 by field. rewrite cos_2a_sin. ring. } apply Rsqr_0_uniq. unfold Rsqr. lra. }
    apply sin_eq_0_0 in Z. destruct Z as (k & Hk). pose proof PI_RGT_0 as PI0.
    assert (K : (k = 0 \/ k = 1)%Z).
    { assert (0 <= IZR k). { apply (Rmult_le_reg_r PI); [lra|]. rewrite Rmult_0_l, <- Hk. unfold S. lra. } assert (IZR k < 2). { apply (Rmult_lt_reg_r PI); [lra|]. rewrite <- Hk. unfold S. lra. }
      apply (le_IZR 0) in H. apply (lt_IZR k 2) in H0. lia. }
    destruct K as [->| ->]; [|lra]. exfalso. assert (S = 0) by lra. unfold S in H. assert (E0 : A0 = 0) by lra. assert (E1 : A1 = 0) by lra. pose proof balance as [E _]. rewrite E0, E1, cos_0 in E. lra.
  Qed.
End Neumann.

(* ---- circles ---- *)
Section Circles.
  Context (x0 y0 x1 y1 r0 r1 k2 b2 : R) (Hy : y0 <> y1).
  Context (Hk : k2 * (y0 - y1) = - (x0 - x1)) (Hb : b2 * (2 * (y1 - y0)) = r0 ^ 2 - r1 ^ 2 - x0 ^ 2 + x1 ^ 2 - y0 ^ 2 + y1 ^ 2).
  Let D := - b2 ^ 2 + r1 ^ 2 + k2 ^ 2 * r1 ^ 2 - 2 * b2 * k2 * x1 - k2 ^ 2 * x1 ^ 2 + 2 * b2 * y1 + 2 * k2 * x1 * y1 - y1 ^ 2.
  Let N := 1 + k2 ^ 2.
  Lemma N_pos : 0 < N. Proof. unfold N. pose proof (pow2_ge_0 k2). lra. Qed.
  (* points on both circles are the points of the second circle on the line *)
  Lemma radical x y : (on_circle (x, y) (x0, y0) r0 /\ on_circle (x, y) (x1, y1) r1) <-> (on_circle (x, y) (x1, y1) r1 /\ y = k2 * x + b2).
  Proof.
    unfold on_circle. cbn [fst snd]. assert (E : (y1 - y0) * (y - (k2 * x + b2)) * 2 = ((x - x0) ^ 2 + (y - y0) ^ 2 - r0 ^ 2) - ((x - x1) ^ 2 + (y - y1) ^ 2 - r1 ^ 2)).
    { replace ((y1 - y0) * (y - (k2 * x + b2)) * 2) with (2 * (y1 - y0) * y + 2 * (k2 * (y0 - y1)) * x - b2 * (2 * (y1 - y0))) by ring. rewrite Hk, Hb. ring. }
    split; intros [H1 H2].
    - split; [exact H2|]. assert (Z : (y1 - y0) * (y - (k2 * x + b2)) = 0) by lra. apply Rmult_integral in Z. lra.
    - split; [|exact H1]. rewrite H2 in E at 1. replace (k2 * x + b2 - (k2 * x + b2)) with 0 in E by ring. lra.
  Qed.
  Lemma line_circle x s : s * s = D -> (on_circle (x, k2 * x + b2) (x1, y1) r1 <-> (x = (- b2 * k2 + x1 + k2 * y1 - s) / N \/ x = (- b2 * k2 + x1 + k2 * y1 + s) / N)).
  Proof.
    intros Hs. unfold on_circle. cbn [fst snd]. pose proof N_pos as HN.
    assert (E : N * ((x - x1) ^ 2 + (k2 * x + b2 - y1) ^ 2 - r1 ^ 2) = (N * x - (- b2 * k2 + x1 + k2 * y1)) * (N * x - (- b2 * k2 + x1 + k2 * y1)) - s * s) by (rewrite Hs; unfold N, D; ring).
    set (t := - b2 * k2 + x1 + k2 * y1) in *. split.
    - intros H. assert (Z : (N * x - t + s) * (N * x - t - s) = 0). { replace ((x - x1) ^ 2 + (k2 * x + b2 - y1) ^ 2 - r1 ^ 2) with 0 in E by lra. replace ((N * x - t + s) * (N * x - t - s)) with ((N * x - t) * (N * x - t) - s * s) by ring. lra. }
      apply Rmult_integral in Z. destruct Z as [Z|Z]; [left|right]; apply (Rmult_eq_reg_l N); try lra; field_simplify; lra.
    - intros H. assert (Z : N * x = t - s \/ N * x = t + s) by (destruct H as [->| ->]; [left|right]; field; lra). clear H. assert (Z' : N * ((x - x1) ^ 2 + (k2 * x + b2 - y1) ^ 2 - r1 ^ 2) = 0) by (rewrite E; destruct Z as [->| ->]; ring).
      apply Rmult_integral in Z'. destruct Z' as [Z'|Z']; lra.
  Qed.
  (* the radicand in terms of the distance *)
  Lemma radicand d : d ^ 2 = (x0 - x1) ^ 2 + (y0 - y1) ^ 2 -> 4 * (y0 - y1) ^ 2 * D = ((d + r1) ^ 2 - r0 ^ 2) * (r0 ^ 2 - (d - r1) ^ 2).
  Proof.
    intros Hd. set (m := k2 * x1 + b2 - y1). assert (Hm : 2 * m * (y1 - y0) = r0 ^ 2 - r1 ^ 2 - d ^ 2).
    { unfold m. replace (2 * (k2 * x1 + b2 - y1) * (y1 - y0)) with (- 2 * x1 * (k2 * (y0 - y1)) + b2 * (2 * (y1 - y0)) - 2 * y1 * (y1 - y0)) by ring. rewrite Hk, Hb, Hd. ring. }
    assert (HD : D = (1 + k2 ^ 2) * r1 ^ 2 - m ^ 2) by (unfold D, m; ring). rewrite HD.
    replace (4 * (y0 - y1) ^ 2 * ((1 + k2 ^ 2) * r1 ^ 2 - m ^ 2)) with (4 * ((y0 - y1) ^ 2 + (k2 * (y0 - y1)) ^ 2) * r1 ^ 2 - (2 * m * (y1 - y0)) ^ 2) by ring. rewrite Hk, Hm.
    replace ((y0 - y1) ^ 2 + (- (x0 - x1)) ^ 2) with (d ^ 2) by (rewrite Hd; ring). ring.
  Qed.
End Circles.
Lemma dist_sq (p m : R * R) (r : R) : 0 <= r -> (on_circle p m r <-> sqrt ((fst p - fst m) ^ 2 + (snd p - snd m) ^ 2) = r).
Proof.
  intros Hr. unfold on_circle. assert (0 <= (fst p - fst m) ^ 2 + (snd p - snd m) ^ 2) by (pose proof (pow2_ge_0 (fst p - fst m)); pose proof (pow2_ge_0 (snd p - snd m)); lra).
  split; intros E; [rewrite E; apply sqrt_pow2; exact Hr|rewrite <- E, pow2_sqrt by assumption; reflexivity].
Qed.
(* triangle inequality in the plane *)
Lemma triangle a b c d : sqrt ((a + c) ^ 2 + (b + d) ^ 2) <= sqrt (a ^ 2 + b ^ 2) + sqrt (c ^ 2 + d ^ 2).
Proof.
  set (u := sqrt (a ^ 2 + b ^ 2)). set (v := sqrt (c ^ 2 + d ^ 2)). assert (Pu : 0 <= u) by apply sqrt_pos. assert (Pv : 0 <= v) by apply sqrt_pos.
  assert (Hu : u * u = a ^ 2 + b ^ 2) by (apply sqrt_sqrt; pose proof (pow2_ge_0 a); pose proof (pow2_ge_0 b); lra). assert (Hv : v * v = c ^ 2 + d ^ 2) by (apply sqrt_sqrt; pose proof (pow2_ge_0 c); pose proof (pow2_ge_0 d); lra).
  assert (CS : a * c + b * d <= u * v).
  { apply Rsqr_incr_0_var; [|now apply Rmult_le_pos]. unfold Rsqr. replace (u * v * (u * v)) with ((u * u) * (v * v)) by ring. rewrite Hu, Hv. pose proof (pow2_ge_0 (a * d - b * c)). lra. }
  rewrite <- (sqrt_square (u + v)) by lra. apply sqrt_le_1_alt. nra.
Qed.
