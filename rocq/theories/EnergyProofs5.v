From Coq Require Import List Bool Arith Lia Reals Lra Psatz.
From Verif Require Import StencilModel RealLib LinLib EnergyModel EnergySpec EnergyProofs4.
Import ListNotations.
Local Open Scope R_scope.

Lemma distance_bounds x0 y0 x1 y1 r0 r1 p : 0 <= r0 -> 0 <= r1 -> on_circle p (x0, y0) r0 -> on_circle p (x1, y1) r1 ->
  Rabs (r1 - r0) <= sqrt ((x0 - x1) ^ 2 + (y0 - y1) ^ 2) <= r0 + r1.
Proof.
  intros H0 H1 E0 E1. apply dist_sq in E0, E1; try assumption. destruct p as [x y]. cbn [fst snd] in *. set (d := sqrt ((x0 - x1) ^ 2 + (y0 - y1) ^ 2)).
  assert (N : forall u v, sqrt ((u - v) ^ 2 + 0) = sqrt ((v - u) ^ 2 + 0)) by (intros; f_equal; ring).
  assert (T1 : d <= r0 + r1). { pose proof (triangle (x0 - x) (y0 - y) (x - x1) (y - y1)) as T. replace (x0 - x + (x - x1)) with (x0 - x1) in T by ring. replace (y0 - y + (y - y1)) with (y0 - y1) in T by ring.
    replace ((x0 - x) ^ 2 + (y0 - y) ^ 2) with ((x - x0) ^ 2 + (y - y0) ^ 2) in T by ring. fold d in T. lra. }
  assert (T2 : r0 <= d + r1). { pose proof (triangle (x - x1) (y - y1) (x1 - x0) (y1 - y0)) as T. replace (x - x1 + (x1 - x0)) with (x - x0) in T by ring. replace (y - y1 + (y1 - y0)) with (y - y0) in T by ring.
    replace ((x1 - x0) ^ 2 + (y1 - y0) ^ 2) with ((x0 - x1) ^ 2 + (y0 - y1) ^ 2) in T by ring. fold d in T. lra. }
  assert (T3 : r1 <= d + r0). { pose proof (triangle (x - x0) (y - y0) (x0 - x1) (y0 - y1)) as T. replace (x - x0 + (x0 - x1)) with (x - x1) in T by ring. replace (y - y0 + (y0 - y1)) with (y - y1) in T by ring. fold d in T. lra. }
  split; [apply Rabs_le; lra|exact T1].
Qed.
Lemma tangent_point k b x y : k <> 0 ->
  - (y - -1 / k * x - b) / (-1 / k - k) = (- b * k + x + k * y) / (1 + k ^ 2) /\
  - (- b * (-1 / k) + (y - -1 / k * x) * k) / (-1 / k - k) = k * ((- b * k + x + k * y) / (1 + k ^ 2)) + b.
Proof.
  intros Hk. assert (HN : 1 + k ^ 2 <> 0) by (pose proof (pow2_ge_0 k); lra).
  replace (-1 / k - k) with (- ((1 + k ^ 2) / k)) by (field; exact Hk). set (N := 1 + k ^ 2) in *. assert (EN : N = 1 + k ^ 2) by reflexivity. clearbody N.
  split; [field; auto|]. replace (k * ((- b * k + x + k * y) / N) + b) with ((k * (- b * k + x + k * y) + b * N) / N) by (field; exact HN).
  transitivity ((b + k * (x + k * y)) / N); [field; auto|]. f_equal. rewrite EN. ring.
Qed.
Lemma circles_spec m0 m1 r0 r1 l : 0 <= r0 -> 0 <= r1 -> circle_intersections m0 m1 r0 r1 = Some l -> forall p, In p l <-> on_circle p m0 r0 /\ on_circle p m1 r1.
Proof.
  intros H0 H1. destruct m0 as [x0 y0], m1 as [x1 y1]. unfold circle_intersections. set (d := sqrt ((x0 - x1) ^ 2 + (y0 - y1) ^ 2)).
  set (k2 := if Req_EM_T x0 x1 then 0 else -1 / ((y0 - y1) / (x0 - x1))). set (b2 := (r0 ^ 2 - r1 ^ 2 - x0 ^ 2 + x1 ^ 2 - y0 ^ 2 + y1 ^ 2) / (2 * (y1 - y0))).
  assert (Pd : 0 <= d) by apply sqrt_pos. assert (Ed : d ^ 2 = (x0 - x1) ^ 2 + (y0 - y1) ^ 2) by (apply pow2_sqrt; pose proof (pow2_ge_0 (x0 - x1)); pose proof (pow2_ge_0 (y0 - y1)); lra).
  assert (none : d < Rabs (r1 - r0) \/ r0 + r1 < d -> forall p, In p [] <-> on_circle p (x0, y0) r0 /\ on_circle p (x1, y1) r1).
  { intros C p. split; [intros []|]. intros [C0 C1]. pose proof (distance_bounds x0 y0 x1 y1 r0 r1 p H0 H1 C0 C1) as B. fold d in B. lra. }
  assert (K : y0 <> y1 -> k2 * (y0 - y1) = - (x0 - x1)). { intros Hy. unfold k2. destruct (Req_EM_T x0 x1) as [->|Hx]; [ring|]. field. split; lra. }
  assert (B : y0 <> y1 -> b2 * (2 * (y1 - y0)) = r0 ^ 2 - r1 ^ 2 - x0 ^ 2 + x1 ^ 2 - y0 ^ 2 + y1 ^ 2). { intros Hy. unfold b2. field. lra. }
  set (D := - b2 ^ 2 + r1 ^ 2 + k2 ^ 2 * r1 ^ 2 - 2 * b2 * k2 * x1 - k2 ^ 2 * x1 ^ 2 + 2 * b2 * y1 + 2 * k2 * x1 * y1 - y1 ^ 2).
  assert (R : y0 <> y1 -> 4 * (y0 - y1) ^ 2 * D = ((d + r1) ^ 2 - r0 ^ 2) * (r0 ^ 2 - (d - r1) ^ 2)). { intros Hy. apply (radicand x0 y0 x1 y1 r0 r1 k2 b2 (K Hy) (B Hy) d Ed). }
  assert (common : y0 <> y1 -> forall s, s * s = D -> forall p, In p [((- b2 * k2 + x1 + k2 * y1 - s) / (1 + k2 ^ 2), k2 * ((- b2 * k2 + x1 + k2 * y1 - s) / (1 + k2 ^ 2)) + b2);
      ((- b2 * k2 + x1 + k2 * y1 + s) / (1 + k2 ^ 2), k2 * ((- b2 * k2 + x1 + k2 * y1 + s) / (1 + k2 ^ 2)) + b2)] <-> on_circle p (x0, y0) r0 /\ on_circle p (x1, y1) r1).
  { intros Hy s Hs [x y]. rewrite (radical x0 y0 x1 y1 r0 r1 k2 b2 Hy (K Hy) (B Hy)). cbn [In]. split.
    - intros [E|[E|[]]]; injection E as <- <-; (split; [|reflexivity]); apply (line_circle x1 y1 r1 k2 b2 _ s Hs); auto.
    - intros [C ->]. apply (line_circle x1 y1 r1 k2 b2 _ s Hs) in C. destruct C as [<-|<-]; auto. }
  assert (tangent : d = Rabs (r1 - r0) \/ d = r0 + r1 -> y0 <> y1 -> D = 0).
  { intros C Hy. specialize (R Hy). assert (Z : 4 * (y0 - y1) ^ 2 * D = 0).
    { rewrite R. destruct C as [->| ->]; [|ring]. unfold Rabs. destruct (Rcase_abs (r1 - r0)); ring. }
    apply Rmult_integral in Z. destruct Z as [Z|Z]; [|exact Z]. exfalso. apply Hy. assert ((y0 - y1) ^ 2 = 0) by lra. assert (y0 - y1 = 0); [|lra]. apply Rsqr_0_uniq. unfold Rsqr. lra. }
  assert (one : d = Rabs (r1 - r0) \/ d = r0 + r1 -> forall l, (if Req_EM_T x0 x1 then None else if Req_EM_T y0 y1 then None
      else Some [(- (y1 - (y0 - y1) / (x0 - x1) * x1 - b2) / ((y0 - y1) / (x0 - x1) - k2), - (- b2 * ((y0 - y1) / (x0 - x1)) + (y1 - (y0 - y1) / (x0 - x1) * x1) * k2) / ((y0 - y1) / (x0 - x1) - k2))]) = Some l ->
      forall p, In p l <-> on_circle p (x0, y0) r0 /\ on_circle p (x1, y1) r1).
  { intros C l0. destruct (Req_EM_T x0 x1) as [|Hx]; [discriminate|]. destruct (Req_EM_T y0 y1) as [|Hy]; [discriminate|]. intros [= <-] p. rewrite <- (common Hy 0) by (rewrite (tangent C Hy); ring).
    assert (Hk2 : k2 <> 0). { unfold k2. destruct (Req_EM_T x0 x1); [contradiction|]. intros Z. assert (-1 / ((y0 - y1) / (x0 - x1)) * ((y0 - y1) / (x0 - x1)) = 0) by (rewrite Z; ring). assert (-1 / ((y0 - y1) / (x0 - x1)) * ((y0 - y1) / (x0 - x1)) = -1) by (field; split; lra). lra. }
    assert (Hk1 : (y0 - y1) / (x0 - x1) = -1 / k2). { apply (Rmult_eq_reg_l k2); [|exact Hk2]. replace (k2 * ((y0 - y1) / (x0 - x1))) with (k2 * (y0 - y1) / (x0 - x1)) by (field; lra). rewrite (K Hy). field. split; [exact Hk2|lra]. }
    rewrite Hk1.
    destruct (tangent_point k2 b2 x1 y1 Hk2) as [E1 E2].
    rewrite E1, E2. rewrite Rminus_0_r, Rplus_0_r. cbn [In]. tauto. }
  destruct (Rlt_dec (r0 + r1) d) as [C|C]; [intros [= <-]; apply none; now right|].
  destruct (Req_EM_T (Rabs (r1 - r0)) d) as [E|NE]; [apply one; left; now symmetry|].
  destruct (Req_EM_T d (r0 + r1)) as [E|NE2]; [apply one; now right|].
  destruct (Rlt_dec (Rabs (r1 - r0)) d) as [C2|C2]; [|intros [= <-]; apply none; left; lra].
  destruct (Req_EM_T y0 y1) as [|Hy]; [discriminate|].
  assert (PD : 0 <= D).
  { specialize (R Hy). assert (Py : 0 < (y0 - y1) ^ 2). { pose proof (pow2_ge_0 (y0 - y1)) as G. destruct G as [G|G]; [exact G|]. exfalso. apply Hy. assert (y0 - y1 = 0); [|lra]. apply Rsqr_0_uniq. unfold Rsqr. lra. }
    apply Rabs_def2 in C2. assert (P : 0 <= ((d + r1) ^ 2 - r0 ^ 2) * (r0 ^ 2 - (d - r1) ^ 2)).
    { apply Rmult_le_pos; [replace ((d + r1) ^ 2 - r0 ^ 2) with ((d + r1 - r0) * (d + r1 + r0)) by ring|replace (r0 ^ 2 - (d - r1) ^ 2) with ((r0 - d + r1) * (r0 + d - r1)) by ring]; apply Rmult_le_pos; lra. }
    apply (Rmult_le_reg_l (4 * (y0 - y1) ^ 2)); [lra|]. rewrite Rmult_0_r. lra. }
  rewrite rsqrt_ok by exact PD. cbn [obind]. intros [= <-]. apply (common Hy). apply sqrt_sqrt. exact PD.
Qed.
Lemma circles_defined x0 y0 x1 y1 r0 r1 : 0 <= r0 -> 0 <= r1 -> x0 <> x1 -> y0 <> y1 -> exists l, circle_intersections (x0, y0) (x1, y1) r0 r1 = Some l.
Proof.
  intros H0 H1 Hx Hy. unfold circle_intersections. set (d := sqrt ((x0 - x1) ^ 2 + (y0 - y1) ^ 2)). destruct (Req_EM_T x0 x1); [contradiction|]. destruct (Req_EM_T y0 y1); [contradiction|].
  destruct (Rlt_dec (r0 + r1) d) as [C|C]; [eauto|]. destruct (Req_EM_T (Rabs (r1 - r0)) d); [eauto|]. destruct (Req_EM_T d (r0 + r1)); [eauto|]. destruct (Rlt_dec (Rabs (r1 - r0)) d) as [C2|C2]; [|eauto].
  set (D := - _ ^ 2 + r1 ^ 2 + _ - _ - _ + _ + _ - _). assert (PD : 0 <= D).
  { assert (Pd : 0 <= d) by apply sqrt_pos. assert (Ed : d ^ 2 = (x0 - x1) ^ 2 + (y0 - y1) ^ 2) by (apply pow2_sqrt; pose proof (pow2_ge_0 (x0 - x1)); pose proof (pow2_ge_0 (y0 - y1)); lra).
    assert (R := radicand x0 y0 x1 y1 r0 r1 (-1 / ((y0 - y1) / (x0 - x1))) ((r0 ^ 2 - r1 ^ 2 - x0 ^ 2 + x1 ^ 2 - y0 ^ 2 + y1 ^ 2) / (2 * (y1 - y0))) ltac:(field; split; lra) ltac:(field; lra) d Ed). fold D in R.
    assert (Py : 0 < (y0 - y1) ^ 2). { pose proof (pow2_ge_0 (y0 - y1)) as G. destruct G as [G|G]; [exact G|]. exfalso. apply Hy. assert (y0 - y1 = 0); [|lra]. apply Rsqr_0_uniq. unfold Rsqr. lra. }
    apply Rabs_def2 in C2. assert (P : 0 <= ((d + r1) ^ 2 - r0 ^ 2) * (r0 ^ 2 - (d - r1) ^ 2)).
    { apply Rmult_le_pos; [replace ((d + r1) ^ 2 - r0 ^ 2) with ((d + r1 - r0) * (d + r1 + r0)) by ring|replace (r0 ^ 2 - (d - r1) ^ 2) with ((r0 - d + r1) * (r0 + d - r1)) by ring]; apply Rmult_le_pos; lra. }
    apply (Rmult_le_reg_l (4 * (y0 - y1) ^ 2)); [lra|]. rewrite Rmult_0_r. lra. }
  rewrite rsqrt_ok by exact PD. cbn [obind]. eauto.
Qed.
Lemma circles_level x0 x1 y r0 r1 : 0 <= r0 -> 0 <= r1 -> Rabs (r1 - r0) <= Rabs (x0 - x1) <= r0 + r1 -> circle_intersections (x0, y) (x1, y) r0 r1 = None.
Proof.
  intros H0 H1 [A B]. unfold circle_intersections. replace ((x0 - x1) ^ 2 + (y - y) ^ 2) with (Rsqr (x0 - x1)) by (unfold Rsqr; ring). rewrite sqrt_Rsqr_abs.
  destruct (Rlt_dec (r0 + r1) (Rabs (x0 - x1))); [lra|]. destruct (Req_EM_T y y); [|contradiction].
  destruct (Req_EM_T (Rabs (r1 - r0)) (Rabs (x0 - x1))); [now destruct (Req_EM_T x0 x1)|]. destruct (Req_EM_T (Rabs (x0 - x1)) (r0 + r1)); [now destruct (Req_EM_T x0 x1)|].
  destruct (Rlt_dec (Rabs (r1 - r0)) (Rabs (x0 - x1))); [reflexivity|lra].
Qed.
