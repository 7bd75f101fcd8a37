(* C72: intersections of contour lines and triple points. *)
From Coq Require Import List Bool Arith Reals Lra Lia.
From Verif Require Import PostModel PostSpec PostProofs PostProofs2.
Import ListNotations.
Local Open Scope R_scope.

(* lines in general position: the result is the list of all crossing points, one for each pair of crossing segments *)
Theorem C72_general_position : forall line1 line2, (forall s1 s2, In (s1, s2) (side_pairs line1 line2) -> generic_pair s1 s2) ->
  exists r l, get_line_intersections line1 line2 = Some l /\ finite_points l r /\ crossings (side_pairs line1 line2) r /\
  forall p, In p r <-> exists s1 s2, In (s1, s2) (side_pairs line1 line2) /\ common s1 s2 p.
Proof.
  intros line1 line2 H. destruct (generic_lines line1 line2 H) as (r & l & E & F & C). exists r, l. split; [exact E|]. split; [exact F|]. split; [exact C|]. apply crossings_in; [|exact C].
  intros s1 s2 p q I Hp Hq. destruct (H s1 s2 I) as (_ & _ & G). exact (common_unique s1 s2 p q (proj1 (G p Hp)) Hp Hq).
Qed.
Print Assumptions C72_general_position.

(* whatever the lines: a point of two segments that passes both filters is a common point of them *)
Theorem C72_sound : forall s1 s2 l, get_line_intersections [[fst s1; snd s1]] [[fst s2; snd s2]] = Some l ->
  l = [] \/ exists p, l = [(Fin (fst p), Fin (snd p))] /\ common s1 s2 p.
Proof.
  intros s1 s2 l. rewrite gli_single. destruct (x_cond s1 s2) eqn:X, (y_cond s1 s2) eqn:Y; intros E; try discriminate E; injection E as <-; [|left; reflexivity].
  right. destruct (both_sound s1 s2 X Y) as (p & C & P). exists p. rewrite C. split; [reflexivity|exact P].
Qed.
Print Assumptions C72_sound.

(* rising segments: a common point is found unless it is the left end of one of them, so that a vertex where two segments of a line meet counts once *)
Theorem C72_rising : forall s1 s2, rising s1 -> rising s2 -> ~ parallel s1 s2 -> exists l, get_line_intersections [[fst s1; snd s1]] [[fst s2; snd s2]] = Some l /\
  forall p, In (Fin (fst p), Fin (snd p)) l <-> common s1 s2 p /\ ~ left_end s1 p /\ ~ left_end s2 p.
Proof.
  intros s1 s2 R1 R2 NP. assert (OB : forall s, rising s -> oblique s) by (intros s HR; unfold rising in HR; split; intros Z; rewrite Z in HR; lra). pose proof (OB s1 R1) as O1. pose proof (OB s2 R2) as O2.
  destruct (cand_line s1 s2 O1 O2 NP) as (t1 & t2 & C & E). destruct (cand_conds s1 s2 t1 t2 O1 O2 NP E) as (_ & X & Y). rewrite <- !rising_counts in Y by assumption.
  rewrite (counts_left s1 t1 (proj1 O1)), (counts_left s2 t2 (proj1 O2)) in X, Y. rewrite <- E in X, Y. rewrite gli_single.
  assert (XY : x_cond s1 s2 = y_cond s1 s2) by (destruct (x_cond s1 s2), (y_cond s1 s2); try reflexivity; [symmetry; apply Y; apply X; reflexivity|apply X; apply Y; reflexivity]). rewrite <- XY.
  destruct (x_cond s1 s2).
  - destruct (proj1 X eq_refl) as [[T1 L1] [T2 L2]]. eexists. split; [reflexivity|]. intros p. rewrite C. split.
    + intros [Q|[]]. injection Q as Q1 Q2. assert (EP : at_fraction s1 t1 = p) by (destruct p as [px py]; cbn [fst snd] in Q1, Q2; rewrite <- Q1, <- Q2; reflexivity). rewrite <- EP. split; [exact (frac_common s1 s2 t1 t2 T1 T2 E)|tauto].
    + intros (Hp & _). left. rewrite (common_unique s1 s2 p _ NP Hp (frac_common s1 s2 t1 t2 T1 T2 E)). reflexivity.
  - eexists. split; [reflexivity|]. intros p. split; [intros []|]. intros (Hp & N1 & N2). destruct (common_frac s1 s2 p Hp) as (u1 & u2 & U1 & U2 & -> & E'). destruct (cross_unique s1 s2 _ _ _ _ NP E E') as [<- <-].
    assert (Z : false = true) by (apply X; tauto). discriminate Z.
Qed.
Print Assumptions C72_rising.

(* a falling segment that touches the other line with its end: only one of the two coordinates is kept and the search raises an exception *)
Theorem C72_falling_refuted : forall s1 s2 p, falling s1 -> oblique s2 -> ~ parallel s1 s2 -> end_of s1 p -> inside s2 p ->
  get_line_intersections [[fst s1; snd s1]] [[fst s2; snd s2]] = None.
Proof.
  intros s1 s2 p F O2 NP He Hi. assert (O1 : oblique s1) by (unfold falling in F; split; intros Z; rewrite Z in F; lra). destruct (end_t s1 p He) as (t1 & T1 & P1). destruct Hi as (t2 & T2 & P2).
  assert (E : at_fraction s1 t1 = at_fraction s2 t2) by congruence. destruct (cand_conds s1 s2 t1 t2 O1 O2 NP E) as (_ & X & Y).
  assert (CX : counts (dx s2) t2) by (apply counts_inside; [apply O2|exact T2]). assert (CY : counts (dy s2) t2) by (apply counts_inside; [apply O2|exact T2]).
  rewrite gli_single. destruct (x_cond s1 s2), (y_cond s1 s2); try reflexivity; exfalso.
  - destruct (proj1 X eq_refl) as [A _]. destruct (proj1 Y eq_refl) as [B _]. exact (falling_counts s1 t1 F A T1 B).
  - assert (N : ~ counts (dx s1) t1) by (intros Q; assert (Z : false = true) by (apply X; tauto); discriminate Z). assert (Z : false = true) by (apply Y; split; [exact (falling_counts' s1 t1 F N T1)|exact CY]). discriminate Z.
Qed.
Print Assumptions C72_falling_refuted.

(* segments parallel to an axis: their crossings are never found ... *)
Theorem C72_axis_parallel_refuted : forall s1 s2, horizontal s1 \/ vertical s1 \/ horizontal s2 \/ vertical s2 ->
  get_line_intersections [[fst s1; snd s1]] [[fst s2; snd s2]] = Some [] \/ get_line_intersections [[fst s1; snd s1]] [[fst s2; snd s2]] = None.
Proof.
  intros s1 s2 H. rewrite gli_single. destruct H as [H|[H|[H|H]]].
  - rewrite (cand_hor1 s1 s2 H). destruct (x_cond s1 s2); tauto.
  - destruct (cand_vert1 s1 s2 H) as [-> ->]. tauto.
  - destruct (cand_hor2 s1 s2 H) as [-> ->]. tauto.
  - rewrite (cand_vert2 s1 s2 H). destruct (y_cond s1 s2); tauto.
Qed.
Print Assumptions C72_axis_parallel_refuted.
(* ... or the search raises an exception *)
Theorem C72_axis_parallel_raises_refuted : forall s1 s2 p, inside s1 p -> inside s2 p ->
  (horizontal s1 /\ ~ vertical s1 /\ oblique s2) \/ (oblique s1 /\ vertical s2 /\ ~ horizontal s2) -> get_line_intersections [[fst s1; snd s1]] [[fst s2; snd s2]] = None.
Proof.
  intros s1 s2 p (t1 & T1 & P1) (t2 & T2 & P2) H. assert (E : at_fraction s1 t1 = at_fraction s2 t2) by congruence. rewrite gli_single. destruct H as [(H & V & O2)|(O1 & V & H)].
  - rewrite (cand_hor1 s1 s2 H). replace (x_cond s1 s2) with true; [reflexivity|]. symmetry. apply (hor1_x s1 s2 t1 t2 H V O2 E). split; apply counts_inside; try assumption. apply O2.
  - rewrite (cand_vert2 s1 s2 V). replace (y_cond s1 s2) with true; [reflexivity|]. symmetry. apply (vert2_y s1 s2 t1 t2 V H O1 E). split; apply counts_inside; try assumption. apply O1.
Qed.
Print Assumptions C72_axis_parallel_raises_refuted.

(* the closest point and its distance *)
Theorem C72_closest : forall p points, (points = [] <-> find_closest_point p points = None) /\
  forall c d, find_closest_point p points = Some (c, d) -> closest p points c /\ d = distance p c.
Proof. intros p points. split; [destruct points; split; intros H; try reflexivity; discriminate H|apply closest_ok]. Qed.
Print Assumptions C72_closest.

(* the centers: the mean of a point of the first list and the closest points of the two others, for each point with both close enough *)
Theorem C72_centers : forall th i0 i1 i2, i0 <> [] -> i1 <> [] -> i2 <> [] -> (length (get_triple_point_centers th i0 i1 i2) <= length i0)%nat /\
  forall m, In m (get_triple_point_centers th i0 i1 i2) <->
  exists p c1 c2, In p i0 /\ closest p i1 c1 /\ closest p i2 c2 /\ distance p c1 <= th /\ distance p c2 <= th /\ m = Point ((fst p + fst c1 + fst c2) / 3, (snd p + snd c1 + snd c2) / 3).
Proof.
  intros th i0 i1 i2 N0 N1 N2. assert (E : get_triple_point_centers th i0 i1 i2 = collect th i0 i1 i2) by (unfold get_triple_point_centers; destruct i0, i1, i2; try contradiction; reflexivity). rewrite E. split; [apply collect_length|].
  intros m. apply collect_in; assumption.
Qed.
Print Assumptions C72_centers.

(* the triple points: every center with the closest of each of the three lists of branch points and the angles between neighbouring branches *)
Theorem C72_triple_points : forall centers p0p1 p1p2 p2p0, p0p1 <> [] -> p1p2 <> [] -> p2p0 <> [] ->
  exists l, get_triple_points (map Point centers) p0p1 p1p2 p2p0 = Some l /\ map (fun t => fst (fst t)) l = centers /\
  forall c bs angles, In (c, bs, angles) l -> exists b0 b1 b2, bs = [b0; b1; b2] /\ closest c p2p0 b0 /\ closest c p0p1 b1 /\ closest c p1p2 b2 /\ angles = [get_angle c b0 b1; get_angle c b1 b2; get_angle c b2 b0].
Proof.
  intros centers p0p1 p1p2 p2p0 N1 N2 N3. assert (K : exists l, all_some (map (triple_point_of p0p1 p1p2 p2p0) (map Point centers)) = Some l /\ map (fun t => fst (fst t)) l = centers /\
    forall c bs angles, In (c, bs, angles) l -> exists b0 b1 b2, bs = [b0; b1; b2] /\ closest c p2p0 b0 /\ closest c p0p1 b1 /\ closest c p1p2 b2 /\ angles = [get_angle c b0 b1; get_angle c b1 b2; get_angle c b2 b0]).
  { induction centers as [|c l IH]; [exists []; repeat split; intros c bs a []|]. destruct IH as (r & E & M & A). destruct (closest_some c p2p0 N3) as (b0 & d0 & E0). destruct (closest_some c p0p1 N1) as (b1 & d1 & E1). destruct (closest_some c p1p2 N2) as (b2 & d2 & E2).
    cbn [map triple_point_of]. rewrite E0, E1, E2. cbn [all_some]. rewrite E. eexists. split; [reflexivity|]. split; [cbn; rewrite M; reflexivity|]. intros c' bs a [Q|Q]; [|exact (A c' bs a Q)]. injection Q as <- <- <-.
    exists b0, b1, b2. repeat split; [exact (proj1 (closest_ok _ _ _ _ E0))|exact (proj1 (closest_ok _ _ _ _ E1))|exact (proj1 (closest_ok _ _ _ _ E2))]. }
  unfold get_triple_points. destruct centers as [|c l]; [exists []; repeat split; intros c bs a []|exact K].
Qed.
Print Assumptions C72_triple_points.

(* without an intersection of one of the pairs of contour lines there is no triple point, but the search raises an exception instead of returning none *)
Theorem C72_no_intersections_refuted : forall th i0 i1 i2 p0p1 p1p2 p2p0, i0 = [] \/ i1 = [] \/ i2 = [] -> get_triple_points (get_triple_point_centers th i0 i1 i2) p0p1 p1p2 p2p0 = None.
Proof. intros th i0 i1 i2 p0p1 p1p2 p2p0 H. unfold get_triple_point_centers. destruct H as [->|[->| ->]]; cbn [length Nat.eqb orb]; rewrite ?orb_true_r; reflexivity. Qed.
Print Assumptions C72_no_intersections_refuted.
(* only if all candidates are too far apart the result is empty *)
Theorem C72_far_apart : forall th i0 i1 i2 p0p1 p1p2 p2p0, i0 <> [] -> i1 <> [] -> i2 <> [] -> (forall p c1 c2, In p i0 -> closest p i1 c1 -> closest p i2 c2 -> distance p c1 > th \/ distance p c2 > th) ->
  get_triple_points (get_triple_point_centers th i0 i1 i2) p0p1 p1p2 p2p0 = Some [].
Proof.
  intros th i0 i1 i2 p0p1 p1p2 p2p0 N0 N1 N2 H. destruct (C72_centers th i0 i1 i2 N0 N1 N2) as [_ C]. destruct (get_triple_point_centers th i0 i1 i2) as [|m l]; [reflexivity|].
  exfalso. destruct (proj1 (C m) (or_introl eq_refl)) as (p & c1 & c2 & I & A & B & D1 & D2 & _). destruct (H p c1 c2 I A B); lra.
Qed.
Print Assumptions C72_far_apart.

(* angles: between the directions from the center, in degrees; symmetric and between 0 and 180 *)
Theorem C72_angle : forall c r s a b, 0 < r -> 0 < s -> 0 <= b - a <= PI -> get_angle c (polar c r a) (polar c s b) = Some ((b - a) * 180 / PI).
Proof. exact angle_polar. Qed.
Print Assumptions C72_angle.
Theorem C72_angle_range : forall c p q, get_angle c p q = get_angle c q p /\ forall v, get_angle c p q = Some v -> 0 <= v <= 180.
Proof. intros c p q. split; [apply angle_sym|apply angle_range]. Qed.
Print Assumptions C72_angle_range.
(* the three angles of a triple point add up to 360 degrees if no two neighbouring branches are more than 180 degrees apart *)
Theorem C72_angle_sum : forall c r0 r1 r2 a0 a1 a2, 0 < r0 -> 0 < r1 -> 0 < r2 -> 0 <= a1 - a0 <= PI -> 0 <= a2 - a1 <= PI -> 0 <= a0 + 2 * PI - a2 <= PI ->
  exists v0 v1 v2, get_angle c (polar c r0 a0) (polar c r1 a1) = Some v0 /\ get_angle c (polar c r1 a1) (polar c r2 a2) = Some v1 /\ get_angle c (polar c r2 a2) (polar c r0 a0) = Some v2 /\ v0 + v1 + v2 = 360.
Proof.
  intros c r0 r1 r2 a0 a1 a2 P0 P1 P2 A B C. do 3 eexists. split; [apply angle_polar; assumption|]. split; [apply angle_polar; assumption|]. split.
  - replace (polar c r0 a0) with (polar c r0 (a0 + 2 * PI)) by (unfold polar; rewrite cos_plus, sin_plus, cos_2PI, sin_2PI; f_equal; ring). apply angle_polar; assumption.
  - field. exact PI_neq0.
Qed.
Print Assumptions C72_angle_sum.
(* otherwise the largest of them is replaced by the sum of the two others, and the sum is smaller *)
Theorem C72_angle_sum_refuted : forall c r0 r1 r2 a0 a1 a2, 0 < r0 -> 0 < r1 -> 0 < r2 -> a0 <= a1 -> a1 <= a2 -> a2 - a0 < PI ->
  exists v0 v1 v2, get_angle c (polar c r0 a0) (polar c r1 a1) = Some v0 /\ get_angle c (polar c r1 a1) (polar c r2 a2) = Some v1 /\ get_angle c (polar c r2 a2) (polar c r0 a0) = Some v2 /\ v2 = v0 + v1 /\ v0 + v1 + v2 < 360.
Proof.
  intros c r0 r1 r2 a0 a1 a2 P0 P1 P2 A B C. do 3 eexists. split; [apply angle_polar; try assumption; lra|]. split; [apply angle_polar; try assumption; lra|]. split; [rewrite angle_sym; apply angle_polar; try assumption; lra|].
  pose proof PI_RGT_0 as HP. split; [field; lra|]. replace ((a1 - a0) * 180 / PI + (a2 - a1) * 180 / PI + (a2 - a0) * 180 / PI) with ((a2 - a0) / PI * 360) by (field; lra).
  assert (Q : (a2 - a0) / PI < 1) by (apply (Rmult_lt_reg_r PI); [exact HP|]; unfold Rdiv; rewrite Rmult_assoc, Rinv_l by lra; lra). lra.
Qed.
Print Assumptions C72_angle_sum_refuted.

(* two diagonals cross in the middle; a point of a horizontal line is not found *)
Example C72_example : get_line_intersections [[(0, 0); (2, 2)]] [[(0, 2); (2, 0)]] = Some [(Fin 1, Fin 1)] /\ get_line_intersections [[(0, 1); (2, 1)]] [[(0, 2); (2, 0)]] = None /\
  common ((0, 1), (2, 1)) ((0, 2), (2, 0)) (1, 1).
Proof.
  assert (I : forall a b c d x y, x = (a + c) / 2 -> y = (b + d) / 2 -> inside ((a, b), (c, d)) (x, y)) by (intros a b c d x y -> ->; exists (1 / 2); split; [lra|unfold at_fraction; cbn; f_equal; field]).
  assert (IO : forall s p, inside s p -> on_segment s p) by (intros s p (t & T & E); exists t; split; [lra|exact E]).
  split; [|split].
  - set (s1 := ((0, 0), (2, 2))). set (s2 := ((0, 2), (2, 0))). change (get_line_intersections [[fst s1; snd s1]] [[fst s2; snd s2]] = Some [(Fin 1, Fin 1)]).
    assert (O1 : oblique s1) by (unfold oblique, dx, dy, s1; cbn; lra). assert (O2 : oblique s2) by (unfold oblique, dx, dy, s2; cbn; lra). assert (NP : ~ parallel s1 s2) by (unfold parallel, dx, dy, s1, s2; cbn; lra).
    assert (E : at_fraction s1 (1 / 2) = at_fraction s2 (1 / 2)) by (unfold at_fraction, s1, s2; cbn; f_equal; field). destruct (cand_conds s1 s2 _ _ O1 O2 NP E) as (C & X & Y). rewrite gli_single.
    replace (x_cond s1 s2) with true by (symmetry; apply X; split; apply counts_inside; try apply O1; try apply O2; lra). replace (y_cond s1 s2) with true by (symmetry; apply Y; split; apply counts_inside; try apply O1; try apply O2; lra).
    rewrite C. unfold at_fraction, s1. cbn [fst snd]. do 2 f_equal. f_equal; f_equal; field.
  - apply (C72_axis_parallel_raises_refuted ((0, 1), (2, 1)) ((0, 2), (2, 0)) (1, 1)); [apply I; field|apply I; field|]. left. unfold horizontal, vertical, oblique, dx, dy. cbn. lra.
  - split; apply IO; apply I; field.
Qed.
(* lines in general position *)
Example C72_example_general : forall s1 s2, In (s1, s2) (side_pairs [[(0, 0); (2, 2)]] [[(0, 2); (2, 0)]]) -> generic_pair s1 s2.
Proof.
  intros s1 s2 [E|[]]. injection E as <- <-. split; [unfold oblique, dx, dy; cbn; lra|]. split; [unfold oblique, dx, dy; cbn; lra|]. intros p Hp.
  split; [unfold parallel, dx, dy; cbn; lra|]. destruct (common_frac _ _ p Hp) as (t1 & t2 & T1 & T2 & -> & E). assert (E' := E). unfold at_fraction in E'. cbn in E'. injection E' as E1 E2.
  split; [exists t1; split; [lra|reflexivity]|exists t2; split; [lra|exact E]].
Qed.
