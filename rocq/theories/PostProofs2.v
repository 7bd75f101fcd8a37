From Coq Require Import List Bool Arith Reals Lra Lia.
From Verif Require Import PostModel PostSpec PostProofs.
Import ListNotations.
Local Open Scope R_scope.

Lemma common_frac s1 s2 p : common s1 s2 p -> exists t1 t2, 0 <= t1 <= 1 /\ 0 <= t2 <= 1 /\ p = at_fraction s1 t1 /\ at_fraction s1 t1 = at_fraction s2 t2.
Proof. intros [(t1 & H1 & E1) (t2 & H2 & E2)]. exists t1, t2. repeat split; try tauto. congruence. Qed.
Lemma frac_common s1 s2 t1 t2 : 0 <= t1 <= 1 -> 0 <= t2 <= 1 -> at_fraction s1 t1 = at_fraction s2 t2 -> common s1 s2 (at_fraction s1 t1).
Proof. intros H1 H2 E. split; [exists t1; tauto|exists t2; tauto]. Qed.
Lemma inside_t s p t : dx s <> 0 -> inside s p -> p = at_fraction s t -> 0 < t < 1.
Proof.
  intros N (u & Hu & E) E'. rewrite E in E'. unfold at_fraction in E'. injection E' as Ex _. fold (dx s) in Ex. assert (Z : (u - t) * dx s = 0) by lra. apply Rmult_integral in Z. assert (u = t) by (destruct Z; [lra|contradiction]). subst. exact Hu.
Qed.
Lemma bool_false b : ~ b = true -> b = false. Proof. destruct b; [intros H; exfalso; apply H; reflexivity|reflexivity]. Qed.

Lemma generic_cond s1 s2 : generic_pair s1 s2 ->
  (exists p, common s1 s2 p /\ candidate s1 s2 = (Fin (fst p), Fin (snd p)) /\ x_cond s1 s2 = true /\ y_cond s1 s2 = true) \/
  ((forall p, ~ common s1 s2 p) /\ x_cond s1 s2 = false /\ y_cond s1 s2 = false).
Proof.
  intros (O1 & O2 & G). destruct (Req_EM_T (dx s1 * dy s2) (dx s2 * dy s1)) as [P|P].
  - right. split; [intros p Hp; exact (proj1 (G p Hp) P)|exact (cand_parallel s1 s2 O1 O2 P)].
  - destruct (cand_line s1 s2 O1 O2 P) as (t1 & t2 & C & E). destruct (cand_conds s1 s2 t1 t2 O1 O2 P E) as (_ & X & Y).
    assert (D : (0 <= t1 <= 1 /\ 0 <= t2 <= 1) \/ ~ (0 <= t1 <= 1 /\ 0 <= t2 <= 1)) by lra. destruct D as [[D1 D2]|D].
    + left. exists (at_fraction s1 t1). pose proof (frac_common s1 s2 t1 t2 D1 D2 E) as HC. split; [exact HC|]. split; [exact C|]. destruct (G _ HC) as (_ & I1 & I2).
      pose proof (inside_t s1 _ t1 (proj1 O1) I1 eq_refl) as T1. pose proof (inside_t s2 _ t2 (proj1 O2) I2 E) as T2. destruct O1, O2. split; [apply X|apply Y]; split; apply counts_inside; assumption.
    + right. split.
      * intros p Hp. destruct (common_frac s1 s2 p Hp) as (u1 & u2 & U1 & U2 & _ & E'). destruct (cross_unique s1 s2 _ _ _ _ P E E') as [-> ->]. tauto.
      * split; apply bool_false; intros Q; [apply X in Q|apply Y in Q]; destruct Q as [Q1 Q2]; apply counts_range in Q1; apply counts_range in Q2; tauto.
Qed.

(* lists *)
Lemma segments_sides path : segments path = sides path.
Proof. induction path as [|p [|q l] IH]; [reflexivity|reflexivity|]. change (segments (p :: q :: l)) with ((p, q) :: segments (q :: l)). rewrite IH. reflexivity. Qed.
Lemma filter_flat {A B} (f : A -> list B) g l : filter g (flat_map f l) = flat_map (fun a => filter g (f a)) l.
Proof. induction l as [|a l IH]; [reflexivity|]. cbn. rewrite filter_app, IH. reflexivity. Qed.
Lemma map_flat {A B C} (f : A -> list B) (g : B -> C) l : map g (flat_map f l) = flat_map (fun a => map g (f a)) l.
Proof. induction l as [|a l IH]; [reflexivity|]. cbn. rewrite map_app, IH. reflexivity. Qed.
Lemma flat_flat {A B C} (f : A -> list B) (g : B -> list C) l : flat_map g (flat_map f l) = flat_map (fun a => flat_map g (f a)) l.
Proof. induction l as [|a l IH]; [reflexivity|]. cbn. rewrite flat_map_app, IH. reflexivity. Qed.
Lemma flat_ext {A B} (f g : A -> list B) l : (forall a, f a = g a) -> flat_map f l = flat_map g l.
Proof. intros H. induction l as [|a l IH]; [reflexivity|]. cbn. rewrite H, IH. reflexivity. Qed.
Lemma flat_map_map {A B C} (f : A -> B) (g : B -> list C) l : flat_map g (map f l) = flat_map (fun a => g (f a)) l.
Proof. induction l as [|a l IH]; [reflexivity|]. cbn. rewrite IH. reflexivity. Qed.

Definition xs_of (l : list (segment * segment)) : list fl := map (fun p => fst (candidate (fst p) (snd p))) (filter (fun p => x_cond (fst p) (snd p)) l).
Definition ys_of (l : list (segment * segment)) : list fl := map (fun p => snd (candidate (fst p) (snd p))) (filter (fun p => y_cond (fst p) (snd p)) l).
Lemma gli_pairs l1 l2 : get_line_intersections l1 l2 =
  if Nat.eqb (length (xs_of (side_pairs l1 l2))) (length (ys_of (side_pairs l1 l2))) then Some (combine (xs_of (side_pairs l1 l2)) (ys_of (side_pairs l1 l2))) else None.
Proof.
  unfold get_line_intersections. cbv zeta.
  assert (HX : flat_map fst (flat_map (fun c1 => map (fun c2 => find_intersections c1 c2) l2) l1) = xs_of (side_pairs l1 l2)).
  { unfold xs_of, side_pairs. rewrite flat_flat, filter_flat, map_flat. apply flat_ext. intros c1. rewrite filter_flat, map_flat, flat_map_map. apply flat_ext. intros c2. unfold find_intersections, mesh. cbn [fst]. rewrite !segments_sides. reflexivity. }
  assert (HY : flat_map snd (flat_map (fun c1 => map (fun c2 => find_intersections c1 c2) l2) l1) = ys_of (side_pairs l1 l2)).
  { unfold ys_of, side_pairs. rewrite flat_flat, filter_flat, map_flat. apply flat_ext. intros c1. rewrite filter_flat, map_flat, flat_map_map. apply flat_ext. intros c2. unfold find_intersections, mesh. cbn [snd]. rewrite !segments_sides. reflexivity. }
  rewrite HX, HY. reflexivity.
Qed.
Lemma generic_pairs L : (forall s1 s2, In (s1, s2) L -> generic_pair s1 s2) -> exists r, crossings L r /\ xs_of L = map (fun p => Fin (fst p)) r /\ ys_of L = map (fun p => Fin (snd p)) r.
Proof.
  induction L as [|[s1 s2] L IH]; intros H; [exists []; repeat split; constructor|]. destruct IH as (r & C & X & Y); [intros; apply H; right; assumption|].
  destruct (generic_cond s1 s2 (H _ _ (or_introl eq_refl))) as [(p & Hp & E & XC & YC)|(N & XC & YC)].
  - exists (p :: r). split; [apply crossings_take; assumption|]. unfold xs_of, ys_of in *. cbn [filter fst snd]. rewrite XC, YC. cbn [map fst snd]. rewrite E, X, Y. split; reflexivity.
  - exists r. split; [apply crossings_skip; assumption|]. unfold xs_of, ys_of in *. cbn [filter fst snd]. rewrite XC, YC. split; assumption.
Qed.
Lemma combine_map {A B C} (f : A -> B) (g : A -> C) l : combine (map f l) (map g l) = map (fun a => (f a, g a)) l.
Proof. induction l as [|a l IH]; [reflexivity|]. cbn. rewrite IH. reflexivity. Qed.
Lemma generic_lines l1 l2 : (forall s1 s2, In (s1, s2) (side_pairs l1 l2) -> generic_pair s1 s2) ->
  exists r l, get_line_intersections l1 l2 = Some l /\ finite_points l r /\ crossings (side_pairs l1 l2) r.
Proof.
  intros H. destruct (generic_pairs _ H) as (r & C & X & Y). exists r. eexists. split; [|split; [|exact C]]; [rewrite gli_pairs, X, Y, !map_length, Nat.eqb_refl; reflexivity|].
  unfold finite_points. apply combine_map.
Qed.
Lemma crossings_in L r : (forall s1 s2 p q, In (s1, s2) L -> common s1 s2 p -> common s1 s2 q -> p = q) -> crossings L r -> forall p, In p r <-> exists s1 s2, In (s1, s2) L /\ common s1 s2 p.
Proof.
  intros U C. induction C as [|s1 s2 l r N C IH|s1 s2 p0 l r Hp C IH]; intros p.
  - split; [intros []|intros (s1 & s2 & [] & _)].
  - rewrite IH by (intros; eapply U; [right; eassumption|eassumption|eassumption]). split; [intros (a & b & I & Q); exists a, b; split; [right; exact I|exact Q]|].
    intros (a & b & [E|I] & Q); [injection E as -> ->; exfalso; exact (N p Q)|exists a, b; tauto].
  - cbn [In]. rewrite IH by (intros; eapply U; [right; eassumption|eassumption|eassumption]). split.
    + intros [<-|(a & b & I & Q)]; [exists s1, s2; split; [left; reflexivity|exact Hp]|exists a, b; split; [right; exact I|exact Q]].
    + intros (a & b & [E|I] & Q); [injection E as <- <-; left; exact (U s1 s2 _ _ (or_introl eq_refl) Hp Q)|right; exists a, b; tauto].
Qed.
Lemma common_unique s1 s2 p q : ~ parallel s1 s2 -> common s1 s2 p -> common s1 s2 q -> p = q.
Proof.
  intros NP Hp Hq. destruct (common_frac s1 s2 p Hp) as (a & b & _ & _ & Ep & E). destruct (common_frac s1 s2 q Hq) as (c & d & _ & _ & Eq & E'). destruct (cross_unique s1 s2 _ _ _ _ NP E E') as [-> _]. congruence.
Qed.

(* everything that is returned is a common point *)
Lemma both_sound s1 s2 : x_cond s1 s2 = true -> y_cond s1 s2 = true -> exists p, candidate s1 s2 = (Fin (fst p), Fin (snd p)) /\ common s1 s2 p.
Proof.
  intros X Y. destruct (Req_EM_T (dx s1) 0) as [V1|V1]; [rewrite (proj1 (cand_vert1 s1 s2 V1)) in X; discriminate|].
  destruct (Req_EM_T (dy s2) 0) as [H2|H2]; [rewrite (proj1 (cand_hor2 s1 s2 H2)) in X; discriminate|].
  destruct (Req_EM_T (dy s1) 0) as [H1|H1]; [rewrite (cand_hor1 s1 s2 H1) in Y; discriminate|].
  destruct (Req_EM_T (dx s2) 0) as [V2|V2]; [rewrite (cand_vert2 s1 s2 V2) in X; discriminate|].
  assert (O1 : oblique s1) by (split; assumption). assert (O2 : oblique s2) by (split; assumption).
  destruct (Req_EM_T (dx s1 * dy s2) (dx s2 * dy s1)) as [P|P]; [rewrite (proj1 (cand_parallel s1 s2 O1 O2 P)) in X; discriminate|].
  destruct (cand_line s1 s2 O1 O2 P) as (t1 & t2 & C & E). destruct (cand_conds s1 s2 t1 t2 O1 O2 P E) as (_ & HX & _). apply HX in X. destruct X as [X1 X2].
  exists (at_fraction s1 t1). split; [exact C|]. exact (frac_common s1 s2 t1 t2 (counts_range _ _ X1) (counts_range _ _ X2) E).
Qed.
(* one segment in each line *)
Lemma gli_single s1 s2 : get_line_intersections [[fst s1; snd s1]] [[fst s2; snd s2]] =
  if x_cond s1 s2 then if y_cond s1 s2 then Some [candidate s1 s2] else None else if y_cond s1 s2 then None else Some [].
Proof.
  rewrite gli_pairs. unfold side_pairs. cbn [flat_map sides map app]. rewrite <- !surjective_pairing. unfold xs_of, ys_of. cbn [filter fst snd].
  destruct (x_cond s1 s2), (y_cond s1 s2); cbn [map length Nat.eqb combine fst snd]; try reflexivity.
Qed.

(* ends of segments *)
Lemma counts_left s t : dx s <> 0 -> counts (dx s) t <-> 0 <= t <= 1 /\ ~ left_end s (at_fraction s t).
Proof.
  intros N. assert (F : fst (at_fraction s t) = fst (fst s) + t * dx s) by reflexivity. assert (D : fst (snd s) = fst (fst s) + dx s) by (unfold dx; ring).
  assert (A0 : at_fraction s 0 = fst s) by (destruct s as [[a b] [c d]]; unfold at_fraction; cbn; f_equal; ring). assert (A1 : at_fraction s 1 = snd s) by (destruct s as [[a b] [c d]]; unfold at_fraction; cbn; f_equal; ring).
  unfold left_end. rewrite F, D. split.
  - intros H. split; [exact (counts_range _ _ H)|]. intros (_ & L1 & L2). destruct H as [[P Q]|[P Q]]; nra.
  - intros [H L]. unfold counts. destruct (Rtotal_order (dx s) 0) as [P|[P|P]]; [right|contradiction|left]; split; try exact P; split; try lra.
    + destruct (Req_EM_T t 1) as [->|]; [|lra]. exfalso. apply L. rewrite A1. split; [right; reflexivity|]. lra.
    + destruct (Req_EM_T t 0) as [->|]; [|lra]. exfalso. apply L. rewrite A0. split; [left; reflexivity|]. lra.
Qed.
Lemma rising_counts s t : rising s -> counts (dx s) t <-> counts (dy s) t.
Proof. unfold rising, counts. intros H. assert (K : (0 < dx s /\ 0 < dy s) \/ (dx s < 0 /\ dy s < 0)) by (destruct (Rtotal_order (dx s) 0) as [P|[P|P]]; [right|exfalso; rewrite P in H; lra|left]; split; try exact P; nra). destruct K as [[? ?]|[? ?]]; split; intros [[? ?]|[? ?]]; solve [lra|left; lra|right; lra]. Qed.
Lemma falling_counts s t : falling s -> counts (dx s) t -> (t = 0 \/ t = 1) -> ~ counts (dy s) t.
Proof. unfold falling, counts. intros H. assert (K : (0 < dx s /\ dy s < 0) \/ (dx s < 0 /\ 0 < dy s)) by (destruct (Rtotal_order (dx s) 0) as [P|[P|P]]; [right|exfalso; rewrite P in H; lra|left]; split; try exact P; nra). destruct K as [[? ?]|[? ?]]; intros [[? ?]|[? ?]] [->| ->] [[? ?]|[? ?]]; lra. Qed.
Lemma falling_counts' s t : falling s -> ~ counts (dx s) t -> (t = 0 \/ t = 1) -> counts (dy s) t.
Proof.
  unfold falling, counts. intros H. assert (K : (0 < dx s /\ dy s < 0) \/ (dx s < 0 /\ 0 < dy s)) by (destruct (Rtotal_order (dx s) 0) as [P|[P|P]]; [right|exfalso; rewrite P in H; lra|left]; split; try exact P; nra).
  intros N T. destruct K as [[? ?]|[? ?]]; destruct T as [->| ->]; try (exfalso; apply N; lra); [right|left]; lra.
Qed.
Lemma end_t s p : end_of s p -> exists t, (t = 0 \/ t = 1) /\ p = at_fraction s t.
Proof.
  intros [-> | ->]; [exists 0|exists 1]; (split; [tauto|]); destruct s as [[a b] [c d]]; unfold at_fraction; cbn; f_equal; ring.
Qed.

(* closest points *)
Lemma distance_sq p q : distance p q = sqrt (dist_sq p q). Proof. reflexivity. Qed.
Lemma dist_pos p q : 0 <= dist_sq p q. Proof. unfold dist_sq. apply Rplus_le_le_0_compat; apply pow2_ge_0. Qed.
Lemma first_min_ok p l : forall best, exists l1 l2, best :: l = l1 ++ first_min p best l :: l2 /\ (forall q, In q l1 -> dist_sq p (first_min p best l) < dist_sq p q) /\ (forall q, In q l2 -> dist_sq p (first_min p best l) <= dist_sq p q).
Proof.
  induction l as [|a l IH]; intros best; [exists [], []; repeat split; intros q []|]. cbn [first_min]. destruct (Rlt_dec (dist_sq p a) (dist_sq p best)) as [H|H].
  - destruct (IH a) as (l1 & l2 & E & A & B). exists (best :: l1), l2. split; [cbn [app]; f_equal; exact E|]. split; [|exact B]. intros q [<-|Q]; [|exact (A q Q)].
    destruct l1 as [|b l1]; [injection E as E1 E2; rewrite <- E1; exact H|]. injection E as <- E2. assert (Z := A a (or_introl eq_refl)). lra.
  - destruct (IH best) as (l1 & l2 & E & A & B). destruct l1 as [|b l1].
    + injection E as E1 E2. exists [], (a :: l2). rewrite <- E1 in *. subst l2. repeat split; [intros q []|]. intros q [<-|Q]; [lra|exact (B q Q)].
    + injection E as <- E2. exists (best :: a :: l1), l2. split; [cbn [app]; f_equal; f_equal; exact E2|]. split; [|exact B]. intros q [<-|[<-|Q]]; [apply A; left; reflexivity| |apply A; right; exact Q]. assert (Z := A best (or_introl eq_refl)). lra.
Qed.
Lemma closest_ok p l c d : find_closest_point p l = Some (c, d) -> closest p l c /\ d = distance p c.
Proof.
  destruct l as [|q l]; [discriminate|]. cbn. intros E. injection E as <- <-. split; [|reflexivity]. destruct (first_min_ok p l q) as (l1 & l2 & E & A & B). exists l1, l2. split; [exact E|].
  split; intros x Hx; rewrite !distance_sq; [apply sqrt_lt_1; [apply dist_pos|apply dist_pos|exact (A x Hx)]|apply sqrt_le_1; [apply dist_pos|apply dist_pos|exact (B x Hx)]].
Qed.
Lemma closest_some p l : l <> [] -> exists c d, find_closest_point p l = Some (c, d).
Proof. destruct l as [|q l]; [tauto|]. intros _. eexists. eexists. reflexivity. Qed.
Lemma closest_det p l c c' : closest p l c -> closest p l c' -> c = c'.
Proof.
  intros (a & b & E & A & B) (a' & b' & E' & A' & B'). rewrite E in E'. clear E l. revert a' E' A'. induction a as [|x a IH]; intros a' E' A'.
  - destruct a' as [|y a']; [injection E' as <- _; reflexivity|]. injection E' as <- E2. exfalso. assert (Z1 := A' c (or_introl eq_refl)). assert (Z2 : In c' b) by (rewrite E2; apply in_or_app; right; left; reflexivity). apply B in Z2. lra.
  - destruct a' as [|y a'].
    + injection E' as -> E2. exfalso. assert (Z1 := A c' (or_introl eq_refl)). assert (Z2 : In c b') by (rewrite <- E2; apply in_or_app; right; left; reflexivity). apply B' in Z2. lra.
    + injection E' as <- E2. apply (IH (fun q Hq => A q (or_intror Hq)) a' E2). intros q Hq. apply A'. right. exact Hq.
Qed.

(* centers *)
Lemma collect_in th i0 i1 i2 m : i1 <> [] -> i2 <> [] -> In m (collect th i0 i1 i2) <->
  exists p c1 c2, In p i0 /\ closest p i1 c1 /\ closest p i2 c2 /\ distance p c1 <= th /\ distance p c2 <= th /\ m = Point ((fst p + fst c1 + fst c2) / 3, (snd p + snd c1 + snd c2) / 3).
Proof.
  intros N1 N2. induction i0 as [|p l IH]; [split; [intros []|intros (p & c1 & c2 & [] & _)]|]. cbn [collect].
  destruct (closest_some p i1 N1) as (c1 & d1 & E1). destruct (closest_some p i2 N2) as (c2 & d2 & E2). rewrite E1, E2. destruct (closest_ok _ _ _ _ E1) as [C1 D1]. destruct (closest_ok _ _ _ _ E2) as [C2 D2].
  assert (SK : ~ (d1 <= th /\ d2 <= th) -> (exists q a b, In q (p :: l) /\ closest q i1 a /\ closest q i2 b /\ distance q a <= th /\ distance q b <= th /\ m = Point ((fst q + fst a + fst b) / 3, (snd q + snd a + snd b) / 3)) <->
    exists q a b, In q l /\ closest q i1 a /\ closest q i2 b /\ distance q a <= th /\ distance q b <= th /\ m = Point ((fst q + fst a + fst b) / 3, (snd q + snd a + snd b) / 3)).
  { intros S. split; intros (q & a & b & I & A & B & DA & DB & M); [|exists q, a, b; repeat split; try assumption; right; exact I]. destruct I as [<-|I]; [|exists q, a, b; tauto].
    exfalso. apply S. rewrite D1, D2, (closest_det _ _ _ _ C1 A), (closest_det _ _ _ _ C2 B). tauto. }
  destruct (Rgt_dec d1 th) as [G1|G1]; [rewrite IH; symmetry; apply SK; lra|]. destruct (Rgt_dec d2 th) as [G2|G2]; [rewrite IH; symmetry; apply SK; lra|]. cbn [In]. rewrite IH. split.
  - intros [<-|(q & a & b & I & R)]; [exists p, c1, c2; rewrite <- D1, <- D2; repeat split; try tauto; try lra; left; reflexivity|exists q, a, b; split; [right; exact I|exact R]].
  - intros (q & a & b & [<-|I] & A & B & DA & DB & M); [left; rewrite M, (closest_det _ _ _ _ C1 A), (closest_det _ _ _ _ C2 B); reflexivity|right; exists q, a, b; tauto].
Qed.
Lemma collect_length th i0 i1 i2 : (length (collect th i0 i1 i2) <= length i0)%nat.
Proof. induction i0 as [|p l IH]; [apply le_n|]. cbn [collect length]. destruct (find_closest_point p i1) as [[c1 d1]|]; [|lia]. destruct (find_closest_point p i2) as [[c2 d2]|]; [|lia]. destruct (Rgt_dec d1 th); [lia|]. destruct (Rgt_dec d2 th); [lia|]. cbn. lia. Qed.

(* angles *)
Lemma polar_norm r phi : 0 < r -> sqrt ((r * cos phi) ^ 2 + (r * sin phi) ^ 2) = r.
Proof. intros H. replace ((r * cos phi) ^ 2 + (r * sin phi) ^ 2) with (r * r * (Rsqr (sin phi) + Rsqr (cos phi))) by (unfold Rsqr; ring). rewrite sin2_cos2, Rmult_1_r. apply sqrt_square. lra. Qed.
Lemma angle_polar c r s a b : 0 < r -> 0 < s -> 0 <= b - a <= PI -> get_angle c (polar c r a) (polar c s b) = Some ((b - a) * 180 / PI).
Proof.
  intros Hr Hs H. unfold get_angle, polar. cbn [fst snd].
  replace (fst c + r * cos a - fst c) with (r * cos a) by ring. replace (snd c + r * sin a - snd c) with (r * sin a) by ring. replace (fst c + s * cos b - fst c) with (s * cos b) by ring. replace (snd c + s * sin b - snd c) with (s * sin b) by ring.
  rewrite !polar_norm by assumption. destruct (Req_EM_T r 0); [lra|]. destruct (Req_EM_T s 0); [lra|]. f_equal. f_equal. f_equal.
  replace (r * cos a / r * (s * cos b / s) + r * sin a / r * (s * sin b / s)) with (cos (b - a)) by (rewrite cos_minus; field; auto). apply acos_cos. exact H.
Qed.
Lemma angle_sym c p q : get_angle c p q = get_angle c q p.
Proof. unfold get_angle. cbv zeta. repeat match goal with |- context [Req_EM_T ?e 0] => destruct (Req_EM_T e 0) end; try reflexivity. f_equal. f_equal. f_equal. f_equal. ring. Qed.
Lemma angle_range c p q v : get_angle c p q = Some v -> 0 <= v <= 180.
Proof.
  unfold get_angle. cbv zeta. repeat match goal with |- context [Req_EM_T ?e 0] => destruct (Req_EM_T e 0) end; try discriminate. intros E. injection E as <-.
  match goal with |- context [acos ?e] => pose proof (acos_bound e) as B end. pose proof PI_RGT_0 as P. split.
  - apply Rmult_le_pos; [lra|]. left. apply Rinv_0_lt_compat. exact P.
  - apply (Rmult_le_reg_r PI); [exact P|]. unfold Rdiv. rewrite Rmult_assoc, Rinv_l by lra. lra.
Qed.
