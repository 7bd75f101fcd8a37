From Coq Require Import List Bool Arith Reals Lra Lia.
From Verif Require Import PostModel PostSpec.
Import ListNotations.
Local Open Scope R_scope.

Ltac dec := repeat match goal with
  | |- context [Req_EM_T ?a ?b] => destruct (Req_EM_T a b)
  | |- context [Rlt_dec ?a ?b] => destruct (Rlt_dec a b)
  | |- context [Rle_dec ?a ?b] => destruct (Rle_dec a b)
  | |- context [Rgt_dec ?a ?b] => destruct (Rgt_dec a b) end.

(* ranges *)
Lemma within_fin a b v : within a b (Fin v) = true <-> (a < v <= b \/ b < v <= a).
Proof.
  assert (K : forall p q : R, flt (Fin p) (Fin v) && fle (Fin v) (Fin q) = true <-> p < v <= q).
  { intros p q. unfold flt, fle. rewrite andb_true_iff. destruct (Rlt_dec p v), (Rle_dec v q); split; intros H; try tauto; destruct H; discriminate. }
  unfold within. rewrite K. unfold arr_min, arr_max. destruct (Rlt_dec a b); destruct (Rgt_dec a b); split; intros H; try lra; destruct H; lra.
Qed.
Lemma within_same a v : within a a v = false.
Proof. destruct v as [v| | |]; try (unfold within, flt, fle; cbn; try rewrite andb_false_r; reflexivity). destruct (within a a (Fin v)) eqn:E; [|reflexivity]. apply within_fin in E. exfalso. destruct E; lra. Qed.
Lemma within_inf a b v : (forall r, v <> Fin r) -> within a b v = false.
Proof. intros H. destruct v as [v| | |]; [exfalso; exact (H v eq_refl)| | |]; reflexivity. Qed.
(* the part of the segment that counts along one coordinate *)
Definition counts (d t : R) : Prop := (0 < d /\ 0 < t <= 1) \/ (d < 0 /\ 0 <= t < 1).
Lemma within_t a b t : within a b (Fin (a + t * (b - a))) = true <-> counts (b - a) t.
Proof.
  rewrite within_fin. unfold counts. destruct (Rtotal_order a b) as [H|[H|H]].
  - split; intros Q; [left; destruct Q as [Q|Q]; split; try lra; try nra|destruct Q as [Q|Q]; [left|lra]; nra].
  - subst b. split; intros Q; exfalso; [destruct Q; nra|destruct Q; lra].
  - split; intros Q; [right; destruct Q as [Q|Q]; split; try lra; try nra|destruct Q as [Q|Q]; [lra|right]; nra].
Qed.

(* candidates *)
Lemma slope_ob s : dx s <> 0 -> slope s = Fin (dy s / dx s).
Proof. intros H. unfold slope. cbn [fdiv]. fold (dx s) (dy s). dec; [contradiction|reflexivity]. Qed.
Lemma slope_vert s : dx s = 0 -> slope s = fscale PInf (dy s).
Proof. intros H. unfold slope. cbn [fdiv]. fold (dx s) (dy s). dec; [reflexivity|contradiction]. Qed.
Lemma div_ne a b : a <> 0 -> b <> 0 -> a / b <> 0.
Proof. intros Ha Hb H. apply Ha. replace a with (a / b * b) by (field; exact Hb). rewrite H. ring. Qed.

Lemma cand_line s1 s2 : oblique s1 -> oblique s2 -> ~ parallel s1 s2 ->
  exists t1 t2, candidate s1 s2 = (Fin (fst (at_fraction s1 t1)), Fin (snd (at_fraction s1 t1))) /\ at_fraction s1 t1 = at_fraction s2 t2.
Proof.
  intros [A1 B1] [A2 B2] NP. unfold candidate. rewrite (slope_ob s1 A1), (slope_ob s2 A2). cbn [fdiv fsub fneg fadd fmul].
  destruct (Req_EM_T (dy s2 / dx s2) 0) as [Z|_]; [exfalso; exact (div_ne _ _ B2 A2 Z)|].
  set (x11 := fst (fst s1)). set (y11 := snd (fst s1)). set (x21 := fst (fst s2)). set (y21 := snd (fst s2)).
  assert (ND : dx s1 * dy s2 - dx s2 * dy s1 <> 0) by (intros Q; apply NP; unfold parallel; lra).
  assert (DEN : 1 + - (dy s1 / dx s1 * (1 / (dy s2 / dx s2))) = (dx s1 * dy s2 - dx s2 * dy s1) / (dx s1 * dy s2)) by (field; auto).
  cbn [fdiv fsub fneg fadd fmul]. match goal with |- context [Req_EM_T ?e 0] => destruct (Req_EM_T e 0) as [Z|_] end; [exfalso; rewrite DEN in Z; apply (div_ne _ _ ND) in Z; [exact Z|intros Q; apply Rmult_integral in Q; tauto]|].
  exists (((x21 - x11) * dy s2 - (y21 - y11) * dx s2) / (dx s1 * dy s2 - dx s2 * dy s1)), (((x21 - x11) * dy s1 - (y21 - y11) * dx s1) / (dx s1 * dy s2 - dx s2 * dy s1)).
  unfold at_fraction. fold (dx s1) (dy s1) (dx s2) (dy s2) x11 y11 x21 y21. cbn [fst snd fadd fsub fneg fmul]. split; [|f_equal; field; exact ND].
  assert (ND' : dx s1 * dy s2 - dy s1 * dx s2 <> 0) by (intros Q; apply ND; lra).
  f_equal; f_equal; field; repeat split; auto.
Qed.
Lemma cross_unique s1 s2 t1 t2 t1' t2' : ~ parallel s1 s2 -> at_fraction s1 t1 = at_fraction s2 t2 -> at_fraction s1 t1' = at_fraction s2 t2' -> t1 = t1' /\ t2 = t2'.
Proof.
  intros NP H H'. unfold at_fraction in *. injection H as Hx Hy. injection H' as Hx' Hy'. fold (dx s1) (dx s2) in *. fold (dy s1) (dy s2) in *. unfold parallel in NP.
  assert (X : (t1 - t1') * dx s1 = (t2 - t2') * dx s2) by lra. assert (Y : (t1 - t1') * dy s1 = (t2 - t2') * dy s2) by lra.
  assert (Z1 : (t1 - t1') * (dx s1 * dy s2 - dx s2 * dy s1) = 0).
  { replace ((t1 - t1') * (dx s1 * dy s2 - dx s2 * dy s1)) with ((t1 - t1') * dx s1 * dy s2 - (t1 - t1') * dy s1 * dx s2) by ring. rewrite X, Y. ring. }
  assert (Z2 : (t2 - t2') * (dx s1 * dy s2 - dx s2 * dy s1) = 0).
  { replace ((t2 - t2') * (dx s1 * dy s2 - dx s2 * dy s1)) with ((t2 - t2') * dy s2 * dx s1 - (t2 - t2') * dx s2 * dy s1) by ring. rewrite <- X, <- Y. ring. }
  apply Rmult_integral in Z1. apply Rmult_integral in Z2. split; [destruct Z1|destruct Z2]; lra.
Qed.
(* the conditions in terms of the position on the segments *)
Lemma cand_conds s1 s2 t1 t2 : oblique s1 -> oblique s2 -> ~ parallel s1 s2 -> at_fraction s1 t1 = at_fraction s2 t2 ->
  candidate s1 s2 = (Fin (fst (at_fraction s1 t1)), Fin (snd (at_fraction s1 t1))) /\
  (x_cond s1 s2 = true <-> counts (dx s1) t1 /\ counts (dx s2) t2) /\ (y_cond s1 s2 = true <-> counts (dy s1) t1 /\ counts (dy s2) t2).
Proof.
  intros O1 O2 NP E. destruct (cand_line s1 s2 O1 O2 NP) as (u1 & u2 & C & E'). destruct (cross_unique s1 s2 _ _ _ _ NP E E') as [<- <-].
  split; [exact C|]. unfold x_cond, y_cond. rewrite C. cbn [fst snd]. split; rewrite andb_true_iff.
  - split; (intros [Q1 Q2]; split; [exact (proj1 (within_t _ _ t1) Q1) || exact (proj2 (within_t _ _ t1) Q1)|]); rewrite E in *; [exact (proj1 (within_t _ _ t2) Q2)|exact (proj2 (within_t _ _ t2) Q2)].
  - split; (intros [Q1 Q2]; split; [exact (proj1 (within_t _ _ t1) Q1) || exact (proj2 (within_t _ _ t1) Q1)|]); rewrite E in *; [exact (proj1 (within_t _ _ t2) Q2)|exact (proj2 (within_t _ _ t2) Q2)].
Qed.
Lemma counts_range d t : counts d t -> 0 <= t <= 1. Proof. unfold counts. lra. Qed.
Lemma counts_inside d t : d <> 0 -> 0 < t < 1 -> counts d t. Proof. unfold counts. lra. Qed.

(* parallel segments *)
Lemma cand_parallel s1 s2 : oblique s1 -> oblique s2 -> parallel s1 s2 -> x_cond s1 s2 = false /\ y_cond s1 s2 = false.
Proof.
  intros [A1 B1] [A2 B2] P. unfold x_cond, y_cond, candidate. rewrite (slope_ob s1 A1), (slope_ob s2 A2). cbn [fdiv fsub fneg fadd fmul].
  destruct (Req_EM_T (dy s2 / dx s2) 0) as [Z|_]; [exfalso; exact (div_ne _ _ B2 A2 Z)|]. cbn [fdiv fsub fmul fadd fneg fst snd].
  assert (DEN : 1 + - (dy s1 / dx s1 * (1 / (dy s2 / dx s2))) = (dx s1 * dy s2 - dx s2 * dy s1) / (dx s1 * dy s2)) by (field; auto).
  match goal with |- context [Req_EM_T ?e 0] => destruct (Req_EM_T e 0) as [_|N] end; [|exfalso; apply N; rewrite DEN; unfold parallel in P; rewrite P; unfold Rdiv; ring].
  match goal with |- context [fscale PInf ?e] => set (n := e) end. match goal with |- context [Fin (1 / ?e)] => set (k := 1 / e) end.
  assert (K : forall y : fl, y = fscale PInf n -> (forall r, y <> Fin r) /\ forall r, fadd (fmul (fsub y (Fin (snd (fst s2)))) (Fin k)) (Fin (fst (fst s2))) <> Fin r).
  { intros y ->. unfold fscale. destruct (Req_EM_T n 0); [|destruct (Rlt_dec 0 n)]; cbn; (split; [intros; discriminate|]); intros rr; unfold fscale; destruct (Req_EM_T k 0); try destruct (Rlt_dec 0 k); cbn; discriminate. }
  destruct (K _ eq_refl) as [K1 K2]. split; rewrite ?(within_inf _ _ _ K1); try reflexivity. unfold fsub in K2. cbn [fneg] in K2. rewrite (within_inf _ _ _ K2). reflexivity.
Qed.
(* axis-parallel segments *)
Lemma cand_vert1 s1 s2 : dx s1 = 0 -> x_cond s1 s2 = false /\ y_cond s1 s2 = false.
Proof.
  intros H. assert (N : candidate s1 s2 = (NaN, NaN)).
  { unfold candidate. rewrite (slope_vert s1 H). set (i := fdiv (Fin 1) (slope s2)). clearbody i. unfold fscale. destruct (Req_EM_T (dy s1) 0); [reflexivity|].
    assert (K : forall m, m = PInf \/ m = NInf -> fdiv (fadd (fmul m (fsub (fsub (Fin (fst (fst s2))) (Fin (fst (fst s1)))) (fmul i (Fin (snd (fst s2)))))) (Fin (snd (fst s1)))) (fsub (Fin 1) (fmul m i)) = NaN).
    { intros m Hm. destruct i as [i| | |]; destruct Hm as [-> | ->]; cbn; unfold fscale; dec; cbn; unfold fscale; dec; cbn; try reflexivity; try contradiction; exfalso; lra. }
    destruct (Rlt_dec 0 (dy s1)); cbn [fneg]; rewrite (K _) by auto; reflexivity. }
  unfold x_cond, y_cond. rewrite N. split; reflexivity.
Qed.
Lemma cand_hor2 s1 s2 : dy s2 = 0 -> x_cond s1 s2 = false /\ y_cond s1 s2 = false.
Proof.
  intros H. destruct (Req_EM_T (dx s1) 0) as [V|V]; [exact (cand_vert1 s1 s2 V)|]. assert (N : candidate s1 s2 = (NaN, NaN)).
  { unfold candidate. rewrite (slope_ob s1 V). destruct (Req_EM_T (dx s2) 0) as [W|W].
    - rewrite (slope_vert s2 W), H. unfold fscale. destruct (Req_EM_T 0 0); [|contradiction]. reflexivity.
    - rewrite (slope_ob s2 W), H. cbn [fdiv]. destruct (Req_EM_T (0 / dx s2) 0) as [_|Q]; [|exfalso; apply Q; unfold Rdiv; ring]. unfold fscale at 1. destruct (Req_EM_T 1 0); [lra|]. destruct (Rlt_dec 0 1); [|lra].
      cbn. unfold fscale. dec; cbn; unfold fscale; dec; cbn; try reflexivity; try contradiction; exfalso; lra. }
  unfold x_cond, y_cond. rewrite N. split; reflexivity.
Qed.
Lemma cand_hor1 s1 s2 : dy s1 = 0 -> y_cond s1 s2 = false.
Proof. intros H. unfold y_cond. replace (snd (snd s1)) with (snd (fst s1)) by (unfold dy in H; lra). rewrite within_same. reflexivity. Qed.
Lemma cand_vert2 s1 s2 : dx s2 = 0 -> x_cond s1 s2 = false.
Proof. intros H. unfold x_cond. replace (fst (snd s2)) with (fst (fst s2)) by (unfold dx in H; lra). rewrite within_same, andb_false_r. reflexivity. Qed.
(* a horizontal segment of the first line and an oblique one of the second *)
Lemma hor1_x s1 s2 t1 t2 : dy s1 = 0 -> dx s1 <> 0 -> oblique s2 -> at_fraction s1 t1 = at_fraction s2 t2 -> x_cond s1 s2 = true <-> counts (dx s1) t1 /\ counts (dx s2) t2.
Proof.
  intros H A1 [A2 B2] E. assert (C : fst (candidate s1 s2) = Fin (fst (at_fraction s1 t1))).
  { unfold candidate. rewrite (slope_ob s1 A1), (slope_ob s2 A2), H. cbn [fdiv fsub fneg fadd fmul fst]. destruct (Req_EM_T (dy s2 / dx s2) 0) as [Z|_]; [exfalso; exact (div_ne _ _ B2 A2 Z)|]. cbn [fdiv fsub fmul fadd fneg].
    match goal with |- context [Req_EM_T ?e 0] => destruct (Req_EM_T e 0) as [Z|_] end; [exfalso; revert Z; match goal with |- ?e = 0 -> _ => replace e with 1 by (field; auto) end; lra|]. cbn [fadd fsub fneg fmul]. f_equal. rewrite E. unfold at_fraction in *. injection E as Ex Ey. cbn [fst]. fold (dx s1) (dx s2) in *. fold (dy s1) (dy s2) in *.
    assert (Y : snd (fst s1) = snd (fst s2) + t2 * dy s2) by (rewrite H in Ey; lra). rewrite Y. field. auto. }
  unfold x_cond. rewrite C, andb_true_iff. split; (intros [Q1 Q2]; split; [exact (proj1 (within_t _ _ t1) Q1) || exact (proj2 (within_t _ _ t1) Q1)|]); rewrite E in *; [exact (proj1 (within_t _ _ t2) Q2)|exact (proj2 (within_t _ _ t2) Q2)].
Qed.
Lemma vert2_y s1 s2 t1 t2 : dx s2 = 0 -> dy s2 <> 0 -> oblique s1 -> at_fraction s1 t1 = at_fraction s2 t2 -> y_cond s1 s2 = true <-> counts (dy s1) t1 /\ counts (dy s2) t2.
Proof.
  intros H B2 [A1 B1] E. assert (C : snd (candidate s1 s2) = Fin (snd (at_fraction s1 t1))).
  { unfold candidate. rewrite (slope_ob s1 A1), (slope_vert s2 H). cbn [snd].
    assert (I : fdiv (Fin 1) (fscale PInf (dy s2)) = Fin 0) by (unfold fscale; dec; [contradiction|reflexivity|reflexivity]). rewrite I. cbn [fdiv fmul fadd fsub fneg].
    match goal with |- context [Req_EM_T ?e 0] => destruct (Req_EM_T e 0) as [Z|_] end; [exfalso; revert Z; match goal with |- ?e = 0 -> _ => replace e with 1 by (field; auto) end; lra|]. f_equal. unfold at_fraction in *. injection E as Ex Ey. cbn [snd]. fold (dx s1) (dx s2) in *. fold (dy s1) (dy s2) in *.
    assert (X : fst (fst s2) = fst (fst s1) + t1 * dx s1) by (rewrite H in Ex; lra). rewrite X. field. auto. }
  unfold y_cond. rewrite C, andb_true_iff. split; (intros [Q1 Q2]; split; [exact (proj1 (within_t _ _ t1) Q1) || exact (proj2 (within_t _ _ t1) Q1)|]); rewrite E in *; [exact (proj1 (within_t _ _ t2) Q2)|exact (proj2 (within_t _ _ t2) Q2)].
Qed.
