From Coq Require Import List Bool Arith Lia.
From Verif Require Import ImgModel ImgSpec.
Import ListNotations.

Lemma round_div_mult a b : 0 < b -> round_div (a * b) b = a.
Proof. intros H. unfold round_div. symmetry. apply (Nat.div_unique _ _ a b); lia. Qed.
Lemma round_div_le a b c : 0 < b -> a <= c * b -> round_div a b <= c.
Proof. intros H L. unfold round_div. apply Nat.lt_succ_r. apply Nat.div_lt_upper_bound; nia. Qed.
Lemma nearest_id n o : o < n -> nearest n n o = o.
Proof. intros H. unfold nearest. destruct (Nat.leb_spec n 1); [lia|]. apply round_div_mult. lia. Qed.
Lemma nearest_lt n m o : 0 < n -> o < m -> nearest n m o < n.
Proof. intros Hn Ho. unfold nearest. destruct (Nat.leb_spec m 1); [lia|]. assert (round_div (o * (n - 1)) (m - 1) <= n - 1); [|lia]. apply round_div_le; nia. Qed.
Lemma nearest_mono n m o o' : o <= o' -> nearest n m o <= nearest n m o'.
Proof. intros H. unfold nearest. destruct (m <=? 1); [lia|]. unfold round_div. destruct (Nat.eq_dec (2 * (m - 1)) 0) as [E|E]; [rewrite E; cbn; lia|apply Nat.div_le_mono; [exact E|nia]]. Qed.
Lemma shape_le img t0 t1 k : 0 < rows img -> 0 < cols img -> fst (zoomed_shape img (t0, t1) k) <= t0 /\ snd (zoomed_shape img (t0, t1) k) <= t1.
Proof.
  intros Hr Hc. unfold zoomed_shape. destruct k; [|cbn; lia]. destruct (Nat.leb_spec (t0 * rows img) (t1 * cols img)); cbn [fst snd]; split; try lia; apply round_div_le; nia.
Qed.
Lemma intersection_ok dim s t p : in_slices dim s p -> in_slices dim t p -> slice_intersection dim s t = Some (fun k => (Nat.max (fst (s k)) (fst (t k)), Nat.min (snd (s k)) (snd (t k)))).
Proof.
  intros Hs Ht. unfold slice_intersection. cbv zeta. replace (forallb _ (seq 0 dim)) with true; [reflexivity|]. symmetry. apply forallb_forall. intros k Hk. apply in_seq in Hk. cbn [fst snd]. apply Nat.ltb_lt. specialize (Hs k ltac:(lia)). specialize (Ht k ltac:(lia)). lia.
Qed.
Lemma callback_ok dim img keep plane s block p : fst plane < dim -> snd plane < dim -> fst plane < snd plane -> in_slices dim s p -> in_slices dim block p ->
  callback dim img keep plane s block (relative block p) = Some (resized img (extent s (fst plane), extent s (snd plane)) keep (p (fst plane) - fst (s (fst plane))) (p (snd plane) - fst (s (snd plane)))).
Proof.
  intros P0 P1 PL Hs Hb. destruct plane as [a b]. cbn [fst snd] in *. unfold callback. rewrite (intersection_ok dim block s p Hb Hs). cbn [fst snd]. cbv zeta. rewrite (Nat.min_l a b), (Nat.max_r a b) by lia. unfold relative, extent.
  pose proof (Hs a P0). pose proof (Hs b P1). pose proof (Hb a P0). pose proof (Hb b P1).
  repeat match goal with |- context [?x <=? ?y] => replace (x <=? y) with true by (symmetry; apply Nat.leb_le; lia) end.
  repeat match goal with |- context [?x <? ?y] => replace (x <? y) with true by (symmetry; apply Nat.ltb_lt; lia) end. cbn [andb].
  f_equal. f_equal; lia.
Qed.

Lemma round_div_near a b : 0 < b -> 2 * (round_div a b * b) <= 2 * a + b /\ 2 * a <= 2 * (round_div a b * b) + b.
Proof.
  intros H. unfold round_div. pose proof (Nat.div_mod (2 * a + b) (2 * b) ltac:(lia)). pose proof (Nat.mod_upper_bound (2 * a + b) (2 * b) ltac:(lia)). nia.
Qed.
Lemma nearest_spreads n m : 0 < n -> spreads (nearest n m) n m.
Proof.
  intros Hn. repeat split.
  - unfold nearest. destruct (Nat.leb_spec m 1); [reflexivity|]. rewrite Nat.mul_0_l. apply (round_div_mult 0 (m - 1)). lia.
  - intros Hm. unfold nearest. destruct (Nat.leb_spec m 1); [lia|]. rewrite Nat.mul_comm. apply round_div_mult. lia.
  - intros i Hi. now apply nearest_lt.
  - intros i j H. now apply nearest_mono.
  - unfold nearest. destruct (Nat.leb_spec m 1); [lia|]. apply round_div_near. lia.
  - unfold nearest. destruct (Nat.leb_spec m 1); [lia|]. apply round_div_near. lia.
Qed.
Lemma resized_full img t0 t1 i j : i < t0 -> j < t1 -> resized img (t0, t1) false i j = dark img (rows img - 1 - nearest (rows img) t1 j) (nearest (cols img) t0 i).
Proof.
  intros Hi Hj. unfold resized, zoomed_shape. cbn [fst snd]. rewrite !Nat.sub_diag. change (0 / 2) with 0. rewrite !Nat.add_0_r, !Nat.sub_0_r.
  replace (i <? t0) with true by (symmetry; now apply Nat.ltb_lt). replace (j <? t1) with true by (symmetry; now apply Nat.ltb_lt). reflexivity.
Qed.
Lemma resized_keep img t0 t1 i j : let s := zoomed_shape img (t0, t1) true in let m0 := (t0 - fst s) / 2 in let m1 := (t1 - snd s) / 2 in
  (m0 <= i < m0 + fst s /\ m1 <= j < m1 + snd s -> resized img (t0, t1) true i j = dark img (rows img - 1 - nearest (rows img) (snd s) (j - m1)) (nearest (cols img) (fst s) (i - m0))) /\
  (~ (m0 <= i < m0 + fst s /\ m1 <= j < m1 + snd s) -> resized img (t0, t1) true i j = false).
Proof.
  intros s m0 m1. unfold resized. cbn [fst snd]. fold s. fold m0. fold m1. cbv zeta.
  destruct (Nat.leb_spec m0 i), (Nat.ltb_spec i (fst s + m0)), (Nat.leb_spec m1 j), (Nat.ltb_spec j (snd s + m1)); cbn [andb]; split; intros Q; try lia; reflexivity.
Qed.
Lemma half_centered s t : s <= t -> centered ((t - s) / 2) s t.
Proof. intros H. split; [exact H|]. pose proof (Nat.div_mod (t - s) 2 ltac:(lia)). pose proof (Nat.mod_upper_bound (t - s) 2 ltac:(lia)). lia. Qed.
Lemma callback_outside dim img keep plane s block p a : fst plane < snd plane -> snd plane < dim -> a = fst plane \/ a = snd plane -> in_slices dim block p -> ~ (fst (s a) <= p a < snd (s a)) ->
  callback dim img keep plane s block (relative block p) = Some false.
Proof.
  intros PL P1 Ha Hb Ho. destruct plane as [u v]. cbn [fst snd] in *. unfold callback. cbn [fst snd]. destruct (slice_intersection dim block s) as [r|] eqn:E; [|reflexivity].
  unfold slice_intersection in E. destruct (forallb _ _); [|discriminate]. injection E as <-. cbv zeta. cbn [fst snd]. rewrite (Nat.min_l u v), (Nat.max_r u v) by lia. unfold extent, relative.
  pose proof (Hb u ltac:(lia)). pose proof (Hb v P1).
  rewrite !(proj2 (Nat.leb_le (Nat.min _ (snd (s u)) - _) _)) by lia. rewrite !(proj2 (Nat.leb_le (Nat.min _ (snd (s v)) - _) _)) by lia. cbn [andb].
  match goal with |- Some (if ?c then _ else _) = _ => assert (c = false) as ->; [|reflexivity] end.
  apply not_true_is_false. intros T. rewrite !andb_true_iff, !Nat.leb_le, !Nat.ltb_lt in T. apply Ho. destruct Ha as [-> | ->]; lia.
Qed.
