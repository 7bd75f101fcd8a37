(* Kernels with built-in boundaries: geometry of the faces, and the effect of one cell. *)
From Coq Require Import String List ZArith Bool Arith Lia Permutation.
From Verif Require Import StencilModel StencilProofs AccessModel StreamModel StreamSpec AccessProofs StreamProofs
  GridModel GridProofs BoundSpec InbModel InbSpec.
Import ListNotations.
Local Open Scope Z_scope.

(* ---------- axis vectors ---------- *)
Lemma axis_length D k s : length (axis_vec D k s) = D.
Proof. unfold axis_vec. now rewrite map_length, seq_length. Qed.

Lemma axis_nth D k s j : (j < D)%nat -> nth j (axis_vec D k s) 0 = if Nat.eqb j k then s else 0.
Proof.
  intros Hj. unfold axis_vec.
  rewrite (nth_indep _ 0 ((fun b => if Nat.eqb b k then s else 0) 0%nat)) by (rewrite map_length, seq_length; exact Hj).
  rewrite (map_nth (fun b => if Nat.eqb b k then s else 0)), seq_nth by exact Hj. reflexivity.
Qed.

Lemma axis_inj D k s k' s' : (k < D)%nat -> s <> 0 -> axis_vec D k s = axis_vec D k' s' -> k = k' /\ s = s'.
Proof.
  intros Hk Hs E. apply (f_equal (fun v => nth k v 0)) in E. rewrite !axis_nth in E by exact Hk.
  rewrite Nat.eqb_refl in E. destruct (Nat.eqb_spec k k') as [->|]; [tauto|lia].
Qed.

Lemma axis_sum s k : forall D a, fold_right Z.add 0 (map Z.abs (map (fun b => if Nat.eqb b k then s else 0) (seq a D)))
  = if ((a <=? k) && (k <? a + D))%nat then Z.abs s else 0.
Proof.
  induction D as [|D IH]; intros a; cbn [seq map fold_right].
  - destruct (Nat.leb_spec a k), (Nat.ltb_spec k (a + 0)); simpl; try reflexivity; lia.
  - rewrite IH. destruct (Nat.eqb_spec a k).
    + destruct (Nat.leb_spec (S a) k), (Nat.leb_spec a k), (Nat.ltb_spec k (S a + D)), (Nat.ltb_spec k (a + S D)); simpl; lia.
    + destruct (Nat.leb_spec (S a) k), (Nat.leb_spec a k), (Nat.ltb_spec k (S a + D)), (Nat.ltb_spec k (a + S D)); simpl; lia.
Qed.

Lemma axis_index s k : Z.abs s = 1 -> forall D a, (a <= k < a + D)%nat ->
  index_of [1] (map (fun e => [Z.abs e]) (map (fun b => if Nat.eqb b k then s else 0) (seq a D))) = Some (k - a)%nat.
Proof.
  intros Hs. induction D as [|D IH]; intros a Ha; [lia|]. cbn [seq map index_of]. unfold vec_eqb.
  destruct (Nat.eqb_spec a k) as [->|Hne].
  - rewrite Hs. destruct (vec_eq_dec [1] [1]); [|congruence]. f_equal. lia.
  - destruct (vec_eq_dec [1] [Z.abs 0]) as [E|E]; [discriminate E|].
    rewrite IH by lia. cbn [option_map]. f_equal. lia.
Qed.

Lemma face_axis_axis D k s : (k < D)%nat -> s = 1 \/ s = -1 -> face_axis (axis_vec D k s) = Ok k.
Proof.
  intros Hk Hs. unfold face_axis, axis_vec. rewrite axis_sum.
  destruct (Nat.leb_spec 0 k), (Nat.ltb_spec k (0 + D)); try lia. cbn [andb].
  assert (Z.abs s = 1) as Es by (destruct Hs; subst; reflexivity). rewrite Es. cbn [Z.eqb Pos.eqb].
  rewrite axis_index by (try exact Es; lia). rewrite Nat.sub_0_r. reflexivity.
Qed.

Lemma face_axis_bad n : fold_right Z.add 0 (map Z.abs n) <> 1 -> face_axis n = Err AssertionError.
Proof. intros H. unfold face_axis. destruct (Z.eqb_spec (fold_right Z.add 0 (map Z.abs n)) 1); [contradiction|reflexivity]. Qed.

(* ---------- directions leaving through a face ---------- *)
Lemma in_direction_axis D k s d : (k < D)%nat -> s = 1 \/ s = -1 -> length d = D ->
  in_direction (axis_vec D k s) d = true <-> nth k d 0 = s.
Proof.
  intros Hk Hs Hd. unfold in_direction. rewrite existsb_exists.
  assert (HL : length (combine (axis_vec D k s) d) = D) by (rewrite combine_length, axis_length; lia).
  split.
  - intros ((a & o) & Hin & E). apply (In_nth _ _ (0, 0)) in Hin as (j & Hj & E1).
    rewrite HL in Hj. rewrite combine_nth in E1 by (rewrite axis_length; lia).
    rewrite axis_nth in E1 by exact Hj. injection E1 as Ea Eo. unfold same_component in E. cbn [fst snd] in E.
    destruct (Nat.eqb_spec j k) as [->|]; [|subst a; cbn in E; discriminate].
    subst a o. destruct Hs as [-> | ->]; cbn in E; [|]; rewrite ?orb_false_r in E; apply Z.eqb_eq in E; exact E.
  - intros E. exists (s, nth k d 0). split.
    + replace (s, nth k d 0) with (nth k (combine (axis_vec D k s) d) (0, 0)).
      * apply nth_In. lia.
      * rewrite combine_nth by (rewrite axis_length; lia). rewrite axis_nth, Nat.eqb_refl by exact Hk. reflexivity.
    + unfold same_component. cbn [fst snd]. rewrite E. destruct Hs as [-> | ->]; reflexivity.
Qed.

Lemma direction_indices_In D S n i : symmetric_stencil D S ->
  In i (direction_indices_in_direction n S) <-> (i < length S)%nat /\ in_direction n (dir S i) = true.
Proof.
  intros HS. unfold direction_indices_in_direction. rewrite in_map_iff. split.
  - intros ((j & d) & E & Hin). cbn [fst] in E. subst j. apply filter_In in Hin as [Hin Hd]. cbn [snd] in Hd.
    rewrite (enum_seq S) in Hin. apply in_map_iff in Hin as (j & [= -> <-] & Hj). apply in_seq in Hj. split; [lia|exact Hd].
  - intros (Hi & Hd). exists (i, dir S i). split; [reflexivity|]. apply filter_In. split; [|exact Hd].
    rewrite (enum_seq S). apply in_map_iff. exists i. split; [reflexivity|]. apply in_seq. lia.
Qed.

(* ---------- inner cells ---------- *)
Lemma inner_spec N (x : cell (torus N)) : inner N x = true <->
  forall k, (k < length N)%nat -> 1 <= nth k (proj1_sig x) 0 < nth k (map Zpos N) 0 - 1.
Proof.
  unfold inner. rewrite forallb_forall. split.
  - intros H k Hk. specialize (H k). rewrite in_seq in H. specialize (H ltac:(lia)). lia.
  - intros H k Hk. apply in_seq in Hk. specialize (H k ltac:(lia)). lia.
Qed.

Lemma inner_false N (x : cell (torus N)) : inner N x = false <->
  exists k, (k < length N)%nat /\ ~ (1 <= nth k (proj1_sig x) 0 < nth k (map Zpos N) 0 - 1).
Proof.
  split.
  - intros H.
    destruct (forallb (fun k => (1 <=? nth k (proj1_sig x) 0) && (nth k (proj1_sig x) 0 <? nth k (map Zpos N) 0 - 1)) (seq 0 (length N))) eqn:E.
    + unfold inner in H. congruence.
    + clear H. assert (G : forall l, forallb (fun k => (1 <=? nth k (proj1_sig x) 0) && (nth k (proj1_sig x) 0 <? nth k (map Zpos N) 0 - 1)) l = false ->
        exists k, In k l /\ ~ (1 <= nth k (proj1_sig x) 0 < nth k (map Zpos N) 0 - 1)).
      { induction l as [|a l IH]; [discriminate|]. simpl. intros H. apply andb_false_iff in H as [H|H].
        - exists a. split; [left; reflexivity|]. lia.
        - destruct (IH H) as (k & Hk & Hn). exists k. split; [right; exact Hk|exact Hn]. }
      destruct (G _ E) as (k & Hk & Hn). apply in_seq in Hk. exists k. split; [lia|exact Hn].
  - intros (k & Hk & Hn). destruct (inner N x) eqn:E; [|reflexivity].
    exfalso. apply Hn. apply (proj1 (inner_spec N x) E k Hk).
Qed.

Lemma gshift_nth N x v k : (k < length N)%nat ->
  nth k (gshift_raw (torus_shape N) x v) 0 = (nth k x 0 + nth k v 0) mod nth k (map Zpos N) 0.
Proof.
  revert x v k; induction N as [|n N IH]; intros x v k Hk; simpl in Hk; [lia|].
  cbn [torus_shape map gshift_raw]. destruct k as [|k].
  - cbn [nth]. unfold wrap. destruct x, v; reflexivity.
  - cbn [nth]. fold (torus_shape N). rewrite IH by lia. destruct x, v; cbn [tl nth]; try destruct k; reflexivity.
Qed.

Lemma ldim_torus N : ldim (torus N) = length N.
Proof. unfold torus, grid; cbn [ldim]. unfold torus_shape. apply map_length. Qed.

Section Faces.
  Context (N : list positive) (S : stencil).
  Hypothesis HS : symmetric_stencil (length N) S.
  Hypothesis HN : nearest_neighbours S.

  Lemma dir_bounds i k : (i < length S)%nat -> -1 <= nth k (dir S i) 0 <= 1.
  Proof.
    intros Hi. destruct (Nat.lt_ge_cases k (length (dir S i))) as [Hk|Hk].
    - apply (HN (dir S i)); [apply dir_In; exact Hi|]. apply nth_In. exact Hk.
    - rewrite nth_overflow by exact Hk. lia.
  Qed.

  Lemma border_axis (x : cell (torus N)) k s : inner N x = true -> (k < length N)%nat -> s = 1 \/ s = -1 ->
    exists c, border_conditions (axis_vec (length N) k s) (map Zpos N) 1 (proj1_sig x) = Ok c /\
      (c = true <-> nth k (proj1_sig x) 0 = if s <? 0 then 1 else nth k (map Zpos N) 0 - 2).
  Proof.
    intros Hx Hk Hs. unfold border_conditions. rewrite face_axis_axis by assumption. cbn [rbind].
    eexists; split; [reflexivity|]. cbn [Z.eqb].
    pose proof (proj1 (inner_spec N x) Hx) as HI.
    rewrite !axis_nth, Nat.eqb_refl by exact Hk. rewrite !andb_true_iff, !forallb_forall, Z.eqb_eq. split.
    - intros ((E & _) & _). rewrite E. destruct (s <? 0); lia.
    - intros E. split; [split|].
      + rewrite E. destruct (s <? 0); lia.
      + intros j Hj. apply filter_In in Hj as [Hj _]. apply in_seq in Hj. rewrite axis_length in Hj.
        specialize (HI j ltac:(lia)). lia.
      + intros j Hj. apply filter_In in Hj as [Hj _]. apply in_seq in Hj. rewrite axis_length in Hj.
        specialize (HI j ltac:(lia)). lia.
  Qed.

  Lemma leaves_axis (x : cell (torus N)) i k s : inner N x = true -> (i < length S)%nat -> (k < length N)%nat -> s = 1 \/ s = -1 ->
    leaves_through N (proj1_sig x) (dir S i) (axis_vec (length N) k s) <->
    (nth k (proj1_sig x) 0 = if s <? 0 then 1 else nth k (map Zpos N) 0 - 2) /\ nth k (dir S i) 0 = s.
  Proof.
    intros Hx Hi Hk Hs. pose proof (proj1 (inner_spec N x) Hx) as HI. pose proof (fun j => dir_bounds i j Hi) as HD.
    split.
    - intros (j & Hj & [(E & H)|(E & H)]); apply axis_inj in E as [<- ->]; try assumption; try (destruct Hs; lia);
        specialize (HI k Hk); specialize (HD k); simpl; lia.
    - intros (E & Ed). exists k. split; [exact Hk|].
      destruct Hs as [-> | ->]; [left|right]; (split; [reflexivity|]); simpl in E; lia.
  Qed.

  Lemma link_leaves (x : cell (torus N)) i : inner N x = true -> (i < length S)%nat ->
    is_link S (inner N) (x, i) <-> exists k s, (k < length N)%nat /\ (s = 1 \/ s = -1) /\
      leaves_through N (proj1_sig x) (dir S i) (axis_vec (length N) k s).
  Proof.
    intros Hx Hi. pose proof (proj1 (inner_spec N x) Hx) as HI. pose proof (fun j => dir_bounds i j Hi) as HD.
    unfold is_link. cbn [fst snd].
    assert (HM : forall k, (k < length N)%nat ->
      nth k (proj1_sig (shift (l := torus N) x (dir S i))) 0 = nth k (proj1_sig x) 0 + nth k (dir S i) 0).
    { intros k Hk. cbn [shift torus grid gshift proj1_sig]. rewrite gshift_nth by exact Hk.
      specialize (HI k Hk). specialize (HD k). apply Z.mod_small. lia. }
    split.
    - intros (_ & _ & H). apply inner_false in H as (k & Hk & Hn). rewrite HM in Hn by exact Hk.
      specialize (HI k Hk). pose proof (HD k) as HDk.
      destruct (Z_lt_ge_dec (nth k (proj1_sig x) 0 + nth k (dir S i) 0) 1) as [Hl|Hl].
      + exists k, (-1). split; [exact Hk|]. split; [right; reflexivity|]. exists k. split; [exact Hk|]. right. split; [reflexivity|lia].
      + exists k, 1. split; [exact Hk|]. split; [left; reflexivity|]. exists k. split; [exact Hk|]. left. split; [reflexivity|lia].
    - intros (k & s & Hk & Hs & HL). split; [exact Hx|]. split; [exact Hi|]. apply inner_false. exists k. split; [exact Hk|].
      rewrite HM by exact Hk. apply leaves_axis in HL as [E Ed]; try assumption.
      destruct Hs as [-> | ->]; simpl in E; lia.
  Qed.

  Lemma leaves_dec (x : cell (torus N)) i n : inner N x = true -> (i < length S)%nat ->
    (exists k s, (k < length N)%nat /\ (s = 1 \/ s = -1) /\ n = axis_vec (length N) k s) ->
    {leaves_through N (proj1_sig x) (dir S i) n} + {~ leaves_through N (proj1_sig x) (dir S i) n}.
  Proof.
    intros Hx Hi Hn.
    destruct (border_conditions n (map Zpos N) 1 (proj1_sig x)) as [c|e] eqn:Eb.
    - destruct (c && in_direction n (dir S i))%bool eqn:E.
      + left. destruct Hn as (k & s & Hk & Hs & ->). apply leaves_axis; try assumption.
        apply andb_prop in E as [Ec Ei]. destruct (border_axis x k s Hx Hk Hs) as (c' & E' & Hc). rewrite Eb in E'. injection E' as <-.
        split; [apply Hc; exact Ec|]. apply (in_direction_axis (length N) k s); try assumption. apply (dir_length _ S HS); exact Hi.
      + right. intros HL. destruct Hn as (k & s & Hk & Hs & ->). apply leaves_axis in HL as [E1 E2]; try assumption.
        destruct (border_axis x k s Hx Hk Hs) as (c' & E' & Hc). rewrite Eb in E'. injection E' as <-.
        apply Hc in E1. subst c. apply (in_direction_axis (length N) k s (dir S i) Hk Hs) in E2; [|apply (dir_length _ S HS); exact Hi].
        rewrite E2 in E. discriminate.
    - exfalso. destruct Hn as (k & s & Hk & Hs & ->). destruct (border_axis x k s Hx Hk Hs) as (c' & E' & _). congruence.
  Qed.
End Faces.
