From Coq Require Import List ZArith QArith Qreals Bool Arith Reals Lra Lia Permutation.
From Verif Require Import StencilModel AccessModel StreamModel StreamSpec RealLib LinLib TransSpec EqSpec CollSpec BoundSpec StabSpec.
Import ListNotations.
Local Open Scope R_scope.

Section Dissipation.
  Context (n : nat) (M Minv : mat) (w r : list R).
  Hypothesis HM : is_inverse n M Minv.
  Hypothesis Hw : length w = n.
  Hypothesis Wpos : forall i, (i < n)%nat -> 0 < nth i w 0.
  Notation I := (seq 0 n).
  Definition me (k i : nat) : R := nth i (nth k M []) 0.
  Definition gram (k l : nat) : R := rsum (map (fun i => nth i w 0 * me k i * me l i) I).
  Hypothesis Horth : forall k l, (k < n)%nat -> (l < n)%nat -> nth k r 0 <> nth l r 0 -> gram k l = 0.

  Lemma row_length k : (k < n)%nat -> length (nth k M []) = n.
  Proof. intros Hk. destruct HM as ((HM1 & HM2) & _). apply (proj1 (Forall_forall _ _) HM2). apply nth_In. lia. Qed.
  Lemma moment_seq x k : length x = n -> (k < n)%nat -> nth k (mv M x) 0 = rsum (map (fun i => me k i * nth i x 0) I).
  Proof. intros Hx Hk. rewrite nth_mv, dot_seq by (rewrite row_length, Hx; auto). rewrite Hx. reflexivity. Qed.

  Lemma moments_injective x y : length x = n -> length y = n -> (forall k, (k < n)%nat -> nth k (mv M x) 0 = nth k (mv M y) 0) -> x = y.
  Proof.
    intros Hx Hy H. destruct HM as (_ & _ & _ & H2). rewrite <- (H2 x Hx), <- (H2 y Hy). f_equal. apply list_ext; [now rewrite !mv_length|]. rewrite mv_length. destruct HM as ((HM1 & _) & _). rewrite HM1. exact H.
  Qed.
  (* every vector is w times a combination of the modes *)
  Definition coef (y : list R) (k : nat) : R := rsum (map (fun i => nth i y 0 * nth k (nth i Minv []) 0) I).
  Definition combo (a : nat -> R) : list R := map (fun i => nth i w 0 * rsum (map (fun k => a k * me k i) I)) I.
  Lemma combo_length a : length (combo a) = n.
  Proof. unfold combo. now rewrite map_length, seq_length. Qed.
  Lemma nth_combo a i : (i < n)%nat -> nth i (combo a) 0 = nth i w 0 * rsum (map (fun k => a k * me k i) I).
  Proof. intros Hi. unfold combo. now rewrite nth_map_seq. Qed.
  Lemma inner_coef y x : length x = n -> rsum (map (fun i => nth i y 0 * nth i x 0) I) = rsum (map (fun k => coef y k * nth k (mv M x) 0) I).
  Proof.
    intros Hx. destruct HM as ((HM1 & HM2) & (HN1 & HN2) & _ & H2).
    rewrite (rsum_ext _ (fun i => rsum (map (fun k => nth i y 0 * nth k (nth i Minv []) 0 * nth k (mv M x) 0) I))).
    - rewrite (rsum_swap (fun i k => nth i y 0 * nth k (nth i Minv []) 0 * nth k (mv M x) 0)). apply rsum_ext. intros k _. unfold coef. now rewrite rsum_scal_r.
    - intros i Hi. apply in_seq in Hi. rewrite <- (H2 x Hx) at 1. rewrite nth_mv, dot_seq.
      + rewrite mv_length, HM1. rewrite <- rsum_scal. apply rsum_ext. intros; ring.
      + rewrite mv_length, HM1. apply (proj1 (Forall_forall _ _) HN2). apply nth_In. lia.
  Qed.
  Lemma every_combo g : length g = n -> exists a, g = combo a.
  Proof.
    intros Hg. set (y := map (fun i => nth i g 0 / nth i w 0) I). exists (coef y). apply list_ext; [now rewrite combo_length|]. rewrite Hg. intros i Hi. rewrite nth_combo by exact Hi.
    pose proof (inner_coef y (unitv n i) (unitv_length n i)) as E.
    assert (E1 : rsum (map (fun j => nth j y 0 * nth j (unitv n i) 0) I) = nth i y 0).
    { rewrite <- (dot_unitv y n i) by (unfold y; rewrite ?map_length, ?seq_length; auto). rewrite dot_seq by (unfold y; rewrite unitv_length, map_length, seq_length; reflexivity). now rewrite unitv_length. }
    rewrite E1 in E. rewrite (rsum_ext _ (fun k => coef y k * me k i)) in E.
    - rewrite <- E. unfold y. rewrite nth_map_seq by exact Hi. pose proof (Wpos i Hi). field. lra.
    - intros k Hk. apply in_seq in Hk. f_equal. rewrite nth_mv, (dot_unitv _ n i) by (rewrite ?row_length; lia). reflexivity.
  Qed.
  Lemma combo_moment a k : (k < n)%nat -> nth k (mv M (combo a)) 0 = rsum (map (fun l => gram k l * a l) I).
  Proof.
    intros Hk. rewrite moment_seq by (rewrite ?combo_length; auto). rewrite (rsum_ext _ (fun i => rsum (map (fun l => nth i w 0 * me k i * me l i * a l) I))).
    - rewrite (rsum_swap (fun i l => nth i w 0 * me k i * me l i * a l)). apply rsum_ext. intros l _. unfold gram. now rewrite rsum_scal_r.
    - intros i Hi. apply in_seq in Hi. rewrite nth_combo by lia. rewrite <- Rmult_assoc, <- rsum_scal. apply rsum_ext. intros; ring.
  Qed.
  Lemma combo_energy a : energy w (combo a) = rsum (map (fun k => rsum (map (fun l => gram k l * (a k * a l)) I)) I).
  Proof.
    unfold energy. rewrite Hw. rewrite (rsum_ext _ (fun i => rsum (map (fun k => rsum (map (fun l => nth i w 0 * me k i * me l i * (a k * a l)) I)) I))).
    - rewrite (rsum_swap (fun i k => rsum (map (fun l => nth i w 0 * me k i * me l i * (a k * a l)) I))). apply rsum_ext. intros k _.
      rewrite (rsum_swap (fun i l => nth i w 0 * me k i * me l i * (a k * a l))). apply rsum_ext. intros l _. unfold gram. now rewrite rsum_scal_r.
    - intros i Hi. apply in_seq in Hi. pose proof (Wpos i ltac:(lia)). rewrite nth_combo by lia. set (s := rsum (map (fun k => a k * me k i) I)).
      replace (nth i w 0 * s * (nth i w 0 * s) / nth i w 0) with (nth i w 0 * s * s) by (field; lra). unfold s at 1. rewrite <- rsum_scal, <- rsum_scal_r. apply rsum_ext. intros k _.
      unfold s. rewrite <- rsum_scal. apply rsum_ext. intros; ring.
  Qed.
  Lemma energy_nonneg x : 0 <= energy w x.
  Proof.
    unfold energy. apply rsum_nonneg. intros i Hi. apply in_seq in Hi. rewrite Hw in Hi. pose proof (Wpos i ltac:(lia)). unfold Rdiv. apply Rmult_le_pos; [nra|]. apply Rlt_le, Rinv_0_lt_compat. assumption.
  Qed.
  Lemma relaxed_combo g g' a : length g' = n -> g = combo a -> (forall k, (k < n)%nat -> nth k (mv M g') 0 = (1 - nth k r 0) * nth k (mv M g) 0) -> g' = combo (fun k => (1 - nth k r 0) * a k).
  Proof.
    intros Hg' -> H. apply moments_injective; [exact Hg'|apply combo_length|]. intros k Hk. rewrite H, !combo_moment by exact Hk. rewrite <- rsum_scal. apply rsum_ext. intros l Hl. apply in_seq in Hl.
    destruct (Req_dec (nth k r 0) (nth l r 0)) as [E|E]; [rewrite E; ring|]. rewrite (Horth k l Hk ltac:(lia) E). ring.
  Qed.
  Lemma relax_energy g g' c : length g = n -> length g' = n -> (forall k, (k < n)%nat -> nth k (mv M g') 0 = (1 - nth k r 0) * nth k (mv M g) 0) ->
    (forall k, (k < n)%nat -> c <= nth k r 0 * (2 - nth k r 0)) -> energy w g' + c * energy w g <= energy w g.
  Proof.
    intros Hg Hg' H Hc. destruct (every_combo g Hg) as (a & Ea). rewrite (relaxed_combo g g' a Hg' Ea H), Ea.
    set (s := fun k => sqrt (nth k r 0 * (2 - nth k r 0) - c)).
    assert (E : energy w (combo (fun k => (1 - nth k r 0) * a k)) + c * energy w (combo a) + energy w (combo (fun k => s k * a k)) = energy w (combo a)).
    { rewrite !combo_energy. rewrite <- rsum_scal, <- !rsum_plus. apply rsum_ext. intros k Hk. apply in_seq in Hk. rewrite <- rsum_scal, <- !rsum_plus. apply rsum_ext. intros l Hl. apply in_seq in Hl.
      destruct (Req_dec (nth k r 0) (nth l r 0)) as [Er|Er]; [|rewrite (Horth k l ltac:(lia) ltac:(lia) Er); ring].
      assert (Es : s k * s l = nth k r 0 * (2 - nth k r 0) - c). { unfold s. rewrite <- Er. apply sqrt_sqrt. pose proof (Hc k ltac:(lia)). lra. }
      replace (gram k l * (s k * a k * (s l * a l))) with (gram k l * (a k * a l) * (s k * s l)) by ring. rewrite Es, <- Er. ring. }
    pose proof (energy_nonneg (combo (fun k => s k * a k))). lra.
  Qed.
End Dissipation.
