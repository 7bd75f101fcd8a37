(* Values of the boundary rules: interpolated bounce back, velocity bounce back. *)
From Coq Require Import String List ZArith Bool Arith Reals Lra Lia Permutation QArith Qreals.
From Verif Require Import StencilModel StencilProofs AccessModel AccessProofs StreamModel StreamSpec StreamProofs RealLib LinLib TransSpec EqModel EqSpec
  EqProofs CollModel CollSpec MacroModel BoundModel BoundSpec BoundProofs BoundProofs2.
Import ListNotations.
Local Open Scope R_scope.

(* ---------- Bouzidi ---------- *)
Lemma bouzidi_rule L (S : stencil) inv f (x : cell L) q i : symmetric_stencil (ldim L) S -> (i < length S)%nat ->
  inverse_dirs S = Ok inv ->
  rule_value S f x (bouzidi S inv q i) =
  bouzidi_value q (nth i (f x) 0) (nth (opp S i) (f x) 0) (nth i (f (shift x (vneg (dir S i)))) 0).
Proof.
  intros HS Hi Hinv. rewrite (inverse_dirs_ok _ _ HS) in Hinv. injection Hinv as <-.
  unfold rule_value, bouzidi, here. cbn [b_fun b_reads map nth pacc_value].
  rewrite (dimD_D (ldim L) S HS), shift_zero, tget_inverse by exact Hi. reflexivity.
Qed.

Lemma bouzidi_half a b c : bouzidi_value (1 / 2) a b c = a.
Proof. unfold bouzidi_value. destruct (Rle_dec (1 / 2) (1 / 2)); [field|lra]. Qed.
Lemma bouzidi_fallback q a b c : q <= 0 -> bouzidi_value q a b c = a.
Proof. intros H. unfold bouzidi_value. destruct (Rle_dec (1 / 2) q); [lra|]. destruct (Rlt_dec 0 q); [lra|reflexivity]. Qed.

Lemma bouzidi_continuous a b c q : 0 < q -> continuity_pt (fun q => bouzidi_value q a b c) q.
Proof.
  intros Hq.
  set (g := fun q => (1 / 2 * (a + b * (2 * q - 1))) / q). set (h := fun q => 2 * q * a + (1 - 2 * q) * c).
  assert (Cg : continuity_pt g q). { unfold g. reg. lra. }
  assert (Ch : continuity_pt h q). { unfold h. reg. }
  assert (E : forall y, 0 < y -> bouzidi_value y a b c = if Rle_dec (1 / 2) y then g y else h y).
  { intros y Hy. unfold bouzidi_value, g, h. destruct (Rle_dec (1 / 2) y); [reflexivity|]. destruct (Rlt_dec 0 y); [reflexivity|lra]. }
  intros eps Heps. destruct (Cg eps Heps) as (d1 & Hd1 & H1), (Ch eps Heps) as (d2 & Hd2 & H2).
  destruct (Rtotal_order q (1 / 2)) as [Hlt|[Heq|Hgt]].
  - exists (Rmin d2 (Rmin q (1 / 2 - q))). split; [repeat apply Rmin_glb_lt; lra|].
    intros y (HD & Hy). unfold dist in *; cbn in Hy |- *; unfold R_dist in *.
    assert (A1 : Rabs (y - q) < d2) by (eapply Rlt_le_trans; [exact Hy|apply Rmin_l]).
    assert (A2 : Rabs (y - q) < q) by (eapply Rlt_le_trans; [exact Hy|eapply Rle_trans; [apply Rmin_r|apply Rmin_l]]).
    assert (A3 : Rabs (y - q) < 1 / 2 - q) by (eapply Rlt_le_trans; [exact Hy|eapply Rle_trans; [apply Rmin_r|apply Rmin_r]]).
    apply Rabs_def2 in A2, A3. rewrite !E by lra. destruct (Rle_dec (1 / 2) y); [lra|]. destruct (Rle_dec (1 / 2) q); [lra|]. apply H2. split; [exact HD|exact A1].
  - exists (Rmin (Rmin d1 d2) q). split; [repeat apply Rmin_glb_lt; lra|].
    intros y (HD & Hy). unfold dist in *; cbn in Hy |- *; unfold R_dist in *.
    assert (A1 : Rabs (y - q) < d1) by (eapply Rlt_le_trans; [exact Hy|eapply Rle_trans; [apply Rmin_l|apply Rmin_l]]).
    assert (A2 : Rabs (y - q) < d2) by (eapply Rlt_le_trans; [exact Hy|eapply Rle_trans; [apply Rmin_l|apply Rmin_r]]).
    assert (A3 : Rabs (y - q) < q) by (eapply Rlt_le_trans; [exact Hy|apply Rmin_r]). apply Rabs_def2 in A3.
    assert (G : bouzidi_value q a b c = g q) by (rewrite E by lra; destruct (Rle_dec (1 / 2) q); [reflexivity|lra]).
    assert (GH : g q = h q) by (unfold g, h; subst q; field).
    rewrite G, E by lra. destruct (Rle_dec (1 / 2) y); [apply H1; auto|rewrite GH; apply H2; auto].
  - exists (Rmin d1 (q - 1 / 2)). split; [repeat apply Rmin_glb_lt; lra|].
    intros y (HD & Hy). unfold dist in *; cbn in Hy |- *; unfold R_dist in *.
    assert (A1 : Rabs (y - q) < d1) by (eapply Rlt_le_trans; [exact Hy|apply Rmin_l]).
    assert (A3 : Rabs (y - q) < q - 1 / 2) by (eapply Rlt_le_trans; [exact Hy|apply Rmin_r]).
    apply Rabs_def2 in A3. rewrite !E by lra. destruct (Rle_dec (1 / 2) y); [|lra]. destruct (Rle_dec (1 / 2) q); [|lra]. apply H1. split; [exact HD|exact A1].
Qed.

Lemma bouzidi_weights q : 0 < q <= 1 -> exists wa wb wc, 0 <= wa /\ 0 <= wb /\ 0 <= wc /\ wa + wb + wc = 1 /\
  forall a b c, bouzidi_value q a b c = wa * a + wb * b + wc * c.
Proof.
  intros [H0 H1]. destruct (Rle_dec (1 / 2) q) as [H|H].
  - assert (0 < / q) by (apply Rinv_0_lt_compat; lra).
    exists (/ q * / 2), (/ q * ((2 * q - 1) / 2)), 0.
    split; [apply Rmult_le_pos; lra|]. split; [apply Rmult_le_pos; lra|]. split; [lra|]. split; [field; lra|].
    intros a b c. unfold bouzidi_value. destruct (Rle_dec (1 / 2) q); [field; lra|lra].
  - exists (2 * q), 0, (1 - 2 * q). repeat split; try lra.
    intros a b c. unfold bouzidi_value. destruct (Rle_dec (1 / 2) q); [lra|]. destruct (Rlt_dec 0 q); lra.
Qed.

(* ---------- quadratic ---------- *)
Lemma quadratic_pre q omega f finv feq : omega <> 1 -> 1 + q <> 0 ->
  forall p pinv, f - finv = p - pinv -> f + finv = (1 - omega) * (p + pinv) + omega * feq ->
  quadratic_value q omega f finv feq = ((1 - q) * p + q * f + q * finv) / (1 + q).
Proof.
  intros H1 H2 p pinv Ho Hs. unfold quadratic_value.
  assert (E : (f + finv - feq * omega) / (1 - omega) = p + pinv).
  { rewrite Hs. field. lra. }
  rewrite E, Ho. field. exact H2.
Qed.

(* ---------- velocity bounce back ---------- *)
Lemma e_times_u_zero v n : e_times_u v (repeat 0 n) = 0.
Proof.
  unfold e_times_u. revert n. induction v as [|c v IH]; intros [|n]; try reflexivity.
  cbn [repeat combine map]. rewrite rsum_cons, IH. cbn. lra.
Qed.
Lemma e_times_u_vneg v u : e_times_u (vneg v) u = - e_times_u v u.
Proof.
  unfold e_times_u, vneg. revert u. induction v as [|c v IH]; intros [|x u]; cbn [map combine]; try (cbn; lra).
  rewrite !rsum_cons, IH. cbn [fst snd]. rewrite opp_IZR. lra.
Qed.
Lemma e_times_u_opp v u : e_times_u v (map Ropp u) = - e_times_u v u.
Proof.
  unfold e_times_u. revert u. induction v as [|c v IH]; intros [|x u]; cbn [map combine]; try (cbn; lra).
  rewrite !rsum_cons, IH. cbn [fst snd]. lra.
Qed.
Lemma u_times_u_opp u : u_times_u (map Ropp u) = u_times_u u.
Proof. unfold u_times_u. rewrite map_map. apply rsum_ext. intros. lra. Qed.

Lemma rule_all_out L (S : stencil) f (x : cell L) g : symmetric_stencil (ldim L) S -> length (f x) = length S ->
  rule_value S f x {| b_reads := all_out S; b_fun := g |} = g (f x).
Proof.
  intros HS Hl. unfold rule_value, all_out, here, sizeQ. cbn [b_reads b_fun]. f_equal. rewrite map_map.
  transitivity (map (fun j => nth j (f x) 0) (seq 0 (length S))).
  - apply map_ext. intros j. cbn [pacc_value]. now rewrite (dimD_D (ldim L) S HS), shift_zero.
  - apply map_nth_seq. exact Hl.
Qed.
