From Coq Require Import List ZArith Bool Arith Reals Lra Lia.
From Verif Require Import RealLib FieldModel FieldSpec.
Import ListNotations.
Local Open Scope R_scope.

Lemma floor_ok y : 0 <= y -> INR (Z.to_nat (up y - 1)) <= y < INR (Z.to_nat (up y - 1)) + 1.
Proof.
  intros H. destruct (archimed y) as [A B]. assert (P : (0 < up y)%Z) by (apply lt_IZR; lra). rewrite INR_IZR_INZ, Z2Nat.id by lia. rewrite minus_IZR. lra.
Qed.
Lemma locate_ok n x : (2 <= n)%nat -> 1 / 2 <= x <= INR n - 1 / 2 -> exists i t, locate n x = Some (i, t) /\ (i + 1 < n)%nat /\ 0 <= t <= 1 /\ x = INR i + 1 / 2 + t.
Proof.
  intros Hn [H1 H2]. unfold locate. destruct (Rlt_dec x (0 + 1 / 2)); [lra|]. assert (N : INR (n - 1) = INR n - 1) by (rewrite minus_INR by lia; reflexivity). destruct (Rgt_dec x (INR (n - 1) + 1 / 2)); [lra|].
  assert (Y : 0 <= x - 1 / 2) by lra. pose proof (floor_ok (x - 1 / 2) Y) as F. set (k := Z.to_nat (up (x - 1 / 2) - 1)) in *. do 2 eexists. split; [reflexivity|]. split; [lia|]. split; [|ring].
  destruct (le_lt_dec k (n - 2)) as [L|L].
  - rewrite Nat.min_l by exact L. lra.
  - rewrite Nat.min_r by lia. assert (Q : INR (n - 2) + 1 <= INR k) by (rewrite <- S_INR; apply le_INR; lia). assert (N2 : INR (n - 2) = INR n - 2) by (rewrite minus_INR by lia; reflexivity). lra.
Qed.
Lemma locate_center n i : (2 <= n)%nat -> (i < n)%nat -> (locate n (INR i + 1 / 2) = Some (i, 0) /\ (i + 1 < n)%nat) \/ (locate n (INR i + 1 / 2) = Some ((i - 1)%nat, 1) /\ (0 < i)%nat).
Proof.
  intros Hn Hi. assert (B : 1 / 2 <= INR i + 1 / 2 <= INR n - 1 / 2) by (pose proof (pos_INR i); assert (INR i + 1 <= INR n) by (rewrite <- S_INR; apply le_INR; lia); lra).
  destruct (locate_ok n _ Hn B) as (k & t & E & K & T & X). assert (KT : INR i = INR k + t) by lra.
  assert (D : i = k \/ i = Datatypes.S k).
  { assert (k <= i)%nat by (apply INR_le; lra). assert (i <= k + 1)%nat by (apply INR_le; rewrite plus_INR; cbn; lra). lia. }
  destruct D as [->| ->].
  - left. rewrite E. assert (t = 0) by lra. subst. split; [reflexivity|exact K].
  - right. rewrite E. rewrite S_INR in KT. assert (t = 1) by lra. subst. split; [|lia]. do 2 f_equal. lia.
Qed.
Lemma interp_center shape : Forall (fun n => 2 <= n)%nat shape -> forall f idx, in_shape shape idx -> interpolate shape f (center idx) = Some (f idx).
Proof.
  intros H. induction H as [|n shape Hn H IH]; intros f idx HI; inversion HI; subst; [reflexivity|]. cbn [center map interpolate]. fold (center l').
  destruct (locate_center n y Hn H2) as [[E L]|[E L]]; rewrite E.
  - rewrite !IH by assumption. f_equal. ring.
  - rewrite !IH by assumption. replace (Datatypes.S (y - 1)) with y by lia. f_equal. ring.
Qed.
Lemma interp_affine shape : Forall (fun n => 2 <= n)%nat shape -> forall a c f pos, length a = length shape -> between_centers shape pos -> (forall idx, in_shape shape idx -> f idx = affine c a (center idx)) -> interpolate shape f pos = Some (affine c a pos).
Proof.
  intros H. induction H as [|n shape Hn H IH]; intros a c f pos La HB Hf; inversion HB; subst.
  - destruct a; [|discriminate]. cbn. rewrite Hf by constructor. reflexivity.
  - destruct a as [|k a]; [discriminate|]. cbn [interpolate]. destruct (locate_ok n y Hn H2) as (i & t & E & L & T & X). rewrite E.
    assert (La' : length a = length shape) by (cbn in La; lia).
    rewrite (IH a (c + k * (INR i + 1 / 2)) (fun l => f (i :: l)) l' La' H4) by (intros idx Hi; rewrite Hf by (constructor; [lia|exact Hi]); reflexivity).
    rewrite (IH a (c + k * (INR (Datatypes.S i) + 1 / 2)) (fun l => f (Datatypes.S i :: l)) l' La' H4) by (intros idx Hi; rewrite Hf by (constructor; [lia|exact Hi]); reflexivity).
    f_equal. cbn [affine]. assert (AD : forall a pos x, affine x a pos = x + affine 0 a pos).
    { clear. induction a as [|k a IH]; intros pos x; [cbn; ring|]. destruct pos as [|p pos]; [cbn; ring|]. cbn [affine]. rewrite (IH pos (x + k * p)), (IH pos (0 + k * p)). ring. }
    rewrite (AD a l' (c + k * (INR i + 1 / 2))), (AD a l' (c + k * (INR (Datatypes.S i) + 1 / 2))), (AD a l' (c + k * y)), S_INR, X. ring.
Qed.
Lemma interp_bounds shape : Forall (fun n => 2 <= n)%nat shape -> forall f pos lo hi, between_centers shape pos -> (forall idx, in_shape shape idx -> lo <= f idx <= hi) -> exists v, interpolate shape f pos = Some v /\ lo <= v <= hi.
Proof.
  intros H. induction H as [|n shape Hn H IH]; intros f pos lo hi HB Hf; inversion HB; subst.
  - eexists. split; [reflexivity|]. apply Hf. constructor.
  - cbn [interpolate]. destruct (locate_ok n y Hn H2) as (i & t & E & L & T & X). rewrite E.
    destruct (IH (fun l => f (i :: l)) l' lo hi H4) as (a & Ea & Ba); [intros idx Hi; apply Hf; constructor; [lia|exact Hi]|]. destruct (IH (fun l => f (Datatypes.S i :: l)) l' lo hi H4) as (b & Eb & Bb); [intros idx Hi; apply Hf; constructor; [lia|exact Hi]|].
    rewrite Ea, Eb. eexists. split; [reflexivity|]. split; nra.
Qed.
Lemma interp_none shape : forall f pos, length pos = length shape -> Forall (fun n => 2 <= n)%nat shape -> ~ between_centers shape pos -> interpolate shape f pos = None.
Proof.
  induction shape as [|n shape IH]; intros f pos L H N; destruct pos as [|x pos]; try discriminate; [exfalso; apply N; constructor|]. cbn [interpolate]. inversion H; subst. assert (L' : length pos = length shape) by (cbn in L; lia).
  assert (NN : INR (n - 1) = INR n - 1) by (rewrite minus_INR by lia; reflexivity).
  destruct (locate n x) as [[i t]|] eqn:E; [|reflexivity]. rewrite (IH (fun l => f (i :: l)) pos L' H3); [reflexivity|]. intros B. apply N. constructor; [|exact B].
  unfold locate in E. destruct (Rlt_dec x (0 + 1 / 2)); [discriminate|]. destruct (Rgt_dec x (INR (n - 1) + 1 / 2)); [discriminate|]. lra.
Qed.
Lemma components_ok (g : nat -> option R) (h : nat -> R) l : (forall c, In c l -> g c = Some (h c)) -> all_components (map g l) = Some (map h l).
Proof. induction l as [|c l IH]; intros H; [reflexivity|]. cbn [map all_components]. rewrite (H c (or_introl eq_refl)), IH by (intros; apply H; right; assumption). reflexivity. Qed.

(* gradients *)
Lemma gradient_affine n f a b i : (2 <= n)%nat -> (i < n)%nat -> (forall k, (k < n)%nat -> f k = a + b * INR k) -> gradient n f i = b.
Proof.
  intros Hn Hi H. unfold gradient. destruct (Nat.eqb_spec i 0) as [->|N0]; [rewrite !H by lia; cbn; ring|]. destruct (Nat.eqb_spec i (n - 1)) as [->|N1].
  - rewrite !H by lia. rewrite !minus_INR by lia. cbn [INR]. ring.
  - rewrite !H by lia. rewrite plus_INR, minus_INR by lia. cbn [INR]. field.
Qed.
Lemma gradient_inner n f i : (0 < i)%nat -> (i + 1 < n)%nat -> gradient n f i = (f (i + 1)%nat - f (i - 1)%nat) / 2.
Proof. intros H1 H2. unfold gradient. destruct (Nat.eqb_spec i 0); [lia|]. destruct (Nat.eqb_spec i (n - 1)); [lia|]. reflexivity. Qed.
Lemma gradient_quadratic n f a b c i : (0 < i)%nat -> (i + 1 < n)%nat -> (forall k, (k < n)%nat -> f k = a + b * INR k + c * INR k ^ 2) -> gradient n f i = b + 2 * c * INR i.
Proof. intros H1 H2 H. rewrite gradient_inner by assumption. rewrite !H by lia. rewrite plus_INR, minus_INR by lia. cbn [INR]. field. Qed.
Lemma gradient_edge n f a b c : (2 <= n)%nat -> (forall k, (k < n)%nat -> f k = a + b * INR k + c * INR k ^ 2) -> gradient n f 0 = b + c /\ gradient n f (n - 1) = b + 2 * c * INR (n - 1) - c.
Proof.
  intros Hn H. unfold gradient. cbn [Nat.eqb]. destruct (Nat.eqb_spec (n - 1) 0); [lia|]. rewrite Nat.eqb_refl. rewrite !H by lia. rewrite !minus_INR by lia. cbn [INR]. split; ring.
Qed.
