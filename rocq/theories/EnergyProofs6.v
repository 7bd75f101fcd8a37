(* the three-phase and the penalty functional on an interface of two phases *)
From Coq Require Import List Bool Arith Lia Reals Lra.
From Verif Require Import StencilModel RealLib LinLib EnergyModel EnergySpec EnergyProofs EnergyProofs2 EnergyProofs3.
Import ListNotations.
Local Open Scope R_scope.

Lemma combine_sum (f : R * R -> R) l l' : length l = length l' -> rsum (map f (combine l l')) = sumn (length l) (fun i => f (nth i l 0, nth i l' 0)).
Proof.
  intros H. rewrite rsum_seq, map_length, combine_length, <- H, Nat.min_id. apply sumn_ext. intros i Hi. rewrite (nth_indep _ 0 (f (0, 0))) by (rewrite map_length, combine_length; lia).
  rewrite map_nth, combine_nth by exact H. reflexivity.
Qed.
Lemma penalty_eq kappa alpha penalty c dc n : length kappa = n -> length c = n -> length dc = n ->
  energy_penalty kappa alpha penalty c dc = sumn n (fun i => double_well (nth i c 0) * nth i kappa 0 / 2) + sumn n (fun i => nth i dc 0 ^ 2 / 2 * alpha ^ 2 * nth i kappa 0) + penalty * (1 - rsum c) ^ 2.
Proof. intros Hk Hc Hd. unfold energy_penalty. rewrite !combine_sum by congruence. rewrite Hc, Hd. reflexivity. Qed.
Lemma mix_sum n a b c : (a < n)%nat -> (b < n)%nat -> a <> b -> rsum (mix n a b c) = 1.
Proof.
  intros Ha Hb Hab. rewrite rsum_seq, mix_length. rewrite (sumn_two n _ a b) by (first [lia | intros i Hi Ia Ib; unfold mix; rewrite nth_map_seq by exact Hi; destruct (Nat.eqb_spec i a); [lia|]; destruct (Nat.eqb_spec i b); [lia|reflexivity]]).
  unfold mix. rewrite !nth_map_seq by lia. rewrite !Nat.eqb_refl. destruct (Nat.eqb_spec b a); [lia|]. lra.
Qed.
Lemma nth_mix n a b c i : (i < n)%nat -> nth i (mix n a b c) 0 = mixed a b c i.
Proof. intros H. unfold mix. now rewrite nth_map_seq. Qed.
Lemma mix_gradient_length n a b g : length (mix_gradient n a b g) = n.
Proof. unfold mix_gradient. now rewrite map_length, seq_length. Qed.
Lemma double_well_sym c : double_well (1 - c) = double_well c.
Proof. unfold double_well. ring. Qed.
Lemma penalty_two kappa alpha penalty n a b c g : length kappa = n -> (a < n)%nat -> (b < n)%nat -> a <> b ->
  energy_penalty kappa alpha penalty (mix n a b c) (mix_gradient n a b g) = (nth a kappa 0 + nth b kappa 0) / 2 * (double_well c + alpha ^ 2 * g ^ 2).
Proof.
  intros Hk Ha Hb Hab. rewrite (penalty_eq _ _ _ _ _ n) by (rewrite ?mix_length, ?mix_gradient_length; auto). rewrite mix_sum by assumption.
  rewrite (sumn_ext n _ (fun i => double_well (mixed a b c i) * nth i kappa 0 / 2)) by (intros; now rewrite nth_mix).
  rewrite (sumn_ext n (fun i => nth i (mix_gradient n a b g) 0 ^ 2 / 2 * alpha ^ 2 * nth i kappa 0) (fun i => gmixed a b g i ^ 2 / 2 * alpha ^ 2 * nth i kappa 0)) by (intros; now rewrite nth_mix_gradient).
  rewrite (sumn_two n _ a b) by (first [lia | intros i Hi Ia Ib; unfold mixed; destruct (Nat.eqb_spec i a); [lia|]; destruct (Nat.eqb_spec i b); [lia|]; unfold double_well; lra]).
  rewrite (sumn_two n _ a b) by (first [lia | intros i Hi Ia Ib; unfold gmixed; destruct (Nat.eqb_spec i a); [lia|]; destruct (Nat.eqb_spec i b); [lia|]; lra]).
  unfold mixed, gmixed. rewrite !Nat.eqb_refl. destruct (Nat.eqb_spec b a); [lia|]. rewrite double_well_sym. lra.
Qed.
Lemma energy_3_penalty kappa alpha c dc : length kappa = 3%nat -> length c = 3%nat -> length dc = 3%nat -> energy_3 kappa alpha true true c dc = energy_penalty kappa alpha 0 c dc.
Proof.
  intros Hk Hc Hd. destruct kappa as [|k0 [|k1 [|k2 [|]]]]; try discriminate. destruct c as [|c0 [|c1 [|c2 [|]]]]; try discriminate. destruct dc as [|d0 [|d1 [|d2 [|]]]]; try discriminate.
  unfold energy_3, energy_penalty, double_well, rsum. cbn [combine map fst snd fold_right]. lra.
Qed.

Lemma sumn_shift n k t (f : nat -> R -> R) l : length l = n -> (k < n)%nat -> sumn n (fun i => f i (nth i (shift l k t) 0)) = sumn n (fun i => f i (nth i l 0)) + (f k (nth k l 0 + t) - f k (nth k l 0)).
Proof.
  intros L Hk. rewrite (sumn_ext n _ (fun i => f i (nth i l 0) + (if i =? k then f k (nth k l 0 + t) - f k (nth k l 0) else 0))).
  - rewrite sumn_add. f_equal. rewrite (sumn_one n _ k) by (first [lia | intros i Hi Ik; destruct (Nat.eqb_spec i k); [lia|reflexivity]]). now rewrite Nat.eqb_refl.
  - intros i Hi. rewrite nth_shift by lia. destruct (Nat.eqb_spec i k) as [->|]; [lra|]. rewrite !Rplus_0_r. reflexivity.
Qed.
Lemma dlim_shift p x : derivable_pt_lim (fun t => p + t) x 1.
Proof. apply (dlim_ext (fun t => p + t * 1)); [intros; ring|]. apply dlim_affine. Qed.
Lemma penalty_stationary kappa alpha penalty n a b k dc : 0 < alpha -> length kappa = n -> (a < n)%nat -> (b < n)%nat -> a <> b -> (k < n)%nat ->
  (forall x, derivable_pt_lim (analytic_interface_profile alpha) x (dc x)) ->
  stationary (energy_penalty kappa alpha penalty) (fun x => mix n a b (analytic_interface_profile alpha x)) (fun x => mix_gradient n a b (dc x)) k.
Proof.
  intros Hal Hkap Ha Hb Hab Hk Hdc. pose proof (profile_deriv_unique alpha Hal dc Hdc) as E. set (P := analytic_interface_profile alpha) in *.
  exists (fun x => slope (mixed a b (P x) k) * (nth k kappa 0 / 2)), (fun x => gmixed a b (dc x) k * alpha ^ 2 * nth k kappa 0). intros x. split; [|split].
  - eapply (dlim_ext (fun t => (sumn n (fun i => double_well (nth i (mix n a b (P x)) 0) * nth i kappa 0 / 2) - double_well (mixed a b (P x) k) * nth k kappa 0 / 2
        + sumn n (fun i => nth i (mix_gradient n a b (dc x)) 0 ^ 2 / 2 * alpha ^ 2 * nth i kappa 0)) + (nth k kappa 0 / 2 * double_well (mixed a b (P x) k + t) + penalty * (t * t)))).
    { intros t. rewrite (penalty_eq _ _ _ _ _ n) by (rewrite ?shift_length, ?mix_length, ?mix_gradient_length; auto).
      rewrite (sumn_shift n k t (fun i v => double_well v * nth i kappa 0 / 2)) by (rewrite ?mix_length; auto). rewrite rsum_shift by (rewrite mix_length; exact Hk). rewrite mix_sum by assumption. rewrite nth_mix by exact Hk. field. }
    eapply dlim_add; [apply dlim_const| |rewrite Rplus_0_l; reflexivity]. eapply dlim_add.
    + eapply dlim_scal; [apply (dlim_double_well_of (fun t => mixed a b (P x) k + t) 0 1), dlim_shift|reflexivity].
    + eapply dlim_scal; [|reflexivity]. eapply dlim_mul; [apply derivable_pt_lim_id|apply derivable_pt_lim_id|reflexivity].
    + unfold id. rewrite Rplus_0_r. ring.
  - eapply (dlim_ext (fun t => (sumn n (fun i => double_well (nth i (mix n a b (P x)) 0) * nth i kappa 0 / 2) + (sumn n (fun i => nth i (mix_gradient n a b (dc x)) 0 ^ 2 / 2 * alpha ^ 2 * nth i kappa 0) - gmixed a b (dc x) k ^ 2 / 2 * alpha ^ 2 * nth k kappa 0))
        + (alpha ^ 2 * nth k kappa 0 / 2 * ((gmixed a b (dc x) k + t) * (gmixed a b (dc x) k + t))))).
    { intros t. rewrite (penalty_eq _ _ _ _ _ n) by (rewrite ?shift_length, ?mix_length, ?mix_gradient_length; auto).
      rewrite (sumn_shift n k t (fun i v => v ^ 2 / 2 * alpha ^ 2 * nth i kappa 0)) by (rewrite ?mix_gradient_length; auto). rewrite mix_sum by assumption. rewrite nth_mix_gradient by exact Hk. field. }
    eapply dlim_add; [apply dlim_const| |rewrite Rplus_0_l; reflexivity]. eapply dlim_scal.
    + eapply dlim_mul; [apply dlim_shift|apply dlim_shift|reflexivity].
    + rewrite Rplus_0_r. field.
  - assert (D : derivable_pt_lim dc x (P x * (1 - P x) * (1 - 2 * P x) / alpha ^ 2)) by (eapply dlim_ext; [intros y; symmetry; apply E|apply profile_deriv2; exact Hal]).
    unfold gmixed, mixed. destruct (k =? a).
    + apply (dlim_ext (fun y => (alpha ^ 2 * nth k kappa 0) * dc y)); [intros; ring|]. eapply dlim_scal; [exact D|]. unfold slope. field. lra.
    + destruct (k =? b).
      * apply (dlim_ext (fun y => (- (alpha ^ 2 * nth k kappa 0)) * dc y)); [intros; ring|]. eapply dlim_scal; [exact D|]. unfold slope. field. lra.
      * apply (dlim_ext (fun y => 0)); [intros; ring|]. eapply dlim_val; [|apply dlim_const]. unfold slope. ring.
Qed.
