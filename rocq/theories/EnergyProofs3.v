From Coq Require Import List Bool Arith Lia Reals Lra Psatz.
From Verif Require Import StencilModel RealLib LinLib EnergyModel EnergySpec EnergyProofs EnergyProofs2.
Import ListNotations.
Local Open Scope R_scope.

Lemma shift_length l k t : length (shift l k t) = length l.
Proof. unfold shift. now rewrite map_length, seq_length. Qed.
Lemma nth_shift l k t i : (i < length l)%nat -> nth i (shift l k t) 0 = nth i l 0 + (if i =? k then t else 0).
Proof. intros H. unfold shift. rewrite nth_map_seq by exact H. destruct (i =? k); lra. Qed.
Lemma rsum_shift l k t : (k < length l)%nat -> rsum (shift l k t) = rsum l + t.
Proof.
  intros H. rewrite !rsum_seq, shift_length. rewrite (sumn_ext _ _ (fun i => nth i l 0 + (if i =? k then t else 0))) by (intros i Hi; now rewrite nth_shift).
  rewrite sumn_add. f_equal. rewrite (sumn_one _ _ k) by (first [lia | intros i Hi Hk; destruct (Nat.eqb_spec i k); [lia|reflexivity]]). now rewrite Nat.eqb_refl.
Qed.
(* moving the k-th order parameter moves the dependent phase the other way *)
Definition delta (n k i : nat) : R := (if i =? k then 1 else 0) - (if i =? n then 1 else 0).
Lemma all_shift l k t i : (k < length l)%nat -> (i <= length l)%nat -> nth i (all_phases (shift l k t)) 0 = nth i (all_phases l) 0 + t * delta (length l) k i.
Proof.
  intros Hk Hi. unfold all_phases, delta. destruct (Nat.eqb_spec i (length l)) as [->|Ne].
  - rewrite !app_nth2 by (rewrite ?shift_length; lia). rewrite shift_length, Nat.sub_diag, rsum_shift by exact Hk. cbn [nth]. destruct (Nat.eqb_spec (length l) k); [lia|]. lra.
  - rewrite !app_nth1 by (rewrite ?shift_length; lia). rewrite nth_shift by lia. destruct (i =? k); lra.
Qed.
Lemma delta_sum n k h : (k < n)%nat -> sumn (S n) (fun i => delta n k i * h i) = h k - h n.
Proof.
  intros H. rewrite (sumn_two _ _ k n) by (first [lia | intros i Hi Hk Hn; unfold delta; destruct (Nat.eqb_spec i k); [lia|]; destruct (Nat.eqb_spec i n); [lia|]; lra]).
  unfold delta. rewrite !Nat.eqb_refl. destruct (Nat.eqb_spec k n); [lia|]. destruct (Nat.eqb_spec n k); [lia|]. lra.
Qed.

Section Stationary.
  Context (tau : nat -> nat -> R) (eta : R) (He : 0 < eta).
  Context (HS : forall i j, tau i j = tau j i).
  Lemma eta_ne : eta <> 0. Proof. lra. Qed.
  (* derivative of the bulk part *)
  Lemma bulk_derivative phi k : let n := length phi in let P := fun i => nth i (all_phases phi) 0 in (k < n)%nat ->
    let G := fun i => sumn (S n) (fun j => if i =? j then 0 else tau i j * (slope (P i) - slope (P i + P j))) in
    derivable_pt_lim (fun t => f_bulk tau eta double_well double_well 0 (all_phases (shift phi k t))) 0 (3 / (2 * eta) * (G k - G n)).
  Proof.
    intros n P Hk G.
    set (F := fun i j t => if i =? j then 0 else tau i j / 2 * (double_well (P i + t * delta n k i) + double_well (P j + t * delta n k j) - double_well (P i + P j + t * (delta n k i + delta n k j)))).
    apply (dlim_ext (fun t => 3 / (2 * eta) * sumn (S n) (fun i => sumn (S n) (fun j => F i j t)))).
    { intros t. rewrite f_bulk_eq by apply eta_ne. rewrite all_length, shift_length. fold n.
      rewrite (sumn_zero (S n) (fun i => sumn i (fun j => sumn j (fun k0 => 0 * _ * _ * _)))) by (intros; apply sumn_zero; intros; apply sumn_zero; intros; ring).
      rewrite Rplus_0_r. f_equal. apply sumn_ext. intros i Hi. apply sumn_ext. intros j Hj. unfold F. destruct (i =? j); [reflexivity|].
      rewrite !(all_shift phi k t) by (fold n; lia). fold n. unfold P. f_equal. f_equal. f_equal. ring. }
    eapply dlim_scal.
    { apply (dlim_sumn (S n) (fun i t => sumn (S n) (fun j => F i j t)) (fun i => sumn (S n) (fun j => if i =? j then 0 else
        tau i j / 2 * (slope (P i) * delta n k i + slope (P j) * delta n k j - slope (P i + P j) * (delta n k i + delta n k j))))). intros i Hi.
      apply (dlim_sumn (S n) (fun j t => F i j t)). intros j Hj. unfold F. destruct (i =? j); [apply dlim_const|].
      assert (W : forall p d, derivable_pt_lim (fun t => double_well (p + t * d)) 0 (slope p * d)).
      { intros p d. pose proof (dlim_double_well_of (fun t => p + t * d) 0 d (dlim_affine p d 0)) as H. cbn beta in H. replace (p + 0 * d) with p in H by ring. exact H. }
      eapply dlim_scal; [eapply dlim_sub; [eapply dlim_add; [apply W|apply W|reflexivity]|apply W|reflexivity]|reflexivity]. }
    f_equal. symmetry.
    set (h := fun i j => if i =? j then 0 else tau i j / 2 * (slope (P i) - slope (P i + P j)) * delta n k i).
    transitivity (sumn (S n) (fun i => sumn (S n) (fun j => h i j + h j i))).
    { apply sumn_ext. intros i Hi. apply sumn_ext. intros j Hj. unfold h. rewrite (Nat.eqb_sym j i). destruct (i =? j); [lra|]. rewrite (HS j i), (Rplus_comm (P j) (P i)). lra. }
    rewrite (sumn_ext (S n) _ (fun i => sumn (S n) (h i) + sumn (S n) (fun j => h j i))) by (intros; apply sumn_add). rewrite sumn_add. rewrite (sumn_swap (S n) (S n) (fun i j => h j i)).
    transitivity (sumn (S n) (fun i => delta n k i * G i)); [|apply delta_sum; exact Hk]. rewrite <- sumn_add. apply sumn_ext. intros i Hi. unfold G.
    rewrite <- sumn_scal. rewrite <- sumn_add. apply sumn_ext. intros j Hj. unfold h. destruct (i =? j); lra.
  Qed.
  (* derivative of the interface part *)
  Lemma interface_derivative n grad k : length grad = n -> (k < n)%nat ->
    derivable_pt_lim (fun t => f_interface tau eta n (shift grad k t)) 0 (sumn n (fun j => 3 * eta * (tau k n + tau j n - tau k j) * nth j grad 0)).
  Proof.
    intros HL Hk. set (L := fun i j => 3 * eta * (tau i n + tau j n - tau i j)). set (g := fun i => nth i grad 0). set (d := fun i => if i =? k then 1 else 0).
    assert (LS : forall i j, L i j = L j i) by (intros i j; unfold L; rewrite (HS j i); ring).
    apply (dlim_ext (fun t => sumn n (fun i => sumn n (fun j => L i j / 2 * ((g i + t * d i) * (g j + t * d j)))))).
    { intros t. rewrite f_interface_eq. apply sumn_ext. intros i Hi. apply sumn_ext. intros j Hj. rewrite !nth_shift by lia. fold (g i) (g j) (L i j). unfold d. destruct (i =? k), (j =? k); ring. }
    eapply dlim_val; [|apply (dlim_sumn n (fun i t => sumn n (fun j => L i j / 2 * ((g i + t * d i) * (g j + t * d j)))) (fun i => sumn n (fun j => L i j / 2 * (d i * g j + g i * d j))))].
    - rewrite (sumn_ext n _ (fun i => sumn n (fun j => L i j / 2 * d i * g j) + sumn n (fun j => L i j / 2 * d j * g i))).
      2: { intros i Hi. rewrite <- sumn_add. apply sumn_ext. intros j Hj. ring. }
      rewrite sumn_add. rewrite (sumn_swap n n (fun i j => L i j / 2 * d j * g i)).
      assert (E : forall f, sumn n (fun i => d i * f i) = f k). { intros f. rewrite (sumn_one n _ k) by (first [lia | intros i Hi Hik; unfold d; destruct (Nat.eqb_spec i k); [lia|lra]]). unfold d. rewrite Nat.eqb_refl. lra. }
      rewrite (sumn_ext n (fun i => sumn n (fun j => L i j / 2 * d i * g j)) (fun i => d i * sumn n (fun j => L i j / 2 * g j))) by (intros i Hi; rewrite <- sumn_scal; apply sumn_ext; intros; ring). rewrite E.
      rewrite (sumn_ext n (fun j => sumn n (fun i => L i j / 2 * d j * g i)) (fun j => d j * sumn n (fun i => L i j / 2 * g i))) by (intros i Hi; rewrite <- sumn_scal; apply sumn_ext; intros; ring). rewrite E.
      rewrite <- sumn_add. apply sumn_ext. intros j Hj. rewrite (LS j k). fold (L k j) (g j). lra.
    - intros i Hi. apply (dlim_sumn n (fun j t => L i j / 2 * ((g i + t * d i) * (g j + t * d j)))). intros j Hj.
      eapply dlim_scal; [eapply dlim_mul; [apply dlim_affine|apply dlim_affine|reflexivity]|]. cbn beta. ring.
  Qed.

  Context (n a b : nat) (Ha : (a <= n)%nat) (Hb : (b <= n)%nat) (Hab : a <> b) (HD : forall i, (i <= n)%nat -> tau i i = 0).
  Lemma slope_0 : slope 0 = 0. Proof. unfold slope. ring. Qed.
  Lemma slope_1 : slope 1 = 0. Proof. unfold slope. ring. Qed.
  Lemma slope_sym c : slope (1 - c) = - slope c. Proof. unfold slope. ring. Qed.
  Lemma G_mix c i : (i <= n)%nat -> let P := fun i => nth i (all_phases (mix n a b c)) 0 in
    sumn (S n) (fun j => if i =? j then 0 else tau i j * (slope (P i) - slope (P i + P j))) = slope c * (tau i b - tau i a).
  Proof.
    intros Hi P.
    assert (PM : forall j, (j < S n)%nat -> P j = mixed a b c j). { intros j Hj. unfold P. rewrite all_mix by assumption. replace (j <=? n) with true by (symmetry; apply Nat.leb_le; lia). reflexivity. }
    assert (Ma : P a = c) by (rewrite PM by lia; unfold mixed; now rewrite Nat.eqb_refl). assert (Mb : P b = 1 - c) by (rewrite PM by lia; unfold mixed; rewrite Nat.eqb_refl; destruct (Nat.eqb_spec b a); [lia|reflexivity]).
    assert (Mo : forall i, (i < S n)%nat -> i <> a -> i <> b -> P i = 0) by (intros j Hj Ia Ib; rewrite PM by exact Hj; unfold mixed; destruct (Nat.eqb_spec j a); [lia|]; destruct (Nat.eqb_spec j b); [lia|reflexivity]).
    destruct (Nat.eq_dec i a) as [->|Ia]; [|destruct (Nat.eq_dec i b) as [->|Ib]].
    - rewrite (sumn_one (S n) _ b) by (first [lia | intros j Hj Jb; destruct (Nat.eqb_spec a j); [reflexivity|]; rewrite (Mo j) by lia; rewrite Rplus_0_r; ring]).
      destruct (Nat.eqb_spec a b); [lia|]. rewrite Ma, Mb, HD by exact Ha. replace (c + (1 - c)) with 1 by ring. rewrite slope_1. ring.
    - rewrite (sumn_one (S n) _ a) by (first [lia | intros j Hj Jb; destruct (Nat.eqb_spec b j); [reflexivity|]; rewrite (Mo j) by lia; rewrite Rplus_0_r; ring]).
      destruct (Nat.eqb_spec b a); [lia|]. rewrite Ma, Mb, HD by exact Hb. replace (1 - c + c) with 1 by ring. rewrite slope_1, slope_sym. ring.
    - rewrite (sumn_two (S n) _ a b) by (first [lia | intros j Hj Ja Jb; destruct (Nat.eqb_spec i j); [reflexivity|]; rewrite (Mo j) by lia; rewrite Rplus_0_r; ring]).
      destruct (Nat.eqb_spec i a); [lia|]. destruct (Nat.eqb_spec i b); [lia|]. rewrite (Mo i) by lia. rewrite Ma, Mb, !Rplus_0_l, slope_0, slope_sym. ring.
  Qed.
  Lemma energy_ok bulk interface phi grad : length phi = n -> exists e, energy_n_phases tau eta double_well double_well 0 bulk interface phi grad = Ok e /\
    e = (if bulk then f_bulk tau eta double_well double_well 0 (all_phases phi) else 0) + (if interface then f_interface tau eta n grad else 0).
  Proof.
    intros L. unfold energy_n_phases. rewrite L. replace (forallb _ _) with true; [eauto|]. symmetry. apply forallb_forall. intros l Hl. apply in_seq in Hl. rewrite HD by lia. destruct (Req_EM_T 0 0); [reflexivity|contradiction].
  Qed.
  Definition density (phi grad : list R) : R := f_bulk tau eta double_well double_well 0 (all_phases phi) + f_interface tau eta n grad.
  Lemma stationary_profile k dc : (k < n)%nat -> (forall x, derivable_pt_lim (analytic_interface_profile eta) x (dc x)) ->
    stationary density (fun x => mix n a b (analytic_interface_profile eta x)) (fun x => mix_gradient n a b (dc x)) k.
  Proof.
    intros Hk Hdc. pose proof (profile_deriv_unique eta He dc Hdc) as E. set (P := analytic_interface_profile eta) in *. set (T := tau k b - tau k a - (tau n b - tau n a)).
    exists (fun x => 3 / (2 * eta) * (slope (P x) * T)), (fun x => 3 * eta * T * (P x * (1 - P x) / eta)). intros x. split; [|split].
    - unfold density. eapply dlim_add; [|apply dlim_const|rewrite Rplus_0_r; reflexivity].
      eapply dlim_val; [|apply (bulk_derivative (mix n a b (P x)) k); rewrite mix_length; exact Hk]. cbn zeta. rewrite mix_length. f_equal. rewrite !G_mix by lia. unfold T. ring.
    - unfold density. eapply dlim_add; [apply dlim_const|apply (interface_derivative n (mix_gradient n a b (dc x)) k); [unfold mix_gradient; now rewrite map_length, seq_length|exact Hk]|]. rewrite Rplus_0_l.
      rewrite (sumn_ext n _ (fun j => 3 * eta * (tau k n + tau j n - tau k j) * gmixed a b (dc x) j)) by (intros j Hj; now rewrite nth_mix_gradient).
      rewrite (gsum n a b (dc x) (fun j => 3 * eta * (tau k n + tau j n - tau k j))) by (auto; rewrite HD by lia; lra). rewrite E. unfold T. rewrite (HS n b), (HS n a). field. lra.
    - eapply dlim_scal; [apply (profile_deriv2 eta He x)|]. fold P. unfold slope. field. lra.
  Qed.
  Lemma energy_two c g : density (mix n a b c) (mix_gradient n a b g) = 3 * tau a b * (double_well c / eta + eta * g ^ 2).
  Proof.
    unfold density. rewrite bulk_two; try assumption; [|apply eta_ne|unfold double_well; ring|reflexivity|unfold double_well; ring].
    rewrite interface_two by assumption. unfold double_well. field. lra.
  Qed.
End Stationary.

(* ---- surface tension ---- *)
Lemma FTC_improper G g (va vb : R) : (forall x, derivable_pt_lim G x (g x)) -> continuity g ->
  (forall eps, 0 < eps -> exists M, forall x, (M < x -> Rabs (G x - vb) < eps) /\ (x < - M -> Rabs (G x - va) < eps)) -> improper_integral g (vb - va).
Proof.
  intros HG Hc HL eps Heps. destruct (HL (eps / 2) ltac:(lra)) as (M & HM). exists (Rmax M 0). intros a b Ha Hb. pose proof (Rmax_l M 0). pose proof (Rmax_r M 0). assert (Hab : a <= b) by lra.
  assert (pr : Riemann_integrable g a b) by (apply continuity_implies_RiemannInt; [exact Hab|intros; apply Hc]). exists pr.
  assert (E : RiemannInt pr = G b - G a).
  { assert (dG : derivable G) by (intros x; exists (g x); apply HG). assert (Ed : forall x, derive G dG x = g x) by (intros x; unfold derive; apply derive_pt_eq_0, HG).
    assert (cG : continuity (derive G dG)). { intros x. apply (continuity_pt_locally_ext g _ 1); [lra|intros y _; now rewrite Ed|apply Hc]. }
    set (C := @mkC1 G dG cG). assert (pr2 : Riemann_integrable (derive (c1 C) (diff0 C)) a b) by (apply continuity_implies_RiemannInt; [exact Hab|intros; apply cG]).
    etransitivity; [|exact (FTC_Riemann C pr2)]. apply RiemannInt_P18; [exact Hab|]. intros x _. symmetry. unfold derive. apply derive_pt_eq_0. apply HG. }
  rewrite E. destruct (HM b) as [H1 _]. destruct (HM a) as [_ H2]. specialize (H1 ltac:(lra)). specialize (H2 ltac:(lra)).
  replace (G b - G a - (vb - va)) with ((G b - vb) - (G a - va)) by ring. apply Rabs_def2 in H1, H2. apply Rabs_def1; lra.
Qed.
Section Tension.
  Context (eta : R) (He : 0 < eta).
  Let P := analytic_interface_profile eta.
  Lemma profile_continuous : continuity P.
  Proof. intros x. apply derivable_continuous_pt. exists (P x * (1 - P x) / eta). apply profile_deriv. exact He. Qed.
  (* any multiple of the double well, integrated along the profile *)
  Lemma well_integral s e : (forall x, e x = s * double_well (P x)) -> improper_integral e (s * eta / 6).
  Proof.
    intros E. replace (s * eta / 6) with (s * eta * (1 / 6) - 0) by lra.
    apply (FTC_improper (fun x => s * eta * (P x * P x * (1 / 2 - P x / 3)))).
    - intros x. pose proof (profile_deriv eta He x) as D. fold P in D. rewrite E.
      assert (D2 : derivable_pt_lim (fun x => 1 / 2 - P x / 3) x (- (P x * (1 - P x) / eta) / 3)).
      { eapply dlim_sub; [apply dlim_const|apply (dlim_ext (fun x => / 3 * P x)); [intros y; unfold Rdiv; ring|eapply dlim_scal; [exact D|reflexivity]]|]. lra. }
      eapply dlim_scal; [eapply dlim_mul; [eapply dlim_mul; [exact D|exact D|reflexivity]|exact D2|reflexivity]|]. unfold double_well. field. lra.
    - intros x. apply (continuity_pt_locally_ext (fun x => s * (P x * P x * ((1 - P x) * (1 - P x)))) e 1 x Rlt_0_1); [intros y _; rewrite E; unfold double_well; ring|].
      assert (C : continuity_pt P x) by apply profile_continuous. assert (C1 : continuity_pt (fun x => 1 - P x) x) by (apply (continuity_pt_minus (fun _ => 1) P); [apply continuity_pt_const; intros ? ?; reflexivity|exact C]).
      apply (continuity_pt_scal (fun x => P x * P x * ((1 - P x) * (1 - P x)))). apply (continuity_pt_mult (fun x => P x * P x) (fun x => (1 - P x) * (1 - P x))).
      + now apply (continuity_pt_mult P P).
      + now apply (continuity_pt_mult (fun x => 1 - P x) (fun x => 1 - P x)).
    - intros eps Heps. set (K := Rabs s * eta + 1). assert (Ps : 0 <= Rabs s * eta) by (apply Rmult_le_pos; [apply Rabs_pos|lra]). assert (PK : 0 < K) by (unfold K; lra).
      destruct (profile_limits eta He (eps / K)) as (M & M1 & M2); [apply Rdiv_lt_0_compat; lra|]. exists M. intros x. pose proof (profile_range eta He x) as R. fold P in M1, M2, R.
      assert (B : forall y z, 0 <= y -> y < eps / K -> Rabs z <= y -> Rabs (s * eta * z) < eps).
      { intros y z H0 H1 H2. rewrite !Rabs_mult, (Rabs_pos_eq eta) by lra. apply Rle_lt_trans with (Rabs s * eta * y); [apply Rmult_le_compat_l; assumption|].
        assert (K * y < eps). { apply (Rmult_lt_compat_l K) in H1; [|exact PK]. replace (K * (eps / K)) with eps in H1 by (field; lra). exact H1. } unfold K in *. nra. }
      split; intros Hx.
      + specialize (M1 x Hx). replace (s * eta * (P x * P x * (1 / 2 - P x / 3)) - s * eta * (1 / 6)) with (s * eta * (P x * P x * (1 / 2 - P x / 3) - 1 / 6)) by ring.
        apply (B (1 - P x)); [lra|lra|]. apply Rabs_le. set (c := P x) in *. assert (Q1 : 0 <= c * (1 - c)) by (apply Rmult_le_pos; lra). split; nra.
      + specialize (M2 x Hx). rewrite Rminus_0_r. apply (B (P x)); [lra|lra|]. apply Rabs_le. set (c := P x) in *. assert (Q1 : 0 <= c * (1 - c)) by (apply Rmult_le_pos; lra). split; nra.
  Qed.
End Tension.

(* ---- three phases and the penalty functional ---- *)
Lemma transformation_inverse o : to_order_parameters (to_concentrations o) = o.
Proof. destruct o as [[r p] s]. cbn. apply f_equal2; [apply f_equal2|]; lra. Qed.
Lemma transformation_inverse' c : to_concentrations (to_order_parameters c) = c.
Proof. destruct c as [[r p] s]. cbn. apply f_equal2; [apply f_equal2|]; lra. Qed.
Lemma rsum_nonneg l : (forall x, In x l -> 0 <= x) -> 0 <= rsum l.
Proof. induction l as [|a l IH]; intros H; [unfold rsum; cbn; lra|]. change (rsum (a :: l)) with (a + rsum l). pose proof (H a (or_introl eq_refl)). assert (0 <= rsum l) by (apply IH; intros; apply H; now right). lra. Qed.
Lemma rsum_nonneg_zero l : (forall x, In x l -> 0 <= x) -> rsum l = 0 -> forall x, In x l -> x = 0.
Proof.
  induction l as [|a l IH]; intros H E x Hx; [destruct Hx|]. change (rsum (a :: l)) with (a + rsum l) in E. pose proof (H a (or_introl eq_refl)). assert (0 <= rsum l) by (apply rsum_nonneg; intros; apply H; now right).
  destruct Hx as [<-|Hx]; [lra|]. apply IH; [intros; apply H; now right|lra|exact Hx].
Qed.
Lemma double_well_nonneg c : 0 <= double_well c.
Proof. unfold double_well. replace (c ^ 2 * (1 - c) ^ 2) with (Rsqr (c * (1 - c))) by (unfold Rsqr; ring). apply Rle_0_sqr. Qed.
Lemma double_well_zero c : double_well c = 0 <-> c = 0 \/ c = 1.
Proof.
  unfold double_well. split; [|intros [->| ->]; ring]. intros H. replace (c ^ 2 * (1 - c) ^ 2) with ((c * (1 - c)) * (c * (1 - c))) in H by ring. apply Rmult_integral in H.
  assert (E : c * (1 - c) = 0) by tauto. apply Rmult_integral in E. lra.
Qed.
