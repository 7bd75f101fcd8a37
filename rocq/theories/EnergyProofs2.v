From Coq Require Import List Bool Arith Lia Reals Lra Psatz.
From Verif Require Import StencilModel RealLib LinLib EnergyModel EnergySpec EnergyProofs.
Import ListNotations.
Local Open Scope R_scope.

Lemma dlim_ext f g x l : (forall y, f y = g y) -> derivable_pt_lim f x l -> derivable_pt_lim g x l.
Proof. intros E H eps He. destruct (H eps He) as (d & Hd). exists d. intros h Hh Hd'. rewrite <- !E. now apply Hd. Qed.
Lemma dlim_val f x l l' : l = l' -> derivable_pt_lim f x l -> derivable_pt_lim f x l'.
Proof. now intros ->. Qed.
Lemma dlim_sumn n (F : nat -> R -> R) F' x : (forall i, (i < n)%nat -> derivable_pt_lim (F i) x (F' i)) -> derivable_pt_lim (fun t => sumn n (fun i => F i t)) x (sumn n F').
Proof.
  induction n as [|n IH]; intros H.
  - apply (dlim_ext (fct_cte 0)); [reflexivity|]. apply (derivable_pt_lim_const 0).
  - apply (dlim_ext (plus_fct (fun t => sumn n (fun i => F i t)) (F n))); [intros y; unfold plus_fct; now rewrite sumn_S|]. rewrite sumn_S.
    apply derivable_pt_lim_plus; [apply IH; auto|apply H; lia].
Qed.
Lemma dlim_affine p d x : derivable_pt_lim (fun t => p + t * d) x d.
Proof.
  apply (dlim_ext (plus_fct (fct_cte p) (mult_real_fct d id))); [intros y; unfold plus_fct, fct_cte, mult_real_fct, id; ring|].
  apply (dlim_val _ _ (0 + d * 1)); [ring|]. apply derivable_pt_lim_plus; [apply derivable_pt_lim_const|apply derivable_pt_lim_scal, derivable_pt_lim_id].
Qed.
(* polynomials by products *)
Lemma dlim_mul f g x lf lg l : derivable_pt_lim f x lf -> derivable_pt_lim g x lg -> l = lf * g x + f x * lg -> derivable_pt_lim (fun t => f t * g t) x l.
Proof. intros Hf Hg ->. now apply (derivable_pt_lim_mult f g). Qed.
Lemma dlim_add f g x lf lg l : derivable_pt_lim f x lf -> derivable_pt_lim g x lg -> l = lf + lg -> derivable_pt_lim (fun t => f t + g t) x l.
Proof. intros Hf Hg ->. now apply (derivable_pt_lim_plus f g). Qed.
Lemma dlim_sub f g x lf lg l : derivable_pt_lim f x lf -> derivable_pt_lim g x lg -> l = lf - lg -> derivable_pt_lim (fun t => f t - g t) x l.
Proof. intros Hf Hg ->. now apply (derivable_pt_lim_minus f g). Qed.
Lemma dlim_scal c f x lf l : derivable_pt_lim f x lf -> l = c * lf -> derivable_pt_lim (fun t => c * f t) x l.
Proof. intros Hf ->. now apply (derivable_pt_lim_scal f). Qed.
Lemma dlim_const c x : derivable_pt_lim (fun _ => c) x 0.
Proof. apply (derivable_pt_lim_const c). Qed.
Definition slope (c : R) : R := 2 * c * (1 - c) * (1 - 2 * c).
Lemma dlim_double_well_of f x lf : derivable_pt_lim f x lf -> derivable_pt_lim (fun t => double_well (f t)) x (slope (f x) * lf).
Proof.
  intros H. assert (H1 : derivable_pt_lim (fun t => 1 - f t) x (- lf)) by (apply (dlim_sub _ _ _ 0 lf); [apply dlim_const|exact H|ring]).
  assert (H2 : derivable_pt_lim (fun t => f t * (1 - f t)) x (lf * (1 - f x) + f x * - lf)) by (apply (dlim_mul f (fun t => 1 - f t) _ lf (- lf)); [exact H|exact H1|reflexivity]).
  apply (dlim_ext (fun t => (f t * (1 - f t)) * (f t * (1 - f t)))); [intros y; unfold double_well; ring|].
  eapply dlim_mul; [exact H2|exact H2|]. unfold slope. ring.
Qed.

(* ---- the profile ---- *)
Section Profile.
  Context (eta : R) (He : 0 < eta).
  Let P := analytic_interface_profile eta.
  Lemma profile_exp x : P x = 1 - / (1 + exp (x / eta)).
  Proof.
    unfold P, analytic_interface_profile, tanh, sinh, cosh. set (y := x / (2 * eta)). replace (x / eta) with (y + y) by (unfold y; field; lra). rewrite exp_plus, exp_Ropp. pose proof (exp_pos y) as Hp. field.
    repeat split; nra.
  Qed.
  Lemma profile_range x : 0 < P x < 1.
  Proof.
    rewrite profile_exp. pose proof (exp_pos (x / eta)) as H. assert (0 < / (1 + exp (x / eta)) < 1); [|lra]. split; [apply Rinv_0_lt_compat; lra|]. rewrite <- Rinv_1. apply Rinv_lt_contravar; lra.
  Qed.
  Lemma profile_deriv x : derivable_pt_lim P x (P x * (1 - P x) / eta).
  Proof.
    apply (dlim_ext (fun x => 1 - / (1 + exp (x / eta)))); [intros y; symmetry; apply profile_exp|]. rewrite profile_exp. pose proof (exp_pos (x / eta)) as Hp.
    assert (D0 : derivable_pt_lim (fun t => t / eta) x (/ eta)). { apply (dlim_ext (fun t => 0 + t * / eta)); [intros y; unfold Rdiv; ring|]. apply dlim_affine. }
    assert (D1 : derivable_pt_lim (fun t => exp (t / eta)) x (exp (x / eta) * / eta)) by (apply (derivable_pt_lim_comp (fun t => t / eta) exp); [exact D0|apply derivable_pt_lim_exp]).
    assert (D2 : derivable_pt_lim (fun t => 1 + exp (t / eta)) x (exp (x / eta) * / eta)) by (eapply dlim_add; [apply dlim_const|exact D1|ring]).
    assert (D3 : derivable_pt_lim (fun t => / (1 + exp (t / eta))) x (- (exp (x / eta) * / eta) / (1 + exp (x / eta)) ^ 2)).
    { apply (dlim_ext (div_fct (fun _ => 1) (fun t => 1 + exp (t / eta)))); [intros y; unfold div_fct, Rdiv; ring|].
      apply (dlim_val _ _ ((0 * (1 + exp (x / eta)) - exp (x / eta) * / eta * 1) / Rsqr (1 + exp (x / eta)))); [unfold Rsqr; field; split; lra|].
      apply (derivable_pt_lim_div (fun _ => 1) (fun t => 1 + exp (t / eta))); [apply dlim_const|exact D2|lra]. }
    eapply dlim_sub; [apply dlim_const|exact D3|]. field. split; lra.
  Qed.
  Lemma profile_deriv_unique dc : (forall x, derivable_pt_lim P x (dc x)) -> forall x, dc x = P x * (1 - P x) / eta.
  Proof. intros H x. exact (uniqueness_limite P x _ _ (H x) (profile_deriv x)). Qed.
  Lemma profile_deriv2 x : derivable_pt_lim (fun y => P y * (1 - P y) / eta) x (P x * (1 - P x) * (1 - 2 * P x) / eta ^ 2).
  Proof.
    pose proof (profile_deriv x) as D. assert (D1 : derivable_pt_lim (fun t => 1 - P t) x (- (P x * (1 - P x) / eta))) by (eapply dlim_sub; [apply dlim_const|exact D|ring]).
    apply (dlim_ext (fun y => / eta * (P y * (1 - P y)))); [intros y; unfold Rdiv; ring|]. eapply dlim_scal; [eapply dlim_mul; [exact D|exact D1|reflexivity]|]. field. lra.
  Qed.
  (* limits *)
  Lemma profile_limits eps : 0 < eps -> exists M, (forall x, M < x -> 1 - eps < P x) /\ (forall x, x < - M -> P x < eps).
  Proof.
    intros H. exists (eta * / eps). assert (I : 0 < / eps) by now apply Rinv_0_lt_compat. split; intros x Hx; rewrite profile_exp; pose proof (exp_pos (x / eta)) as Hp.
    - assert (B : / eps < exp (x / eta)). { assert (/ eps < x / eta) by (apply (Rmult_lt_reg_l eta); [lra|]; replace (eta * (x / eta)) with x by (field; lra); lra). pose proof (exp_ineq1 (x / eta)). lra. }
      assert (/ (1 + exp (x / eta)) < eps); [|lra]. rewrite <- (Rinv_inv eps). apply Rinv_lt_contravar; [apply Rmult_lt_0_compat; lra|lra].
    - assert (B : / eps < exp (- (x / eta))). { assert (/ eps < - (x / eta)) by (apply (Rmult_lt_reg_l eta); [lra|]; replace (eta * - (x / eta)) with (- x) by (field; lra); lra). pose proof (exp_ineq1 (- (x / eta))). lra. }
      rewrite exp_Ropp in B. assert (E : exp (x / eta) < eps) by (rewrite <- (Rinv_inv eps), <- (Rinv_inv (exp (x / eta))); apply Rinv_lt_contravar; [apply Rmult_lt_0_compat; [lra|now apply Rinv_0_lt_compat]|lra]).
      assert (1 - / (1 + exp (x / eta)) < exp (x / eta)); [|lra]. replace (1 - / (1 + exp (x / eta))) with (exp (x / eta) / (1 + exp (x / eta))) by (field; lra).
      apply (Rmult_lt_reg_r (1 + exp (x / eta))); [lra|]. unfold Rdiv. rewrite Rmult_assoc, Rinv_l by lra. nra.
  Qed.
End Profile.
