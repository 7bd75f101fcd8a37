(* C51: lattice Boltzmann method for the Cahn-Hilliard equation and its finite difference stencils *)
From Coq Require Import String List ZArith Bool Arith QArith Reals Qreals Lra Lia.
From Verif Require Import StencilModel StencilProofs2 RealLib LinLib TransSpec EqModel EqSpec EqProofs CollModel AcSpec ChModel ChSpec ChProofs ChProofs2 ChProofs3 ChProofs4.
Import ListNotations.
Local Open Scope R_scope.

Definition weighted (S : stencil) : Prop := In (sizeQ S) [7; 9; 15; 19; 27]%nat.
Lemma weighted_b S : weighted S -> has_weights S = true.
Proof. unfold weighted, has_weights. cbn. rewrite !orb_true_iff, !Nat.eqb_eq. intuition. Qed.

(* equilibrium: density rho, momentum rho v, second moment rho v v + gamma mu *)
Theorem C51_moments : forall name ord S mu gamma rho v, predefined_stencils name ord = Ok S -> weighted S ->
  exists f, ch_equilibrium S mu gamma rho v = Ok f /\ length f = sizeQ S /\ density f S = rho /\
    (forall a, (a < dimD S)%nat -> momentum f S a = rho * nth a v 0) /\
    (sizeQ S <> 7%nat -> forall a b, (a < dimD S)%nat -> (b < dimD S)%nat -> second_moment f S a b = rho * nth a v 0 * nth b v 0 + gamma * mu * delta a b).
Proof.
  intros name ord S mu gamma rho v HS HW%weighted_b. destruct (eq_ok name ord S HS HW gamma mu rho v) as (f & Hf & Hl). exists f. destruct (iso_facts name ord S HS HW) as (ws & Hw & _).
  split; [exact Hf|]. split; [exact Hl|]. split; [eapply ch_density; eassumption|]. split; [intros; eapply ch_momentum; eassumption|]. intros; eapply ch_second; eassumption.
Qed.
Theorem C51_rejected : forall S mu gamma rho v, S <> [] -> ~ weighted S -> ch_equilibrium S mu gamma rho v = Err KeyError.
Proof.
  intros S mu gamma rho v Hne HW. unfold ch_equilibrium. rewrite weights_rejected; [reflexivity|exact Hne|]. unfold has_weights. cbn [existsb]. rewrite !orb_false_iff, !Nat.eqb_neq. unfold weighted in HW. cbn [In] in HW. intuition.
Qed.
(* seven directions cannot represent v_x v_y *)
Theorem C51_d3q7_refuted : exists S f, predefined_stencils "D3Q7" "walberla" = Ok S /\ ch_equilibrium S 0 1 1 [1; 1; 0] = Ok f /\ second_moment f S 0 1 <> 1 * 1 * 1 + 1 * 0 * delta 0 1.
Proof.
  eexists. eexists. split; [reflexivity|]. split; [reflexivity|]. unfold second_moment, fsum, comp, delta. cbn [combine map rsum fold_right nth fst snd Nat.eqb]. unfold ch_term, Q2R. cbn. intros H. lra.
Qed.
(* collision with a given velocity: density kept, momentum relaxes to rho v *)
Theorem C51_collision : forall name ord S M Minv omega gamma mu v f, predefined_stencils name ord = Ok S -> weighted S -> is_inverse (sizeQ S) M Minv -> length f = sizeQ S ->
  exists f', ch_collision S M Minv omega gamma mu v f = Ok f' /\ length f' = sizeQ S /\ rsum f' = rsum f /\
    forall a, (a < dimD S)%nat -> momentum f' S a = momentum f S a + omega * (rsum f * nth a v 0 - momentum f S a).
Proof.
  intros name ord S M Minv omega gamma mu v f HS HW%weighted_b HM Hf. destruct (collision_ok name ord S HS HW M Minv HM omega gamma mu v f Hf) as (g & Hg & Hl & _). exists g.
  split; [exact Hg|]. split; [exact Hl|]. split; [eapply collision_mass; eassumption|]. intros; eapply collision_momentum; eassumption.
Qed.
(* every time step is defined *)
Theorem C51_total : forall name ord S M Minv omega gamma mu v f x, predefined_stencils name ord = Ok S -> weighted S -> is_inverse (sizeQ S) M Minv ->
  (forall y, length y = dimD S -> length (f y) = sizeQ S) -> length x = dimD S -> exists g, ch_step S M Minv omega gamma mu v f x = Ok g /\ length g = sizeQ S.
Proof.
  intros name ord S M Minv omega gamma mu v f x HS HW%weighted_b HM Hf Hx. rewrite (step_value name ord S HS HW M Minv HM omega gamma mu v f x Hf Hx). eexists. split; [reflexivity|]. rewrite map_length, seq_length. reflexivity.
Qed.
(* d phi / dt = M lap mu with M = gamma (1 / omega - 1 / 2): in a quadratic chemical potential the growth of the order parameter tends to this
   rate in every cell, whatever the initial populations, as long as they grow at most quadratically in space *)
Theorem C51_diffusion : forall name ord S M Minv omega gamma c g h f x, predefined_stencils name ord = Ok S -> weighted S -> is_inverse (sizeQ S) M Minv -> 0 < omega < 2 ->
  (forall y, length y = dimD S -> length (f 0%nat y) = sizeQ S) ->
  (forall t y, length y = dimD S -> ch_step S M Minv omega gamma (quadratic_field (dimD S) c g h) (fun _ => rzero (dimD S)) (f t) y = Ok (f (Datatypes.S t) y)) ->
  (exists B, forall q y, (1 <= q < sizeQ S)%nat -> length y = dimD S -> Rabs (nth q (f 0%nat y) 0) <= B * (1 + size (dimD S) y) ^ 2) ->
  length x = dimD S -> Un_cv (fun t => rsum (f (Datatypes.S t) x) - rsum (f t x)) (gamma * (1 / omega - 1 / 2) * trace (dimD S) h).
Proof.
  intros name ord S M Minv omega gamma c g h f x HS HW%weighted_b HM Ho H0 Hstep HB Hx. destruct (iso_facts name ord S HS HW) as (ws & Hw & _).
  exact (diffusion_limit name ord S HS HW M Minv HM omega gamma c g h ws Hw ltac:(lra) f H0 Hstep x Ho Hx HB).
Qed.
(* and there are populations for which the rate is exact from the first step, for every order parameter field *)
Theorem C51_diffusion_exact : forall name ord S M Minv omega gamma c g h rho0, predefined_stencils name ord = Ok S -> weighted S -> is_inverse (sizeQ S) M Minv -> omega <> 0 ->
  exists f, (forall y, length y = dimD S -> length (f 0%nat y) = sizeQ S) /\
    (forall t y, length y = dimD S -> ch_step S M Minv omega gamma (quadratic_field (dimD S) c g h) (fun _ => rzero (dimD S)) (f t) y = Ok (f (Datatypes.S t) y)) /\
    forall t x, length x = dimD S -> rsum (f t x) = rho0 x + INR t * (gamma * (1 / omega - 1 / 2) * trace (dimD S) h).
Proof.
  intros name ord S M Minv omega gamma c g h rho0 HS HW%weighted_b HM Ho. destruct (iso_facts name ord S HS HW) as (ws & Hw & _). pose proof (n_pos name ord S HS) as Hn.
  set (mu := quadratic_field (dimD S) c g h). set (P := fun q x => profile S omega gamma c g h ws q x).
  set (init := fun x => (rho0 x - rsum (map (fun q => P q x) (seq 1 (sizeQ S - 1)))) :: map (fun q => P q x) (seq 1 (sizeQ S - 1))).
  set (f := fix f (t : nat) : vec -> list R := match t with O => init | Datatypes.S t => fun y => match ch_step S M Minv omega gamma mu (fun _ => rzero (dimD S)) (f t) y with Ok g => g | Err _ => [] end end).
  assert (Li : forall x, length (init x) = sizeQ S) by (intros x; unfold init; cbn [length]; rewrite map_length, seq_length; lia).
  assert (Lf : forall t y, length y = dimD S -> length (f t y) = sizeQ S).
  { induction t as [|t IH]; intros y Hy; [apply Li|]. cbn [f]. rewrite (step_value name ord S HS HW M Minv HM omega gamma mu _ (f t) y IH Hy), map_length, seq_length. reflexivity. }
  assert (St : forall t y, length y = dimD S -> ch_step S M Minv omega gamma mu (fun _ => rzero (dimD S)) (f t) y = Ok (f (Datatypes.S t) y)).
  { intros t y Hy. cbn [f]. rewrite (step_value name ord S HS HW M Minv HM omega gamma mu _ (f t) y (Lf t) Hy). reflexivity. }
  exists f. split; [exact (Lf 0%nat)|]. split; [exact St|].
  assert (Z : forall q x, (1 <= q < sizeQ S)%nat -> length x = dimD S -> dev S omega gamma c g h ws f q 0 x = 0).
  { intros q x Hq Hx. unfold dev. cbn [f]. unfold init. destruct q as [|q]; [lia|]. cbn [nth]. rewrite <- seq_shift, map_map, nth_map_seq by lia. unfold P. ring. }
  intros t. induction t as [|t IH]; intros x Hx.
  - cbn [f INR]. unfold init. rewrite rsum_cons. ring.
  - pose proof (exact_growth name ord S HS HW M Minv HM omega gamma c g h ws Hw Ho f (Lf 0%nat) St t x Hx Z) as H. rewrite S_INR, Rmult_plus_distr_r, Rmult_1_l, <- Rplus_assoc, <- (IH x Hx), <- H. ring.
Qed.
(* a uniform velocity carries an affine order parameter along, also with an affine chemical potential that changes in time *)
Theorem C51_advection : forall name ord S M Minv omega gamma v r m m' g k, predefined_stencils name ord = Ok S -> weighted S -> is_inverse (sizeQ S) M Minv -> omega <> 0 ->
  let mu t := affine_field (dimD S) (m + INR t * m') k in
  let rho t := affine_field (dimD S) (r - INR t * rsum (map (fun a => g a * nth a v 0) (seq 0 (dimD S)))) g in
  exists f, (forall t y, length y = dimD S -> ch_step S M Minv omega gamma (mu t) (fun _ => v) (f t) y = Ok (f (Datatypes.S t) y)) /\ (forall t x, rsum (f t x) = rho t x) /\
    (* the mean of the fluxes before and after the collision is rho v - M grad mu *)
    (sizeQ S <> 7%nat -> forall t x f' a, (a < dimD S)%nat -> ch_collision S M Minv omega gamma (mu t x) v (f t x) = Ok f' ->
       (momentum (f t x) S a + momentum f' S a) / 2 = rho t x * nth a v 0 - gamma * (1 / omega - 1 / 2) * k a).
Proof.
  intros name ord S M Minv omega gamma v r m m' g k HS HW%weighted_b HM Ho mu rho. exists (travelling S omega gamma v r m m' g k).
  split; [intros; now apply (travelling_step name ord S HS HW M Minv HM)|]. split; [intros; now apply (travelling_density name ord S HS HW)|]. intros H7 t x f' a Ha Hf. exact (travelling_flux name ord S HS HW M Minv HM omega gamma v Ho r m m' g k t x f' a H7 Ha Hf).
Qed.

(* ---- finite differences ---- *)
(* first derivative: right up to second order, with an isotropic error *)
Theorem C51_first_derivative : forall standard i x dx p, (i < 2)%nat -> length x = 2%nat -> dx <> 0 -> degree_le 2 4 p ->
  isotropic_fd standard dx (sampled_dx p x dx) 2 [i] = Ok (peval (pderiv i p) x + dx ^ 2 / 6 * peval (pderiv i (plap 2 p)) x).
Proof. intros standard i x dx p Hi Hx Hd Hp. rewrite <- (fd1_poly i x dx p Hi Hx Hd Hp). unfold isotropic_fd. destruct (Nat.ltb_spec i 2); [reflexivity|lia]. Qed.
(* second derivative: mixes in a quarter of the derivative along the other axis *)
Theorem C51_second_derivative : forall standard i x dx p, (i < 2)%nat -> length x = 2%nat -> dx <> 0 -> degree_le 2 3 p ->
  isotropic_fd standard dx (sampled_dx p x dx) 2 [i; i] = Ok (3 / 4 * peval (pderiv i (pderiv i p)) x + 1 / 4 * peval (pderiv (1 - i) (pderiv (1 - i) p)) x).
Proof. intros standard i x dx p Hi Hx Hd Hp. rewrite <- (fd2_poly i x dx p Hi Hx Hd Hp). unfold isotropic_fd. rewrite Nat.eqb_refl. reflexivity. Qed.
Theorem C51_second_derivative_refuted : exists p x, degree_le 2 2 p /\ length x = 2%nat /\ forall standard dx, dx <> 0 ->
  isotropic_fd standard dx (sampled_dx p x dx) 2 [0; 0]%nat <> Ok (peval (pderiv 0 (pderiv 0 p)) x).
Proof.
  exists [(1, [2; 0]%nat)], [0; 0]. split; [constructor; [cbn; split; [reflexivity|lia]|constructor]|]. split; [reflexivity|]. intros standard dx Hd. rewrite C51_second_derivative; [|lia|reflexivity|exact Hd|constructor; [cbn; split; [reflexivity|lia]|constructor]].
  intros H. injection H as H. revert H. unfold peval, pderiv, rmono. cbn. lra.
Qed.
(* the Laplacian is right *)
Theorem C51_laplacian : forall standard x dx p, length x = 2%nat -> dx <> 0 -> degree_le 2 3 p -> exists a b,
  isotropic_fd standard dx (sampled_dx p x dx) 2 [0; 0]%nat = Ok a /\ isotropic_fd standard dx (sampled_dx p x dx) 2 [1; 1]%nat = Ok b /\ a + b = peval (plap 2 p) x.
Proof.
  intros standard x dx p Hx Hd Hp. rewrite (C51_second_derivative standard 0) by (assumption || lia). rewrite (C51_second_derivative standard 1) by (assumption || lia). do 2 eexists. split; [reflexivity|]. split; [reflexivity|].
  unfold plap. cbn [seq flat_map]. rewrite app_nil_r. unfold peval. rewrite map_app, rsum_app. cbn [Nat.sub]. field.
Qed.
(* but its leading error is not isotropic: the field (x + y)^4 / 4, which is x^4 in axes rotated by 45 degrees, has another error than x^4 *)
Theorem C51_isotropy_refuted : forall standard dx, dx <> 0 ->
  let p := [(1, [4; 0]%nat)] in let p' := [(1 / 4, [4; 0]%nat); (1, [3; 1]%nat); (6 / 4, [2; 2]%nat); (1, [1; 3]%nat); (1 / 4, [0; 4]%nat)] in
  forall a b a' b', isotropic_fd standard dx (sampled_dx p [0; 0] dx) 2 [0; 0]%nat = Ok a -> isotropic_fd standard dx (sampled_dx p [0; 0] dx) 2 [1; 1]%nat = Ok b ->
    isotropic_fd standard dx (sampled_dx p' [0; 0] dx) 2 [0; 0]%nat = Ok a' -> isotropic_fd standard dx (sampled_dx p' [0; 0] dx) 2 [1; 1]%nat = Ok b' ->
  peval (plap 2 p) [0; 0] = 0 /\ peval (plap 2 p') [0; 0] = 0 /\ a + b = 2 * dx ^ 2 /\ a' + b' = 5 / 2 * dx ^ 2.
Proof.
  intros standard dx Hd p p' a b a' b' Ha Hb Ha' Hb'. injection Ha as <-. injection Hb as <-. injection Ha' as <-. injection Hb' as <-.
  assert (G : forall q o1 o2, sampled_dx q [0; 0] dx [o1; o2]%Z = rsum (map (fun t => fst t * (rmono [dx * IZR o1; dx * IZR o2] (snd t))) q)).
  { intros q o1 o2. unfold sampled_dx, peval. apply rsum_ext. intros t _. do 2 f_equal. unfold radd. cbn. rewrite !Rplus_0_l. reflexivity. }
  unfold fd_neighbor, p, p'. cbn [Nat.eqb]. rewrite !G. unfold peval, plap, pderiv, rmono. cbn. repeat split; field; exact Hd.
Qed.
Theorem C51_fd_rejected : forall standard dx fa dim indices, (3 <= dim \/ dim = 0 \/ dim = 2 /\ (length indices = 0 \/ 3 <= length indices))%nat -> isotropic_fd standard dx fa dim indices = Err NotImplementedError.
Proof.
  intros standard dx fa dim indices H. unfold isotropic_fd. destruct dim as [|[|[|dim]]]; try reflexivity; [exfalso; lia|]. destruct indices as [|i [|j [|k l]]]; cbn [length] in H; try lia; reflexivity.
Qed.

Print Assumptions C51_moments.
Print Assumptions C51_rejected.
Print Assumptions C51_d3q7_refuted.
Print Assumptions C51_collision.
Print Assumptions C51_total.
Print Assumptions C51_diffusion.
Print Assumptions C51_diffusion_exact.
Print Assumptions C51_advection.
Print Assumptions C51_first_derivative.
Print Assumptions C51_second_derivative.
Print Assumptions C51_second_derivative_refuted.
Print Assumptions C51_laplacian.
Print Assumptions C51_isotropy_refuted.
Print Assumptions C51_fd_rejected.

(* ---- examples ---- *)
Example C51_example_stencils : forall name, In name ["D2Q9"; "D3Q15"; "D3Q19"; "D3Q27"; "D3Q7"]%string -> exists S, predefined_stencils name "walberla" = Ok S /\ weighted S.
Proof. intros name [<- | [<- | [<- | [<- | [<- | []]]]]]; eexists; (split; [reflexivity|]); unfold weighted; cbn; auto 10. Qed.
Example C51_example_equilibrium : exists S, predefined_stencils "D2Q9" "walberla" = Ok S /\ exists f, ch_equilibrium S (1 / 2) 1 2 [1 / 10; 0] = Ok f /\ nth 0 f 0 = 173 / 150.
Proof. eexists. split; [reflexivity|]. eexists. split; [reflexivity|]. unfold ch_term, Q2R. cbn. field. Qed.
(* equilibrium populations grow at most quadratically *)
Example C51_example_growth : forall c g h, quadratic_growth 2 (fun y => 3 * 1 * quadratic_field 2 c g h y * (1 / 9)).
Proof. intros c g h. apply (growth_ext 2 (fun y => 3 * 1 * (1 / 9) * quadratic_field 2 c g h y)); [intros; ring|]. apply growth_scal, growth_quadratic. Qed.
