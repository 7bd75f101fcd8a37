(* C68: the Chapman-Enskog analysis of a method and the viscosities it reports. *)
From Coq Require Import String List ZArith Bool Arith QArith Reals Qreals Lra Lia.
From Verif Require Import StencilModel RealLib LinLib LinQ EqModel EqSpec TransModel TransSpec TransProofs RateModel CeModel CeSpec CeProofs CeProofs2 CeProofs3 CeProofs4 CeProofs5 CeProofs6.
Import ListNotations.
Local Open Scope R_scope.

(* the derivatives written by the analysis are the derivatives: for every polynomial and every rate of change *)
Theorem C68_derivatives : forall E x p, is_derivative E x p (dexp_value E (diff_poly x p)).
Proof. intros. apply epoly_lim. Qed.
Print Assumptions C68_derivatives.

(* the equations of first and second order are the coefficients of eps and eps^2 of the expanded lattice Boltzmann equation,
   whatever the (linear) derivative operators and populations: the rest is of third order *)
Theorem C68_orders : forall (X : Type) (L1 T2 : (X -> R) -> (X -> R)) f0 f1 f2 o1 o2, linear_field L1 -> linear_field T2 ->
  exists r3 r4, forall eps x,
    taylor_equation true (expanded_operator L1 T2 eps) (expanded_pdf f0 f1 f2 eps) (expanded_omega o1 o2 eps) x =
    eps * order1 L1 f0 o1 x + eps ^ 2 * order2 L1 T2 f0 f1 o1 o2 x + eps ^ 3 * (r3 x + eps * r4 x).
Proof. intros X L1 T2 f0 f1 f2 o1 o2 HL HT. apply orders; assumption. Qed.
Print Assumptions C68_orders.

(* recombining the derivatives undoes their expansion *)
Theorem C68_recombination : forall diff d eps start stop, eps <> 0 -> (start < stop)%nat ->
  expanded_derivative (fun i => if Nat.eqb i (stop - 1) then recombined_highest diff d eps start stop else d i) eps start stop = diff.
Proof.
  intros diff d eps start stop He Hs. unfold expanded_derivative. replace (stop - start)%nat with ((stop - 1 - start) + 1)%nat by lia.
  rewrite seq_app, map_app, rsum_app. cbn [seq map rsum fold_right]. replace (start + (stop - 1 - start))%nat with (stop - 1)%nat by lia. rewrite Nat.eqb_refl.
  rewrite (rsum_ext _ (fun i => eps ^ i * d i)).
  - unfold recombined_highest. field. apply pow_nonzero. exact He.
  - intros i Hi. apply in_seq in Hi. destruct (Nat.eqb_spec i (stop - 1)); [lia|reflexivity].
Qed.
Print Assumptions C68_recombination.

(* second order equilibria of the library have the moments of a Maxwellian up to third order *)
Theorem C68_library_equilibria : forall name ord S ws compr, predefined_stencils name ord = Ok S -> get_weights S = Ok ws -> sizeQ S <> 7%nat ->
  hydrodynamic (dimD S) (equilibrium_moment S (quadratic_equilibria (dimD S) S (map Q2R ws) (1 / 3) compr)) compr (1 / 3) (fun _ _ _ => []).
Proof. exact library_hydro. Qed.
Print Assumptions C68_library_equilibria.

(* as functions of density and velocity they are the equilibria of the model of the library *)
Theorem C68_equilibrium_values : forall D c w compr rho u, length c = D ->
  epoly_value rho u (quadratic_equilibrium D c w (1 / 3) compr) = discrete_equilibrium c (map u (seq 0 D)) rho w 2 (1 / 3) compr.
Proof. intros. apply quadratic_value; [lra|assumption]. Qed.
Print Assumptions C68_equilibrium_values.

(* the analysis recognises whether the equilibrium is compressible *)
Theorem C68_compressible : forall D eqm compr cs2 rest, hydrodynamic D eqm compr cs2 rest -> (0 < D)%nat -> is_compressible D eqm = compr.
Proof. intros D eqm compr cs2 rest H HD. exact (compressible_ok D eqm compr cs2 rest H HD). Qed.
Print Assumptions C68_compressible.

(* the viscous stress is the second moment of f1 + Omega f1 / 2 for every solution f1 of the first order equation without mass and
   momentum, for every method with one rate for the mixed second moments, one for the differences of the squares (both equal: the
   shear rate) and one for their sum *)
Theorem C68_stress_of_populations : forall S ps Minv rates wm wn wb cs2 compr eq rest E f1,
  let D := dimD S in let n := length S in let M := moment_matrix ps S (rzero D) in
  let eqm := equilibrium_moment S eq in let omega1 := collision_operator M Minv rates f1 in
  Forall (fun c => length c = D) S -> length ps = n -> length rates = n -> is_inverse n M Minv -> length f1 = n -> (0 < D)%nat ->
  hydrodynamic D eqm compr cs2 rest -> env_rho E <> 0 -> length eq = n ->
  omega1 = map (fun pc => direction_transport D E (snd pc) (fst pc)) (combine eq S) -> wm <> 0 -> wn <> 0 -> wb <> 0 ->
  (exists w, relaxes_with S ps rates w (fun _ => 1)) ->
  (forall a, (a < D)%nat -> exists w, relaxes_with S ps rates w (fun c => comp c a)) ->
  (forall a b, (a < D)%nat -> (b < D)%nat -> a <> b -> relaxes_with S ps rates wm (fun c => comp c a * comp c b)) ->
  (forall a b, (a < D)%nat -> (b < D)%nat -> relaxes_with S ps rates wn (fun c => comp c a ^ 2 - comp c b ^ 2)) ->
  relaxes_with S ps rates wb (fun c => rsum (map (fun a => comp c a ^ 2) (seq 0 D))) ->
  density f1 S = 0 -> (forall a, (a < D)%nat -> momentum f1 S a = 0) ->
  forall a b, (a < D)%nat -> (b < D)%nat ->
    second_moment f1 S a b + 1 / 2 * second_moment omega1 S a b = dexp_value E (viscous_stress D eqm (if Nat.eqb a b then wn else wm) wb compr a b).
Proof.
  intros S ps Minv rates wm wn wb cs2 compr eq rest E f1 D n M eqm omega1 A1 A2 A3 A4 A5 A6 A7 A8 A9 A10 A11 A12 A13 A14 A15 A16 A17 A18 A19 A20 a b Ha Hb.
  exact (stress_ok S ps Minv rates wm wn wb cs2 compr eq rest E f1 A1 A2 A3 A4 A5 A6 A7 A8 A9 A10 A11 A12 A13 A14 A15 A16 A17 A18 A19 A20 a b Ha Hb).
Qed.
Print Assumptions C68_stress_of_populations.

(* solutions of the first order equation exist when no rate is zero *)
Theorem C68_first_order_populations : forall n M Minv rates T, is_inverse n M Minv -> length rates = n -> length T = n -> (forall x, In x rates -> x <> 0) ->
  exists f1, length f1 = n /\ collision_operator M Minv rates f1 = T.
Proof. exact first_order_exists. Qed.
Print Assumptions C68_first_order_populations.

(* the stress with all its terms *)
Theorem C68_exact_stress : forall D eqm compr cs2 rest ws wb E a b, hydrodynamic D eqm compr cs2 rest -> env_rho E <> 0 -> (a < D)%nat -> (b < D)%nat ->
  let strain i j := cs2 * carrier compr (env_rho E) * (env_gu E i j + env_gu E j i) + dexp_value E (stress_errors D compr cs2 rest i j) in
  dexp_value E (viscous_stress D eqm ws wb compr a b) =
    - (1 / ws - 1 / 2) * strain a b + delta a b * (1 / ws - 1 / wb) / INR D * rsum (map (fun c => strain c c) (seq 0 D)).
Proof. intros D eqm compr cs2 rest ws wb E a b H HE Ha Hb. exact (exact_stress D eqm compr cs2 rest ws wb H E a b HE Ha Hb). Qed.
Print Assumptions C68_exact_stress.

(* after dropping the error terms it is the stress of a Newtonian fluid with the reported shear viscosity *)
Theorem C68_newtonian : forall D eqm compr cs2 rest ws wb E a b, hydrodynamic D eqm compr cs2 rest -> (2 <= D)%nat -> env_rho E <> 0 -> (a < D)%nat -> (b < D)%nat ->
  let mu := dynamic_viscosity D eqm ws wb (env_rho E) in
  dexp_value E (stress_without_errors D eqm ws wb a b) =
    newtonian_flux D mu (2 / 3 * mu - 2 * cs2 * carrier compr (env_rho E) / INR D * (1 / ws - 1 / wb)) E a b.
Proof. intros D eqm compr cs2 rest ws wb E a b H HD HE Ha Hb. exact (newtonian D eqm compr cs2 rest ws wb H HD E a b HE Ha Hb). Qed.
Print Assumptions C68_newtonian.

(* all shear viscosity candidates agree, so the analysis reports rho c_s^2 (1 / shear rate - 1 / 2), and the kinematic viscosity is c_s^2 (1 / shear rate - 1 / 2) *)
Theorem C68_shear_viscosity : forall D eqm compr cs2 rest ws wb rho, hydrodynamic D eqm compr cs2 rest -> (2 <= D)%nat -> rho <> 0 ->
  (forall a b, (a < D)%nat -> (b < D)%nat -> a <> b -> shear_candidate D eqm ws wb a b rho = dynamic_viscosity D eqm ws wb rho) /\
  dynamic_viscosity D eqm ws wb rho = carrier compr rho * cs2 * (1 / ws - 1 / 2) /\
  kinematic_viscosity D eqm ws wb rho = cs2 * (1 / ws - 1 / 2).
Proof.
  intros D eqm compr cs2 rest ws wb rho H HD HR. pose proof (dynamic_ok D eqm compr cs2 rest ws wb H HD rho HR) as HV. split; [|split].
  - intros a b Ha Hb N. rewrite HV. apply (shear_ok D eqm compr cs2 rest ws wb H HD a b rho HR Ha Hb N).
  - rewrite HV. ring.
  - unfold kinematic_viscosity. rewrite (compressible_ok D eqm compr cs2 rest H) by lia. rewrite HV. generalize (1 / ws - 1 / 2). intros k. unfold carrier. destruct compr; [field; exact HR|ring].
Qed.
Print Assumptions C68_shear_viscosity.

(* for second order equilibria of the library it is the viscosity that relaxationrates.py assigns to the rate *)
Theorem C68_agrees_with_relaxation_rates : forall name ord S wts compr ws wb rho, predefined_stencils name ord = Ok S -> get_weights S = Ok wts -> sizeQ S <> 7%nat ->
  (2 <= dimD S)%nat -> rho <> 0 -> ws <> 0 ->
  let eqm := equilibrium_moment S (quadratic_equilibria (dimD S) S (map Q2R wts) (1 / 3) compr) in
  lattice_viscosity_from_relaxation_rate ws = Some (kinematic_viscosity (dimD S) eqm ws wb rho).
Proof.
  intros name ord S wts compr ws wb rho HS Hw H7 HD HR Hs eqm. destruct (C68_shear_viscosity _ _ _ _ _ ws wb rho (C68_library_equilibria _ _ _ _ compr HS Hw H7) HD HR) as (_ & _ & HV).
  unfold eqm. rewrite HV. unfold lattice_viscosity_from_relaxation_rate. rewrite rdiv_ok by lra. f_equal. field. exact Hs.
Qed.
Print Assumptions C68_agrees_with_relaxation_rates.

(* the rate computed from a viscosity has this viscosity, and no other rate has *)
Theorem C68_rate_from_viscosity : forall cs2 nu w, cs2 <> 0 -> 2 * nu + cs2 <> 0 -> w <> 0 ->
  cs2 * (1 / w - 1 / 2) = nu <-> w = relaxation_rate_from_kinematic_viscosity cs2 nu.
Proof.
  intros cs2 nu w H1 H2 H3. unfold relaxation_rate_from_kinematic_viscosity. split.
  - intros <-. field. split; [exact H3|]. intros E. apply H2. apply (Rmult_eq_reg_l w); [|exact H3]. rewrite Rmult_0_r. rewrite <- E. field. exact H3.
  - intros ->. field. auto.
Qed.
Print Assumptions C68_rate_from_viscosity.

(* the bulk terms of all axes have the same coefficient in front of the divergence and none elsewhere, so that a bulk viscosity is reported *)
Theorem C68_bulk_candidates : forall D eqm compr cs2 rest ws wb i k l rho, hydrodynamic D eqm compr cs2 rest -> (2 <= D)%nat -> rho <> 0 ->
  (i < D)%nat -> (k < D)%nat -> (l < D)%nat ->
  bulk_candidate D eqm ws wb i k l rho = delta k l * (2 * cs2 * carrier compr rho / INR D * (1 / ws - 1 / wb)).
Proof. intros D eqm compr cs2 rest ws wb i k l rho H HD HR Hi Hk Hl. exact (bulk_candidate_ok D eqm compr cs2 rest ws wb H HD i k l rho HR Hi Hk Hl). Qed.
Print Assumptions C68_bulk_candidates.

(* with equal rates the reported bulk viscosity is that of the stress *)
Theorem C68_bulk_viscosity_partial : forall D eqm compr cs2 rest w E a b, hydrodynamic D eqm compr cs2 rest -> (2 <= D)%nat -> env_rho E <> 0 -> (a < D)%nat -> (b < D)%nat ->
  dexp_value E (stress_without_errors D eqm w w a b) =
    newtonian_flux D (dynamic_viscosity D eqm w w (env_rho E)) (bulk_viscosity D eqm w w (env_rho E)) E a b.
Proof.
  intros D eqm compr cs2 rest w E a b H HD HE Ha Hb. rewrite (newtonian D eqm compr cs2 rest w w H HD E a b HE Ha Hb). f_equal. unfold bulk_viscosity.
  rewrite (bulk_candidate_ok D eqm compr cs2 rest w w H HD) by (try exact HE; lia). unfold delta. cbn [Nat.eqb]. unfold Rdiv. ring.
Qed.
Print Assumptions C68_bulk_viscosity_partial.

(* with different rates it never is: the contribution of the bulk rate enters with the wrong sign *)
Theorem C68_bulk_viscosity_refuted : forall D eqm compr cs2 rest ws wb rho zeta, hydrodynamic D eqm compr cs2 rest -> (2 <= D)%nat -> rho <> 0 -> cs2 <> 0 ->
  ws <> 0 -> wb <> 0 -> ws <> wb ->
  (forall E a b, env_rho E = rho -> (a < D)%nat -> (b < D)%nat ->
     dexp_value E (stress_without_errors D eqm ws wb a b) = newtonian_flux D (dynamic_viscosity D eqm ws wb rho) zeta E a b) ->
  bulk_viscosity D eqm ws wb rho <> zeta.
Proof.
  intros D eqm compr cs2 rest ws wb rho zeta H HD HR Hc Hs Hb N HZ.
  set (lam := 2 * cs2 * carrier compr rho / INR D * (1 / ws - 1 / wb)).
  assert (Hz : zeta = 2 / 3 * dynamic_viscosity D eqm ws wb rho - lam).
  { apply (bulk_unique D HD (dynamic_viscosity D eqm ws wb rho) _ _ rho). intros E HE. rewrite <- (HZ E 0%nat 0%nat HE) by lia.
    subst rho. rewrite (newtonian D eqm compr cs2 rest ws wb H HD E 0 0) by (try exact HR; lia). reflexivity. }
  unfold bulk_viscosity. rewrite (bulk_candidate_ok D eqm compr cs2 rest ws wb H HD) by (try exact HR; lia). fold lam. unfold delta. cbn [Nat.eqb].
  assert (HC : carrier compr rho <> 0) by (unfold carrier; destruct compr; [exact HR|lra]).
  assert (HDn : INR D <> 0) by (apply not_0_INR; lia).
  assert (HL : lam <> 0).
  { unfold lam. assert (HW : 1 / ws - 1 / wb <> 0). { intros E. apply N. assert (E' : 1 / ws = 1 / wb) by lra. unfold Rdiv in E'. rewrite !Rmult_1_l in E'. apply (f_equal Rinv) in E'. rewrite !Rinv_inv in E'. exact E'. }
    repeat apply Rmult_integral_contrapositive_currified; auto; try lra. apply Rinv_neq_0_compat. exact HDn. }
  intros E. apply HL. lra.
Qed.
Print Assumptions C68_bulk_viscosity_refuted.

(* for instance on D2Q9: with shear rate 1.9 and bulk rate 1 the stress damps compression, and the reported bulk viscosity is negative *)
Theorem C68_negative_bulk_viscosity_refuted : exists S wts, predefined_stencils "D2Q9" "walberla" = Ok S /\ get_weights S = Ok wts /\
  let eqm := equilibrium_moment S (quadratic_equilibria 2 S (map Q2R wts) (1 / 3) true) in
  bulk_viscosity 2 eqm (19 / 10) 1 1 < 0 /\
  exists zeta, 0 < zeta /\ forall E a b, env_rho E = 1 -> (a < 2)%nat -> (b < 2)%nat ->
    dexp_value E (stress_without_errors 2 eqm (19 / 10) 1 a b) = newtonian_flux 2 (dynamic_viscosity 2 eqm (19 / 10) 1 1) zeta E a b.
Proof.
  assert (HS : predefined_stencils "D2Q9" "walberla" = Ok D2Q9_walberla) by reflexivity.
  exists D2Q9_walberla. eexists. split; [exact HS|]. split; [reflexivity|]. cbv zeta.
  match goal with |- context [quadratic_equilibria 2 _ (map Q2R ?w) _ _] => set (wq := w); assert (Hw : get_weights D2Q9_walberla = Ok wq) by reflexivity end.
  assert (H7 : sizeQ D2Q9_walberla <> 7%nat) by discriminate. pose proof (library_hydro _ _ _ _ true HS Hw H7) as H. change (dimD D2Q9_walberla) with 2%nat in H.
  assert (HV : forall rho, rho <> 0 -> dynamic_viscosity 2 _ (19 / 10) 1 rho = _) by (intros rho HR; exact (dynamic_ok 2 _ true (1 / 3) _ (19 / 10) 1 H (le_n 2) rho HR)).
  split.
  - unfold bulk_viscosity. rewrite (bulk_candidate_ok 2 _ true (1 / 3) _ (19 / 10) 1 H (le_n 2)) by (try lra; lia). rewrite HV by lra. unfold delta, carrier. cbn [Nat.eqb INR]. lra.
  - exists (2 / 3 * dynamic_viscosity 2 (equilibrium_moment D2Q9_walberla (quadratic_equilibria 2 D2Q9_walberla (map Q2R wq) (1 / 3) true)) (19 / 10) 1 1 - 2 * (1 / 3) * carrier true 1 / INR 2 * (1 / (19 / 10) - 1 / 1)). split.
    + rewrite HV by lra. unfold carrier. cbn [INR]. lra.
    + intros E a b HE Ha Hb. assert (HE' : env_rho E <> 0) by lra. pose proof (newtonian 2 _ true (1 / 3) _ (19 / 10) 1 H (le_n 2) E a b HE' Ha Hb) as HN. rewrite HE in HN. exact HN.
Qed.
Print Assumptions C68_negative_bulk_viscosity_refuted.

(* the stress is that of a Newtonian fluid exactly when the mixed moments and the differences of the squares have the same rate *)
Theorem C68_newtonian_rates : forall D eqm compr cs2 rest wm wn wb, hydrodynamic D eqm compr cs2 rest -> (2 <= D)%nat -> cs2 <> 0 ->
  is_newtonian D eqm wm wn wb <-> 1 / wm = 1 / wn.
Proof. intros D eqm compr cs2 rest wm wn wb H HD Hc. rewrite (newtonian_iff D eqm compr cs2 rest wm wn wb H HD Hc). split; intros E; lra. Qed.
Print Assumptions C68_newtonian_rates.

(* the check accepts every method with a shear and a bulk rate, whose stress is Newtonian *)
Theorem C68_navier_stokes_check_partial : forall D eqm compr cs2 rest wm wn wb, hydrodynamic D eqm compr cs2 rest -> (2 <= D)%nat -> cs2 <> 0 ->
  is_newtonian D eqm wm wn wb -> check_accepts D eqm wm wn wb.
Proof. intros D eqm compr cs2 rest wm wn wb H HD Hc HN. apply (check_ok D eqm compr cs2 rest wm wn wb H HD Hc). left. apply (newtonian_iff D eqm compr cs2 rest wm wn wb H HD Hc). exact HN. Qed.
Print Assumptions C68_navier_stokes_check_partial.

(* but it accepts more: exactly which methods *)
Theorem C68_navier_stokes_check : forall D eqm compr cs2 rest wm wn wb, hydrodynamic D eqm compr cs2 rest -> (2 <= D)%nat -> cs2 <> 0 ->
  check_accepts D eqm wm wn wb <-> 1 / wm = 1 / wn \/ 1 / wn = 1 / wb \/ INR D * (1 / wm - 1 / wn) + (1 / wn - 1 / wb) = 0.
Proof.
  intros D eqm compr cs2 rest wm wn wb H HD Hc. rewrite (check_ok D eqm compr cs2 rest wm wn wb H HD Hc).
  assert (HDn : INR D <> 0) by (apply not_0_INR; lia). assert (HX : forall x, x / INR D = 0 <-> x = 0).
  { intros x. split; [|intros ->; unfold Rdiv; ring]. intros E. apply (Rmult_eq_compat_r (INR D)) in E. unfold Rdiv in E. rewrite Rmult_assoc, Rinv_l, Rmult_1_r, Rmult_0_l in E by exact HDn. exact E. }
  rewrite HX. replace (1 / wm - 1 / wn + (1 / wn - 1 / wb) / INR D) with ((INR D * (1 / wm - 1 / wn) + (1 / wn - 1 / wb)) / INR D) by (generalize (1 / wm) (1 / wn) (1 / wb); intros; field; exact HDn).
  rewrite HX. split; (intros [E|[E|E]]; [left|right; left|right; right]; lra).
Qed.
Print Assumptions C68_navier_stokes_check.

(* so it accepts methods that do not approximate the Navier-Stokes equations: whenever the squares are relaxed with one rate and the mixed moments with another *)
Theorem C68_navier_stokes_check_refuted : forall D eqm compr cs2 rest wm wn, hydrodynamic D eqm compr cs2 rest -> (2 <= D)%nat -> cs2 <> 0 -> wm <> wn -> wm <> 0 -> wn <> 0 ->
  check_accepts D eqm wm wn wn /\ ~ is_newtonian D eqm wm wn wn.
Proof.
  intros D eqm compr cs2 rest wm wn H HD Hc N Hm Hn. split.
  - apply (C68_navier_stokes_check D eqm compr cs2 rest wm wn wn H HD Hc). right. left. reflexivity.
  - rewrite (C68_newtonian_rates D eqm compr cs2 rest wm wn wn H HD Hc). intros E. apply N. unfold Rdiv in E. rewrite !Rmult_1_l in E. apply (f_equal Rinv) in E. rewrite !Rinv_inv in E. exact E.
Qed.
Print Assumptions C68_navier_stokes_check_refuted.

(* ---- non-vacuity ---- *)
(* moments of a two-rate method on D2Q9 *)
Definition two_rate_polys : list poly :=
  [[(1, [0; 0]%nat)]; [(1, [1; 0]%nat)]; [(1, [0; 1]%nat)]; [(1, [2; 0]%nat); (1, [0; 2]%nat)]; [(1, [2; 0]%nat); (-1, [0; 2]%nat)]; [(1, [1; 1]%nat)];
   [(1, [2; 1]%nat)]; [(1, [1; 2]%nat)]; [(1, [2; 2]%nat)]].
Definition two_rate_matrix : list (list Z) :=
  [[1;1;1;1;1;1;1;1;1]; [0;0;0;-1;1;-1;1;-1;1]; [0;1;-1;0;0;1;1;-1;-1]; [0;1;1;1;1;2;2;2;2]; [0;-1;-1;1;1;0;0;0;0]; [0;0;0;0;0;-1;1;1;-1];
   [0;0;0;0;0;1;1;-1;-1]; [0;0;0;0;0;-1;1;-1;1]; [0;0;0;0;0;1;1;1;1]]%Z.
Lemma two_rate_matrix_ok : moment_matrix two_rate_polys D2Q9_walberla (rzero 2) = q2r (map (map inject_Z) two_rate_matrix).
Proof.
  unfold moment_matrix, q2r, two_rate_polys, two_rate_matrix, D2Q9_walberla. cbn [map]. unfold peval, vecR, rsub, rzero, Q2R, inject_Z. cbn.
  repeat (apply f_equal2; [repeat (apply f_equal2; [lra|]); reflexivity|]). reflexivity.
Qed.
(* every solution of the first order equation of this method meets the conditions of C68_stress_of_populations, and with non-zero rates
   there is one for every state and gradient whose time derivatives conserve mass and momentum *)
Example C68_two_rate_method : forall wc ws wb wh, exists Minv,
  let rates := [wc; wc; wc; wb; ws; ws; wh; wh; wh] in let S := D2Q9_walberla in let ps := two_rate_polys in
  is_inverse 9 (moment_matrix ps S (rzero 2)) Minv /\ relaxes_with S ps rates wc (fun _ => 1) /\
  (forall a, (a < 2)%nat -> relaxes_with S ps rates wc (fun c => comp c a)) /\
  (forall a b, (a < 2)%nat -> (b < 2)%nat -> a <> b -> relaxes_with S ps rates ws (fun c => comp c a * comp c b)) /\
  (forall a b, (a < 2)%nat -> (b < 2)%nat -> relaxes_with S ps rates ws (fun c => comp c a ^ 2 - comp c b ^ 2)) /\
  relaxes_with S ps rates wb (fun c => rsum (map (fun a => comp c a ^ 2) (seq 0 2))).
Proof.
  intros wc ws wb wh. exists (q2r (qinv (map (map inject_Z) two_rate_matrix))). cbv zeta. split; [rewrite two_rate_matrix_ok; apply qinverse_check_R; vm_compute; reflexivity|].
  assert (TAC : forall (g : vec -> R) w ks, length ks = 9%nat ->
    (forall c, In c D2Q9_walberla -> g c = rsum (map (fun kp => fst kp * peval (snd kp) (vecR c)) (combine ks two_rate_polys))) ->
    (forall i, (i < 9)%nat -> nth i ks 0 <> 0 -> nth i [wc; wc; wc; wb; ws; ws; wh; wh; wh] 0 = w) -> relaxes_with D2Q9_walberla two_rate_polys [wc; wc; wc; wb; ws; ws; wh; wh; wh] w g).
  { intros g w ks L H1 H2. exists ks. split; [exact L|]. split; [exact H1|exact H2]. }
  assert (B2 : forall a, (a < 2)%nat -> a = 0%nat \/ a = 1%nat) by (intros; lia).
  Ltac fin9 := intros i Hi; do 9 (destruct i as [|i]; [cbn; intros NZ; first [reflexivity|exfalso; apply NZ; reflexivity]|]); lia.
  Ltac all9 := intros c Hc; unfold D2Q9_walberla in Hc; cbn [In] in Hc; repeat (destruct Hc as [<-|Hc]; [unfold comp, peval, vecR; cbn; lra|]); destruct Hc.
  split; [apply (TAC _ _ [1;0;0;0;0;0;0;0;0]); [reflexivity|all9|fin9]|].
  split. { intros a Ha. destruct (B2 a Ha) as [-> | ->]; [apply (TAC _ _ [0;1;0;0;0;0;0;0;0])|apply (TAC _ _ [0;0;1;0;0;0;0;0;0])]; [reflexivity|all9|fin9|reflexivity|all9|fin9]. }
  split. { intros a b Ha Hb N. apply (TAC _ _ [0;0;0;0;0;1;0;0;0]); [reflexivity| |fin9]. destruct (B2 a Ha) as [-> | ->], (B2 b Hb) as [-> | ->]; try congruence; all9. }
  split. { intros a b Ha Hb. destruct (B2 a Ha) as [-> | ->], (B2 b Hb) as [-> | ->].
    - apply (TAC _ _ [0;0;0;0;0;0;0;0;0]); [reflexivity|all9|fin9].
    - apply (TAC _ _ [0;0;0;0;1;0;0;0;0]); [reflexivity|all9|fin9].
    - apply (TAC _ _ [0;0;0;0;-1;0;0;0;0]); [reflexivity|all9|fin9].
    - apply (TAC _ _ [0;0;0;0;0;0;0;0;0]); [reflexivity|all9|fin9]. }
  apply (TAC _ _ [0;0;0;1;0;0;0;0;0]); [reflexivity|all9|fin9].
Qed.

(* a method on D2Q9 that relaxes x^2 and y^2 with one rate and x y with another meets the conditions of C68_stress_of_populations (wb = wn) *)
Definition squares_polys : list poly :=
  [[(1, [0; 0]%nat)]; [(1, [1; 0]%nat)]; [(1, [0; 1]%nat)]; [(1, [2; 0]%nat)]; [(1, [0; 2]%nat)]; [(1, [1; 1]%nat)]; [(1, [2; 1]%nat)]; [(1, [1; 2]%nat)]; [(1, [2; 2]%nat)]].
Definition squares_matrix : list (list Z) :=
  [[1;1;1;1;1;1;1;1;1]; [0;0;0;-1;1;-1;1;-1;1]; [0;1;-1;0;0;1;1;-1;-1]; [0;0;0;1;1;1;1;1;1]; [0;1;1;0;0;1;1;1;1]; [0;0;0;0;0;-1;1;1;-1];
   [0;0;0;0;0;1;1;-1;-1]; [0;0;0;0;0;-1;1;-1;1]; [0;0;0;0;0;1;1;1;1]]%Z.
Lemma squares_matrix_ok : moment_matrix squares_polys D2Q9_walberla (rzero 2) = q2r (map (map inject_Z) squares_matrix).
Proof.
  unfold moment_matrix, q2r, squares_polys, squares_matrix, D2Q9_walberla. cbn [map]. unfold peval, vecR, rsub, rzero, Q2R, inject_Z. cbn.
  repeat (apply f_equal2; [repeat (apply f_equal2; [lra|]); reflexivity|]). reflexivity.
Qed.
Example C68_squares_method : forall wc wm wn wh, exists Minv,
  let rates := [wc; wc; wc; wn; wn; wm; wh; wh; wh] in let S := D2Q9_walberla in let ps := squares_polys in
  is_inverse 9 (moment_matrix ps S (rzero 2)) Minv /\ relaxes_with S ps rates wc (fun _ => 1) /\
  (forall a, (a < 2)%nat -> relaxes_with S ps rates wc (fun c => comp c a)) /\
  (forall a b, (a < 2)%nat -> (b < 2)%nat -> a <> b -> relaxes_with S ps rates wm (fun c => comp c a * comp c b)) /\
  (forall a b, (a < 2)%nat -> (b < 2)%nat -> relaxes_with S ps rates wn (fun c => comp c a ^ 2 - comp c b ^ 2)) /\
  relaxes_with S ps rates wn (fun c => rsum (map (fun a => comp c a ^ 2) (seq 0 2))).
Proof.
  intros wc wm wn wh. exists (q2r (qinv (map (map inject_Z) squares_matrix))). cbv zeta. split; [rewrite squares_matrix_ok; apply qinverse_check_R; vm_compute; reflexivity|].
  assert (TAC : forall (g : vec -> R) w ks, length ks = 9%nat ->
    (forall c, In c D2Q9_walberla -> g c = rsum (map (fun kp => fst kp * peval (snd kp) (vecR c)) (combine ks squares_polys))) ->
    (forall i, (i < 9)%nat -> nth i ks 0 <> 0 -> nth i [wc; wc; wc; wn; wn; wm; wh; wh; wh] 0 = w) -> relaxes_with D2Q9_walberla squares_polys [wc; wc; wc; wn; wn; wm; wh; wh; wh] w g).
  { intros g w ks L H1 H2. exists ks. split; [exact L|]. split; [exact H1|exact H2]. }
  assert (B2 : forall a, (a < 2)%nat -> a = 0%nat \/ a = 1%nat) by (intros; lia).
  split; [apply (TAC _ _ [1;0;0;0;0;0;0;0;0]); [reflexivity|all9|fin9]|].
  split. { intros a Ha. destruct (B2 a Ha) as [-> | ->]; [apply (TAC _ _ [0;1;0;0;0;0;0;0;0])|apply (TAC _ _ [0;0;1;0;0;0;0;0;0])]; [reflexivity|all9|fin9|reflexivity|all9|fin9]. }
  split. { intros a b Ha Hb N. apply (TAC _ _ [0;0;0;0;0;1;0;0;0]); [reflexivity| |fin9]. destruct (B2 a Ha) as [-> | ->], (B2 b Hb) as [-> | ->]; try congruence; all9. }
  split. { intros a b Ha Hb. destruct (B2 a Ha) as [-> | ->], (B2 b Hb) as [-> | ->].
    - apply (TAC _ _ [0;0;0;0;0;0;0;0;0]); [reflexivity|all9|fin9].
    - apply (TAC _ _ [0;0;0;1;-1;0;0;0;0]); [reflexivity|all9|fin9].
    - apply (TAC _ _ [0;0;0;-1;1;0;0;0;0]); [reflexivity|all9|fin9].
    - apply (TAC _ _ [0;0;0;0;0;0;0;0;0]); [reflexivity|all9|fin9]. }
  apply (TAC _ _ [0;0;0;1;1;0;0;0;0]); [reflexivity|all9|fin9].
Qed.
