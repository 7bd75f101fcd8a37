(* C52, continued: cumulant collisions with prescribed density and velocity; the velocity setter under a force. *)
From Coq Require Import String List ZArith Bool Arith QArith Qreals Reals Lra Lia.
From Verif Require Import StencilModel RealLib LinLib TransSpec TransModel MomModel EqModel EqSpec CumModel CumProofs CumProofs4 CollSpec CollModel CollProofs CollProofs2 CollProofs3 PropsTrans PropsColl MacroModel
  IniModel IniSpec IniProofs PropsIni TrackModel TrackSpec TrackProofs PropsTrack CinModel CinSpec CinProofs CinProofs2.
Import ListNotations.
Local Open Scope R_scope.

(* cumulants: with rate x of the zeroth cumulant the mass becomes rho^(1-x) r^x; the velocity moves towards the given one with the rate of the first cumulants *)
Theorem C52_prescribed_cumulant : forall name ord S ws cexps cms ps P Minv Pinv Pcms Pcinv Mpinv zc dev compr eqC fwd bwd d f rho_in v,
  method_setup name ord S ws cms (map mono_poly cms) Pcms Minv Pcinv Mpinv -> length cms = sizeQ S ->
  NoDup cexps -> Forall (fun p : poly => NoDup (map snd p)) ps -> mono_to_poly cexps ps = Ok P -> is_inverse (length cexps) P Pinv ->
  has_conserved_modes (dimD S) ps -> hydro_cumulants (dimD S) eqC ->
  (forall u, length u = dimD S -> central_transform S cms (map mono_poly cms) Pcms Minv Pcinv Mpinv (background S ws zc false) u (fwd u) (bwd u)) ->
  length d = length cexps -> length f = sizeQ S -> zc && dev = false -> (dimD S <= length v)%nat ->
  let rho := mass zc S f in
  let r := match rho_in with Some r => r | None => rho end in
  0 < rho -> 0 < r ->
  exists f', cumulant_input_collision (dimD S) S ps zc dev compr (map Q2R ws) cexps cms P Pinv Minv eqC fwd bwd d None rho_in (Some v) f = Ok f' /\ length f' = sizeQ S /\
    (rho_in = None -> mass zc S f' = rho) /\
    (forall i, nth_error ps i = Some [(1, zero_exponents (dimD S))] -> mass zc S f' = Rpower rho (1 - nth i d 0) * Rpower r (nth i d 0)) /\
    (forall i a, (a < dimD S)%nat -> nth_error ps i = Some [(1, unit_exponents (dimD S) a)] ->
       momentum f' S a / mass zc S f' = momentum f S a / rho + nth i d 0 * (nth a v 0 - momentum f S a / rho)).
Proof.
  intros name ord S ws cexps cms ps P Minv Pinv Pcms Pcinv Mpinv zc dev compr eqC fwd bwd d f rho_in v HS Lc Hne Hnp HP HPi Hmodes He HT Hd Hf Hz Hv rho r Hrho Hr.
  destruct (cin_step name ord S ws cexps cms ps P Minv Pinv Pcms Pcinv Mpinv zc dev compr eqC fwd bwd d f rho_in v None) as (f' & E1 & E2 & E3 & E4); auto; try discriminate.
  fold rho in E3, E4. fold r in E3. destruct (has_zero (dimD S) ps Hmodes) as [j Hj].
  exists f'. split; [exact E1|]. split; [exact E2|]. split; [intros E; rewrite (E3 j Hj); unfold r; rewrite E; now apply geo_same|].
  split; [intros i Hi; rewrite (E3 i Hi); now apply geo_split|]. intros i a Ha Hi. specialize (E4 i a Ha Hi). cbv zeta in E4. rewrite E4.
  assert (0 < mass zc S f') by (rewrite (E3 j Hj); apply Rmult_lt_0_compat; [exact Hrho|apply exp_pos]).
  unfold impulse. rewrite nth_rzero. fold rho. field. split; lra.
Qed.
Print Assumptions C52_prescribed_cumulant.

(* every polynomial cumulant, taken about the given velocity and scaled by the given density, relaxes on its own *)
Theorem C52_prescribed_cumulants_relax : forall name ord S ws cexps cms ps P Minv Pinv Pcms Pcinv Mpinv zc dev compr eqC fwd bwd d f rho_in v f',
  method_setup name ord S ws cms (map mono_poly cms) Pcms Minv Pcinv Mpinv -> length cms = sizeQ S ->
  NoDup cexps -> Forall (fun p : poly => NoDup (map snd p)) ps -> mono_to_poly cexps ps = Ok P -> is_inverse (length cexps) P Pinv ->
  (forall u, length u = dimD S -> central_transform S cms (map mono_poly cms) Pcms Minv Pcinv Mpinv (background S ws zc false) u (fwd u) (bwd u)) ->
  length d = length cexps -> length f = sizeQ S -> length f' = sizeQ S -> zc && dev = false -> (dimD S <= length v)%nat ->
  down_closed cexps -> Forall (fun e => length e = dimD S) cexps -> incl cexps cms ->
  0 < mass zc S f -> 0 < match rho_in with Some r => r | None => mass zc S f end ->
  cumulant_input_collision (dimD S) S ps zc dev compr (map Q2R ws) cexps cms P Pinv Minv eqC fwd bwd d None rho_in (Some v) f = Ok f' ->
  let r := match rho_in with Some r => r | None => mass zc S f end in
  let C g := cumulant_forward (dimD S) (firstn (dimD S) v) r cexps P (central_moment (radd g (background S ws zc false)) S (firstn (dimD S) v)) in
  C f' = radd (C f) (rmul d (rsub (equilibrium_values ps (eqC r (firstn (dimD S) v))) (C f))).
Proof. intros. eapply cin_relax; eauto. Qed.
Print Assumptions C52_prescribed_cumulants_relax.

(* refuted for cumulants: "the density moves linearly to the given one, as with moments".  It always stays behind. *)
Theorem C52_cumulant_density_refuted : forall name ord S ws cexps cms ps P Minv Pinv Pcms Pcinv Mpinv zc dev compr eqC fwd bwd d f r v i f',
  method_setup name ord S ws cms (map mono_poly cms) Pcms Minv Pcinv Mpinv -> length cms = sizeQ S ->
  NoDup cexps -> Forall (fun p : poly => NoDup (map snd p)) ps -> mono_to_poly cexps ps = Ok P -> is_inverse (length cexps) P Pinv ->
  has_conserved_modes (dimD S) ps -> hydro_cumulants (dimD S) eqC ->
  (forall u, length u = dimD S -> central_transform S cms (map mono_poly cms) Pcms Minv Pcinv Mpinv (background S ws zc false) u (fwd u) (bwd u)) ->
  length d = length cexps -> length f = sizeQ S -> zc && dev = false -> (dimD S <= length v)%nat ->
  nth_error ps i = Some [(1, zero_exponents (dimD S))] -> 0 < nth i d 0 < 1 -> 0 < mass zc S f -> 0 < r -> r <> mass zc S f ->
  cumulant_input_collision (dimD S) S ps zc dev compr (map Q2R ws) cexps cms P Pinv Minv eqC fwd bwd d None (Some r) (Some v) f = Ok f' ->
  mass zc S f' < mass zc S f + nth i d 0 * (r - mass zc S f).
Proof.
  intros name ord S ws cexps cms ps P Minv Pinv Pcms Pcinv Mpinv zc dev compr eqC fwd bwd d f r v i f' HS Lc Hne Hnp HP HPi Hmodes He HT Hd Hf Hz Hv Hi Hx Hrho Hr Hn E.
  destruct (cin_step name ord S ws cexps cms ps P Minv Pinv Pcms Pcinv Mpinv zc dev compr eqC fwd bwd d f (Some r) v None) as (g & E1 & _ & E3 & _); auto; try discriminate.
  rewrite E in E1. injection E1 as <-. rewrite (E3 i Hi). now apply geo_mean.
Qed.
Print Assumptions C52_cumulant_density_refuted.

(* the velocity setter of cumulant methods, without and with a force *)
Theorem C52_velocity_setter_cumulant : forall name ord S ws cexps cms ps P Minv Pinv Pcms Pcinv Mpinv zc dev eqC fwd bwd d f rate v,
  method_setup name ord S ws cms (map mono_poly cms) Pcms Minv Pcinv Mpinv -> length cms = sizeQ S ->
  NoDup cexps -> Forall (fun p : poly => NoDup (map snd p)) ps -> mono_to_poly cexps ps = Ok P -> is_inverse (length cexps) P Pinv ->
  has_conserved_modes (dimD S) ps -> hydro_cumulants (dimD S) eqC ->
  (forall u, length u = dimD S -> central_transform S cms (map mono_poly cms) Pcms Minv Pcinv Mpinv (background S ws zc false) u (fwd u) (bwd u)) ->
  length d = length cexps -> length f = sizeQ S -> zc && dev = false -> (dimD S <= length v)%nat -> 0 < mass zc S f ->
  exists f', velocity_setter_cumulant (dimD S) S ps zc dev true (map Q2R ws) cexps cms P Pinv Minv eqC fwd bwd d None rate v f = Ok f' /\ length f' = sizeQ S /\ mass zc S f' = mass zc S f /\
    forall a, (a < dimD S)%nat -> momentum f' S a = momentum f S a + rate * (mass zc S f * nth a v 0 - momentum f S a).
Proof.
  intros name ord S ws cexps cms ps P Minv Pinv Pcms Pcinv Mpinv zc dev eqC fwd bwd d f rate v HS Lc Hne Hnp HP HPi Hmodes He HT Hd Hf Hz Hv Hrho.
  destruct (cin_setter name ord S ws cexps cms ps P Minv Pinv Pcms Pcinv Mpinv zc dev eqC fwd bwd d f rate v None) as (f' & E1 & E2 & E3 & E4); auto; try discriminate.
  exists f'. repeat split; auto. intros a Ha. specialize (E4 a Ha). cbv zeta in E4. unfold impulse in E4. rewrite !nth_rzero in E4. lra.
Qed.
Print Assumptions C52_velocity_setter_cumulant.
Theorem C52_velocity_setter_cumulant_forced : forall name ord S ws cexps cms ps P Minv Pinv Pcms Pcinv Mpinv zc dev eqC fwd bwd d f rate v fm F,
  method_setup name ord S ws cms (map mono_poly cms) Pcms Minv Pcinv Mpinv -> length cms = sizeQ S ->
  NoDup cexps -> Forall (fun p : poly => NoDup (map snd p)) ps -> mono_to_poly cexps ps = Ok P -> is_inverse (length cexps) P Pinv ->
  has_conserved_modes (dimD S) ps -> hydro_cumulants (dimD S) eqC ->
  (forall u, length u = dimD S -> central_transform S cms (map mono_poly cms) Pcms Minv Pcinv Mpinv (background S ws zc false) u (fwd u) (bwd u)) ->
  length d = length cexps -> length f = sizeQ S -> zc && dev = false -> (dimD S <= length v)%nat -> 0 < mass zc S f ->
  In fm [Simple; Luo; Guo; He; CentralMoment] -> length F = dimD S -> (fm = CentralMoment -> exists rest, cms = zero_tuple (dimD S) :: map (unit_tuple (dimD S)) (seq 0 (dimD S)) ++ rest) ->
  exists f', velocity_setter_cumulant (dimD S) S ps zc dev true (map Q2R ws) cexps cms P Pinv Minv eqC fwd bwd d (Some (fm, F)) rate v f = Ok f' /\ length f' = sizeQ S /\ mass zc S f' = mass zc S f /\
    forall a, (a < dimD S)%nat -> let p g := momentum g S a + nth a F 0 / 2 in p f' = p f + rate * (mass zc S f * nth a v 0 - p f) + direct_share fm rate * nth a F 0.
Proof.
  intros name ord S ws cexps cms ps P Minv Pinv Pcms Pcinv Mpinv zc dev eqC fwd bwd d f rate v fm F HS Lc Hne Hnp HP HPi Hmodes He HT Hd Hf Hz Hv Hrho Hfm HF Hcm.
  destruct (cin_setter name ord S ws cexps cms ps P Minv Pinv Pcms Pcinv Mpinv zc dev eqC fwd bwd d f rate v (Some (fm, F))) as (f' & E1 & E2 & E3 & E4); auto.
  - intros ? ? [= <- <-]. auto.
  - exists f'. repeat split; auto.
Qed.
Print Assumptions C52_velocity_setter_cumulant_forced.
(* methods with moments *)
Theorem C52_velocity_setter_forced_raw : forall name ord S ws exps ps P Minv Pinv Mpinv zc dev compr eqm fwd bwd d f rate v fm F,
  method_setup name ord S ws exps ps P Minv Pinv Mpinv -> hydro_moments (dimD S) compr dev eqm ->
  raw_transform S exps ps P Minv Pinv Mpinv (background S ws zc dev) fwd bwd ->
  length d = sizeQ S -> length f = sizeQ S -> (dev = true -> zc = true) -> (dimD S <= length v)%nat -> fm <> CentralMoment -> length F = dimD S -> carrier compr (mass zc S f) <> 0 ->
  exists f', velocity_setter_forced_raw (dimD S) S ps zc compr eqm (map Q2R ws) (moment_matrix ps S (rzero (dimD S))) fwd bwd d fm F rate v f = Ok f' /\ length f' = sizeQ S /\ mass zc S f' = mass zc S f /\
    forall a, (a < dimD S)%nat -> let p g := momentum g S a + nth a F 0 / 2 in p f' = p f + rate * (carrier compr (mass zc S f) * nth a v 0 - p f) + direct_share fm rate * nth a F 0.
Proof. intros. eapply raw_setter; eauto. Qed.
Print Assumptions C52_velocity_setter_forced_raw.
Theorem C52_velocity_setter_forced_central : forall name ord S ws exps ps P Minv Pinv Mpinv zc dev compr eqc fwd bwd d f rate v fm F,
  method_setup name ord S ws exps ps P Minv Pinv Mpinv -> hydro_central_moments (dimD S) compr dev eqc ->
  (forall u, length u = dimD S -> central_transform S exps ps P Minv Pinv Mpinv (background S ws zc dev) u (fwd u) (bwd u)) ->
  length d = sizeQ S -> length f = sizeQ S -> (dev = true -> zc = true) -> (dimD S <= length v)%nat -> fm <> CentralMoment -> length F = dimD S -> carrier compr (mass zc S f) <> 0 ->
  exists f', velocity_setter_forced_central (dimD S) S ps zc compr eqc (map Q2R ws) (moment_matrix ps S (rzero (dimD S))) Mpinv fwd bwd d fm F rate v f = Ok f' /\ length f' = sizeQ S /\ mass zc S f' = mass zc S f /\
    forall a, (a < dimD S)%nat -> let p g := momentum g S a + nth a F 0 / 2 in p f' = p f + rate * (carrier compr (mass zc S f) * nth a v 0 - p f) + direct_share fm rate * nth a F 0.
Proof. intros. eapply central_setter'; eauto. Qed.
Print Assumptions C52_velocity_setter_forced_central.

(* repeated in a cell: the velocity (with half of the force, as the getter computes it) settles geometrically, but not at the prescribed one *)
Theorem C52_forced_setter_settles_raw : forall name ord S ws exps ps P Minv Pinv Mpinv zc dev compr eqm fwd bwd d f rate v fm F,
  method_setup name ord S ws exps ps P Minv Pinv Mpinv -> hydro_moments (dimD S) compr dev eqm ->
  raw_transform S exps ps P Minv Pinv Mpinv (background S ws zc dev) fwd bwd ->
  length d = sizeQ S -> length f = sizeQ S -> (dev = true -> zc = true) -> (dimD S <= length v)%nat -> fm <> CentralMoment -> length F = dimD S -> carrier compr (mass zc S f) <> 0 -> rate <> 0 ->
  settles zc S compr F rate (settled_velocity zc S compr fm F rate v f) (dimD S)
    (velocity_setter_forced_raw (dimD S) S ps zc compr eqm (map Q2R ws) (moment_matrix ps S (rzero (dimD S))) fwd bwd d fm F rate v) f.
Proof.
  intros name ord S ws exps ps P Minv Pinv Mpinv zc dev compr eqm fwd bwd d f rate v fm F HS He HT Hd Hf Hdz Hv Hfm HF Hc Hr. apply settle; auto.
  intros g Lg Mg. rewrite <- Mg, Hf in *. eapply raw_setter; eauto.
Qed.
Print Assumptions C52_forced_setter_settles_raw.
Theorem C52_forced_setter_settles_central : forall name ord S ws exps ps P Minv Pinv Mpinv zc dev compr eqc fwd bwd d f rate v fm F,
  method_setup name ord S ws exps ps P Minv Pinv Mpinv -> hydro_central_moments (dimD S) compr dev eqc ->
  (forall u, length u = dimD S -> central_transform S exps ps P Minv Pinv Mpinv (background S ws zc dev) u (fwd u) (bwd u)) ->
  length d = sizeQ S -> length f = sizeQ S -> (dev = true -> zc = true) -> (dimD S <= length v)%nat -> fm <> CentralMoment -> length F = dimD S -> carrier compr (mass zc S f) <> 0 -> rate <> 0 ->
  settles zc S compr F rate (settled_velocity zc S compr fm F rate v f) (dimD S)
    (velocity_setter_forced_central (dimD S) S ps zc compr eqc (map Q2R ws) (moment_matrix ps S (rzero (dimD S))) Mpinv fwd bwd d fm F rate v) f.
Proof.
  intros name ord S ws exps ps P Minv Pinv Mpinv zc dev compr eqc fwd bwd d f rate v fm F HS He HT Hd Hf Hdz Hv Hfm HF Hc Hr. apply settle; auto.
  intros g Lg Mg. rewrite <- Mg, Hf in *. eapply central_setter'; eauto.
Qed.
Print Assumptions C52_forced_setter_settles_central.
Theorem C52_forced_setter_settles_cumulant : forall name ord S ws cexps cms ps P Minv Pinv Pcms Pcinv Mpinv zc dev eqC fwd bwd d f rate v fm F,
  method_setup name ord S ws cms (map mono_poly cms) Pcms Minv Pcinv Mpinv -> length cms = sizeQ S ->
  NoDup cexps -> Forall (fun p : poly => NoDup (map snd p)) ps -> mono_to_poly cexps ps = Ok P -> is_inverse (length cexps) P Pinv ->
  has_conserved_modes (dimD S) ps -> hydro_cumulants (dimD S) eqC ->
  (forall u, length u = dimD S -> central_transform S cms (map mono_poly cms) Pcms Minv Pcinv Mpinv (background S ws zc false) u (fwd u) (bwd u)) ->
  length d = length cexps -> length f = sizeQ S -> zc && dev = false -> (dimD S <= length v)%nat -> 0 < mass zc S f ->
  In fm [Simple; Luo; Guo; He; CentralMoment] -> length F = dimD S -> (fm = CentralMoment -> exists rest, cms = zero_tuple (dimD S) :: map (unit_tuple (dimD S)) (seq 0 (dimD S)) ++ rest) -> rate <> 0 ->
  settles zc S true F rate (settled_velocity zc S true fm F rate v f) (dimD S)
    (velocity_setter_cumulant (dimD S) S ps zc dev true (map Q2R ws) cexps cms P Pinv Minv eqC fwd bwd d (Some (fm, F)) rate v) f.
Proof.
  intros name ord S ws cexps cms ps P Minv Pinv Pcms Pcinv Mpinv zc dev eqC fwd bwd d f rate v fm F HS Lc Hne Hnp HP HPi Hmodes He HT Hd Hf Hz Hv Hrho Hfm HF Hcm Hr. apply settle; auto; [cbn; lra|].
  intros g Lg Mg. rewrite <- Mg, Hf in *. eapply C52_velocity_setter_cumulant_forced; eauto.
Qed.
Print Assumptions C52_forced_setter_settles_cumulant.
(* refuted: "the setter leads to the prescribed velocity".  With a force component that is not zero it stays away from it, whatever the rate *)
Theorem C52_forced_setter_refuted : forall name ord S ws exps ps P Minv Pinv Mpinv zc dev compr eqm fwd bwd d f rate v fm F a,
  method_setup name ord S ws exps ps P Minv Pinv Mpinv -> hydro_moments (dimD S) compr dev eqm ->
  raw_transform S exps ps P Minv Pinv Mpinv (background S ws zc dev) fwd bwd ->
  length d = sizeQ S -> length f = sizeQ S -> (dev = true -> zc = true) -> (dimD S <= length v)%nat -> fm <> CentralMoment -> length F = dimD S -> carrier compr (mass zc S f) <> 0 -> 0 < rate < 2 ->
  (a < dimD S)%nat -> nth a F 0 <> 0 ->
  stays_away zc S compr F v a (velocity_setter_forced_raw (dimD S) S ps zc compr eqm (map Q2R ws) (moment_matrix ps S (rzero (dimD S))) fwd bwd d fm F rate v) f.
Proof.
  intros name ord S ws exps ps P Minv Pinv Mpinv zc dev compr eqm fwd bwd d f rate v fm F a HS He HT Hd Hf Hdz Hv Hfm HF Hc Hr Ha HFa. apply (away zc S compr fm F v rate (dimD S)); auto; [lra|].
  intros g Lg Mg. rewrite <- Mg, Hf in *. eapply raw_setter; eauto.
Qed.
Print Assumptions C52_forced_setter_refuted.
Theorem C52_forced_setter_refuted_cumulant : forall name ord S ws cexps cms ps P Minv Pinv Pcms Pcinv Mpinv zc dev eqC fwd bwd d f rate v fm F a,
  method_setup name ord S ws cms (map mono_poly cms) Pcms Minv Pcinv Mpinv -> length cms = sizeQ S ->
  NoDup cexps -> Forall (fun p : poly => NoDup (map snd p)) ps -> mono_to_poly cexps ps = Ok P -> is_inverse (length cexps) P Pinv ->
  has_conserved_modes (dimD S) ps -> hydro_cumulants (dimD S) eqC ->
  (forall u, length u = dimD S -> central_transform S cms (map mono_poly cms) Pcms Minv Pcinv Mpinv (background S ws zc false) u (fwd u) (bwd u)) ->
  length d = length cexps -> length f = sizeQ S -> zc && dev = false -> (dimD S <= length v)%nat -> 0 < mass zc S f ->
  In fm [Simple; Luo; Guo; He; CentralMoment] -> length F = dimD S -> (fm = CentralMoment -> exists rest, cms = zero_tuple (dimD S) :: map (unit_tuple (dimD S)) (seq 0 (dimD S)) ++ rest) ->
  0 < rate < 2 -> (a < dimD S)%nat -> nth a F 0 <> 0 ->
  stays_away zc S true F v a (velocity_setter_cumulant (dimD S) S ps zc dev true (map Q2R ws) cexps cms P Pinv Minv eqC fwd bwd d (Some (fm, F)) rate v) f.
Proof.
  intros name ord S ws cexps cms ps P Minv Pinv Pcms Pcinv Mpinv zc dev eqC fwd bwd d f rate v fm F a HS Lc Hne Hnp HP HPi Hmodes He HT Hd Hf Hz Hv Hrho Hfm HF Hcm Hr Ha HFa.
  apply (away zc S true fm F v rate (dimD S)); auto; [lra|cbn; lra|].
  intros g Lg Mg. rewrite <- Mg, Hf in *. eapply C52_velocity_setter_cumulant_forced; eauto.
Qed.
Print Assumptions C52_forced_setter_refuted_cumulant.

(* non-vacuity: monomial cumulants on D2Q9, populations of density 2 at rest *)
Definition ex52_eq (rho : R) (u : list R) := maxwellian_cumulant 2 rho u (1 / 3).
Example C52_cumulant_example : exists ws fwd bwd P Pinv Minv g h, get_weights D2Q9_walberla = Ok ws /\
  (* density 8 given, all rates 1/2: the mass becomes 4 *)
  cumulant_input_collision 2 D2Q9_walberla (map mono_poly exps_D2Q9) false false true (map Q2R ws) exps_D2Q9 exps_D2Q9 P Pinv Minv ex52_eq fwd bwd (repeat (1 / 2) 9) None (Some 8) (Some [1 / 10; 0]) (repeat (2 / 9) 9) = Ok g /\
    mass false D2Q9_walberla g = 4 /\ momentum g D2Q9_walberla 0 = 2 / 10 /\
  (* velocity 1/10 prescribed, Guo force 1/10: with rate 1 the velocity is 1/8 *)
  velocity_setter_cumulant 2 D2Q9_walberla (map mono_poly exps_D2Q9) false false true (map Q2R ws) exps_D2Q9 exps_D2Q9 P Pinv Minv ex52_eq fwd bwd (repeat (1 / 2) 9) (Some (Guo, [1 / 10; 0])) 1 [1 / 10; 0] (repeat (2 / 9) 9) = Ok h /\
    flow_velocity false D2Q9_walberla true [1 / 10; 0] h 0 = 1 / 8.
Proof.
  destruct method_setup_D2Q9 as (ws & Minv & P & Pinv & Mpinv & HS & Hdc & Hrest). pose proof HS as [Hpre Hwt [Wst Wq Wf Wd We Wp WP] H4 H5 H6 H7].
  pose proof (fun u (_ : length u = 2%nat) => central_by_binomial D2Q9_walberla exps_D2Q9 (map mono_poly exps_D2Q9) P Minv Pinv Mpinv (background D2Q9_walberla ws false false) u Hdc) as HT.
  set (b := map (central_moment (background D2Q9_walberla ws false false) D2Q9_walberla (rzero 2)) exps_D2Q9) in *.
  assert (Hm : mass false D2Q9_walberla (repeat (2 / 9) 9) = 2) by (unfold mass, density, fsum; cbn; lra).
  assert (H0 : momentum (repeat (2 / 9) 9) D2Q9_walberla 0 = 0) by (unfold momentum, fsum, comp; cbn; lra).
  assert (HC : hydro_cumulants 2 ex52_eq) by exact (proj1 (proj2 (proj2 (C11_equilibria 2 true false (1 / 3))))).
  destruct (C52_prescribed_cumulant _ _ _ _ exps_D2Q9 _ (map mono_poly exps_D2Q9) P _ Pinv _ _ _ false false true ex52_eq (fun u => binomial_forward D2Q9_walberla u exps_D2Q9 P b) (fun u => binomial_backward u exps_D2Q9 Minv Pinv b)
    (repeat (1 / 2) 9) (repeat (2 / 9) 9) (Some 8) [1 / 10; 0] HS) as (g & E1 & _ & _ & E2 & E3); auto; try (rewrite Hm; lra); [lra|].
  destruct (C52_velocity_setter_cumulant_forced _ _ _ _ exps_D2Q9 _ (map mono_poly exps_D2Q9) P _ Pinv _ _ _ false false ex52_eq (fun u => binomial_forward D2Q9_walberla u exps_D2Q9 P b) (fun u => binomial_backward u exps_D2Q9 Minv Pinv b)
    (repeat (1 / 2) 9) (repeat (2 / 9) 9) 1 [1 / 10; 0] Guo [1 / 10; 0] HS) as (h & F1 & _ & F2 & F3); auto; try (rewrite Hm; lra); try discriminate; [cbn; tauto|].
  assert (M4 : mass false D2Q9_walberla g = 4).
  { rewrite (E2 0%nat eq_refl). change (nth 0 (repeat (1 / 2) 9) 0) with (1 / 2). rewrite Hm. replace (1 - 1 / 2) with (/ 2) by lra. replace (1 / 2) with (/ 2) by lra. rewrite !Rpower_sqrt by lra. rewrite <- sqrt_mult by lra.
    replace (2 * 8) with (4 * 4) by lra. apply sqrt_square. lra. }
  exists ws, (fun u => binomial_forward D2Q9_walberla u exps_D2Q9 P b), (fun u => binomial_backward u exps_D2Q9 Minv Pinv b), P, Pinv, Minv, g, h. split; [exact Hwt|]. split; [exact E1|]. split; [exact M4|]. split; [|split; [exact F1|]].
  - specialize (E3 1%nat 0%nat ltac:(cbn; lia) eq_refl). rewrite M4, Hm, H0 in E3. cbn [nth repeat] in E3. lra.
  - specialize (F3 0%nat ltac:(cbn; lia)). cbv zeta in F3. unfold flow_velocity. rewrite F3, F2, Hm, H0. cbn [carrier nth direct_share]. lra.
Qed.
