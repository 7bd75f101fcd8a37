(* C60, continued: cumulant collisions turn with the populations. *)
From Coq Require Import String List ZArith QArith Qreals Bool Arith Reals Lra Lia.
From Verif Require Import StencilModel StencilSpec StencilProofs StencilProofs2 AccessModel AccessProofs StreamModel StreamSpec StreamProofs StreamProofs2 GridModel GridProofs RealLib LinLib TransSpec TransModel TransProofs MomModel EqModel EqSpec CumModel CollModel CollSpec CollProofs CollProofs5 PropsTrans PropsColl SymSpec SymProofs SymProofs2 SymProofs3 SymProofs4 SymProofs5 SymProofs6 SymProofs7 PropsSym.
Import ListNotations.
Local Open Scope R_scope.

(* one collision with polynomial cumulants ps, made of the monomials cexps, and central moments cms: both sets of monomials are kept by the turn; every symmetric force model that
   cumulant methods offer *)
Theorem C60_cumulant_collision : forall name ord S ws cexps cms ps P Minv Pinv Pcms Pcinv Mpinv zc dev compr eqC fwd bwd d force w f f',
  method_setup name ord S ws cms (map mono_poly cms) Pcms Minv Pcinv Mpinv -> length cms = sizeQ S ->
  NoDup cexps -> length cexps = sizeQ S -> (forall e, In e cexps -> length e = dimD S) ->
  Forall (fun p : poly => NoDup (map snd p)) ps -> mono_to_poly cexps ps = Ok P -> is_inverse (length cexps) P Pinv ->
  (forall e, In e cms -> In (turn_exp w e) cms) -> (forall e, In e cexps -> In (turn_exp w e) cexps) ->
  (forall u, length u = dimD S -> central_transform S cms (map mono_poly cms) Pcms Minv Pcinv Mpinv (background S ws zc false) u (fwd u) (bwd u)) ->
  symmetric_equilibrium w (dimD S) eqC -> symmetric_rates w ps d ->
  (forall fm F, force = Some (fm, F) -> In fm [Simple; Luo; Guo; He; CentralMoment] /\ length F = dimD S /\
    (fm = CentralMoment -> exists rest, cms = zero_tuple (dimD S) :: map (unit_tuple (dimD S)) (seq 0 (dimD S)) ++ rest)) ->
  zc && dev = false -> 0 < pdf_density zc f -> turned w S f f' ->
  exists g g', cumulant_collision (dimD S) S ps zc dev compr (map Q2R ws) cexps cms P Pinv Minv eqC fwd bwd d force f = Ok g /\
    cumulant_collision (dimD S) S ps zc dev compr (map Q2R ws) cexps cms P Pinv Minv eqC fwd bwd d (turn_force w force) f' = Ok g' /\ turned w S g g'.
Proof.
  intros name ord S ws cexps cms ps P Minv Pinv Pcms Pcinv Mpinv zc dev compr eqC fwd bwd d force w f f' HS Lc Ne Le De Nps HP HPi Cc Ce HT He (Ld & a & Ha) HF Hz _ Ht.
  destruct (setup_turns _ _ _ _ _ _ _ _ _ _ zc false w HS) as (T1 & T2 & T3 & T4 & T5 & T6). pose proof HS as [H1 H2 H3 H4 H5 H6 H7]. destruct H3 as [Wst Wq Wf Wd We Wp WP].
  assert (Lps : length ps = length S). { destruct (mono_to_poly_spec cexps ps P (fun _ => 0) Ne Nps HP) as [[L _] _]. destruct HPi as ([L' _] & _). unfold sizeQ in *. congruence. }
  rewrite Le in HPi. rewrite Forall_forall in Wd.
  apply (cumulant_turned (dimD S) S ps w cexps cms P Pinv Minv Pcms Pcinv) with (a := a) (bg := background S ws zc false); auto.
  - rewrite map_length, Lc. exact H5.
  - intros k q E. now apply (Ha k q E).
  - now rewrite Ld.
  - intros k l Hk Hl. destruct (nth_error ps k) as [q|] eqn:E; [|apply nth_error_None in E; lia]. apply (Ha k q E). lia.
  - intros u Hu. apply (central_transform_ok name ord S ws cms (map mono_poly cms) Pcms Minv Pcinv Mpinv); auto. apply T6.
Qed.
Print Assumptions C60_cumulant_collision.

(* the cumulants of the continuous Maxwellian turn with the velocity *)
Theorem C60_cumulant_equilibrium : forall w D cs2, symmetric_equilibrium w D (fun rho u => maxwellian_cumulant D rho u cs2).
Proof. exact maxwellian_cumulant_symmetric. Qed.
Print Assumptions C60_cumulant_equilibrium.

(* the collisions of a whole simulation, with rates and forces which may differ from cell to cell and step to step: C60_simulation and C60_symmetric_flow apply to them *)
Theorem C60_cumulant_collisions : forall (L L' : lattice) name ord S ws cexps cms ps P Minv Pinv Pcms Pcinv Mpinv zc dev compr eqC fwd bwd w
  (sigma : cell L -> cell L') (fluid : cell L -> bool) d d' force force' C C',
  method_setup name ord S ws cms (map mono_poly cms) Pcms Minv Pcinv Mpinv -> length cms = sizeQ S ->
  NoDup cexps -> length cexps = sizeQ S -> (forall e, In e cexps -> length e = dimD S) ->
  Forall (fun p : poly => NoDup (map snd p)) ps -> mono_to_poly cexps ps = Ok P -> is_inverse (length cexps) P Pinv ->
  (forall e, In e cms -> In (turn_exp w e) cms) -> (forall e, In e cexps -> In (turn_exp w e) cexps) ->
  (forall u, length u = dimD S -> central_transform S cms (map mono_poly cms) Pcms Minv Pcinv Mpinv (background S ws zc false) u (fwd u) (bwd u)) ->
  symmetric_equilibrium w (dimD S) eqC -> zc && dev = false ->
  (forall n x, symmetric_rates w ps (d n x) /\ d' n (sigma x) = d n x) ->
  (forall n x, force' n (sigma x) = turn_force w (force n x) /\ forall fm F, force n x = Some (fm, F) -> In fm [Simple; Luo; Guo; He; CentralMoment] /\ length F = dimD S /\
    (fm = CentralMoment -> exists rest, cms = zero_tuple (dimD S) :: map (unit_tuple (dimD S)) (seq 0 (dimD S)) ++ rest)) ->
  (forall n x f, length f = length S -> 0 < pdf_density zc f -> cumulant_collision (dimD S) S ps zc dev compr (map Q2R ws) cexps cms P Pinv Minv eqC fwd bwd (d n x) (force n x) f = Ok (C n x f)) ->
  (forall n x f, length f = length S -> 0 < pdf_density zc f -> cumulant_collision (dimD S) S ps zc dev compr (map Q2R ws) cexps cms P Pinv Minv eqC fwd bwd (d' n x) (force' n x) f = Ok (C' n x f)) ->
  turned_collisions w S sigma fluid (fun f => 0 < pdf_density zc f) C C'.
Proof.
  intros L L' name ord S ws cexps cms ps P Minv Pinv Pcms Pcinv Mpinv zc dev compr eqC fwd bwd w sigma fluid d d' force force' C C' HS Lc Ne Le De Nps HP HPi Cc Ce HT He Hz Hd Hf HC HC' n x f f' Hx Hok Ht.
  destruct (setup_turns _ _ _ _ _ _ _ _ _ _ zc false w HS) as (T1 & T2 & _). pose proof (pdf_density_turned (dimD S) S w T1 T2 zc f f' Ht) as E. destruct (Hd n x) as [Hr Ed]. destruct (Hf n x) as [Ef HF]. pose proof Ht as (L1 & L2 & _).
  destruct (C60_cumulant_collision name ord S ws cexps cms ps P Minv Pinv Pcms Pcinv Mpinv zc dev compr eqC fwd bwd (d n x) (force n x) w f f' HS Lc Ne Le De Nps HP HPi Cc Ce HT He Hr HF Hz Hok Ht) as (g & g' & E1 & E2 & H).
  rewrite HC in E1 by auto. rewrite <- Ed, <- Ef, HC' in E2 by (auto; now rewrite E). congruence.
Qed.
Print Assumptions C60_cumulant_collisions.

(* non-vacuity: monomial cumulants on D2Q9 with one rate per order, the Maxwellian, a central moment force along the first axis, and any populations of positive density *)
Definition ex60c_d : list R := map (fun e => 1 + / INR (3 + nsum e)) exps_D2Q9.
Example C60_cumulant_example : forall f f', turned [Exchange 0; Reflect 0] D2Q9_walberla f f' -> 0 < pdf_density false f ->
  exists ws fwd bwd P Pinv Minv g g', get_weights D2Q9_walberla = Ok ws /\
    let step F := cumulant_collision 2 D2Q9_walberla (map mono_poly exps_D2Q9) false false true (map Q2R ws) exps_D2Q9 exps_D2Q9 P Pinv Minv (fun rho u => maxwellian_cumulant 2 rho u (1 / 3)) fwd bwd ex60c_d (Some (CentralMoment, F)) in
    step [1 / 100; 0] f = Ok g /\ step (turnR [Exchange 0; Reflect 0] [1 / 100; 0]) f' = Ok g' /\ turned [Exchange 0; Reflect 0] D2Q9_walberla g g'.
Proof.
  intros f f' Ht Hr. destruct method_setup_D2Q9 as (ws & Minv & P & Pinv & Mpinv & HS & Hdc & Hrest). pose proof HS as [Hpre Hwt [Wst Wq Wf Wd We Wp WP] H4 H5 H6 H7].
  assert (Hc : forall e, In e exps_D2Q9 -> In (turn_exp [Exchange 0; Reflect 0] e) exps_D2Q9). { intros e He. cbn in He. repeat (destruct He as [<-|He]; [cbn; tauto|]). destruct He. }
  assert (Hrates : symmetric_rates [Exchange 0; Reflect 0] (map mono_poly exps_D2Q9) ex60c_d).
  { apply (C60_rates _ _ _ _ _ _ _ _ _ _ [Exchange 0; Reflect 0] nsum (fun c => 1 + / INR (3 + c)) ex60c_d HS Hc); auto.
    - intros e _. exact (proj1 (C60_classes _ e)).
    - intros p Hp. apply in_map_iff in Hp as (e & <- & _). discriminate.
    - intros k p t Ek Hin. rewrite nth_error_map in Ek. destruct (nth_error exps_D2Q9 k) as [e|] eqn:E; [|discriminate]. injection Ek as <-. destruct Hin as [<-|[]]. split.
      + unfold ex60c_d. now rewrite (nth_error_nth _ _ 0 (map_nth_error (fun e => 1 + / INR (3 + nsum e)) _ _ E)).
      + intros t' [<-|[]]. reflexivity. }
  pose proof (fun u (_ : length u = 2%nat) => central_by_binomial D2Q9_walberla exps_D2Q9 (map mono_poly exps_D2Q9) P Minv Pinv Mpinv (background D2Q9_walberla ws false false) u Hdc) as HT.
  set (b := map (central_moment (background D2Q9_walberla ws false false) D2Q9_walberla (rzero 2)) exps_D2Q9).
  destruct (C60_cumulant_collision _ _ _ _ exps_D2Q9 _ (map mono_poly exps_D2Q9) P _ Pinv _ _ _ false false true (fun rho u => maxwellian_cumulant 2 rho u (1 / 3)) (fun u => binomial_forward D2Q9_walberla u exps_D2Q9 P b) (fun u => binomial_backward u exps_D2Q9 Minv Pinv b) ex60c_d (Some (CentralMoment, [1 / 100; 0])) [Exchange 0; Reflect 0] f f' HS) as (g & g' & E1 & E2 & E3); auto.
  - intros e He. rewrite Forall_forall in Wd. now apply Wd.
  - apply C60_cumulant_equilibrium.
  - intros fm F E. injection E as <- <-. split; [cbn; tauto|]. split; [reflexivity|]. intros _. exact Hrest.
  - exists ws, (fun u => binomial_forward D2Q9_walberla u exps_D2Q9 P b), (fun u => binomial_backward u exps_D2Q9 Minv Pinv b), P, Pinv, Minv, g, g'. split; [exact Hwt|]. cbv zeta. split; [exact E1|]. split; [exact E2|exact E3].
Qed.
