(* C60: rotations, reflections and translations of the lattice commute with the simulation. *)
From Coq Require Import String List ZArith QArith Qreals Bool Arith Reals Lra Lia.
From Verif Require Import StencilModel StencilSpec StencilProofs StencilProofs2 AccessModel AccessProofs StreamModel StreamSpec StreamProofs StreamProofs2 GridModel GridProofs RealLib LinLib TransSpec TransModel TransProofs MomModel EqModel EqSpec CollModel CollSpec CollProofs CollProofs5 BoundModel BoundSpec BoundProofs2 BoundProofs4 PropsTrans PropsColl ChanSpec SymSpec SymProofs SymProofs2 SymProofs3 SymProofs4 SymProofs5.
Import ListNotations.
Local Open Scope R_scope.

Lemma setup_turns name ord S ws exps ps P Minv Pinv Mpinv zc dev w : method_setup name ord S ws exps ps P Minv Pinv Mpinv ->
  symmetric_stencil (dimD S) S /\ (forall d d', In d S -> signed_permutation d d' -> In d' S) /\ length ps = length S /\
  (forall p t, In p ps -> In t p -> length (snd t) = dimD S) /\ turned w S (map Q2R ws) (map Q2R ws) /\ turned w S (background S ws zc dev) (background S ws zc dev).
Proof.
  intros HS. destruct (setup_facts _ _ _ _ _ _ _ _ _ _ HS) as (_ & _ & F3). destruct HS as [H1 H2 H3 H4 H5 H6 H7]. destruct (predefined_wf _ _ _ H1) as (W1 & _ & W3). split; [exact W1|]. split; [exact W3|]. split; [exact F3|]. split.
  { intros p t Hp Ht. destruct H3. rewrite Forall_forall in ms_dim. apply ms_dim. eapply mono_to_poly_terms; eauto. }
  pose proof (turned_weights _ _ W1 W3 w ws H2) as HW. split; [exact HW|]. unfold background. destruct (zc && negb dev); [exact HW|]. apply (turned_rzero (dimD S) S W1 W3).
Qed.

(* one collision: populations turned about the cell, with the force turned too, give turned populations *)
Theorem C60_raw_collision : forall name ord S ws exps ps P Minv Pinv Mpinv zc dev compr eqm fwd bwd d force w f f',
  method_setup name ord S ws exps ps P Minv Pinv Mpinv -> raw_transform S exps ps P Minv Pinv Mpinv (background S ws zc dev) fwd bwd ->
  symmetric_equilibrium w (dimD S) eqm -> symmetric_rates w ps d -> (forall fm F, force = Some (fm, F) -> fm <> CentralMoment /\ length F = dimD S) -> turned w S f f' ->
  exists g g', moment_collision (dimD S) S ps zc compr eqm (map Q2R ws) (moment_matrix ps S (rzero (dimD S))) fwd bwd d force f = Ok g /\
    moment_collision (dimD S) S ps zc compr eqm (map Q2R ws) (moment_matrix ps S (rzero (dimD S))) fwd bwd d (turn_force w force) f' = Ok g' /\ turned w S g g'.
Proof.
  intros name ord S ws exps ps P Minv Pinv Mpinv zc dev compr eqm fwd bwd d force w f f' HS HT He (Ld & a & Ha) Hf Ht. destruct (setup_turns _ _ _ _ _ _ _ _ _ _ zc dev w HS) as (T1 & T2 & T3 & T4 & T5 & T6). pose proof HS as [H1 H2 H3 H4 H5 H6 H7].
  apply (raw_turned (dimD S) S ps w T1 T2 T3 T4 a) with (Minv := Mpinv) (bg := background S ws zc dev); auto.
  - intros k q E. now apply (Ha k q E).
  - lia.
  - intros k l Hk Hl. destruct (nth_error ps k) as [q|] eqn:E; [|apply nth_error_None in E; lia]. apply (Ha k q E). lia.
  - intros fm F E. destruct (Hf fm F E) as [K1 K2]. split; [exact K1|]. split; [exact K2|]. intros ? u e Hu Hee. now apply he_turn.
  - apply (raw_transform_ok name ord S ws exps ps P Minv Pinv Mpinv); auto. apply T6.
Qed.
Print Assumptions C60_raw_collision.
Theorem C60_central_collision : forall name ord S ws exps ps P Minv Pinv Mpinv zc dev compr eqc fwd bwd d force w f f',
  method_setup name ord S ws exps ps P Minv Pinv Mpinv ->
  (forall u, length u = dimD S -> central_transform S exps ps P Minv Pinv Mpinv (background S ws zc dev) u (fwd u) (bwd u)) ->
  symmetric_equilibrium w (dimD S) eqc -> symmetric_rates w ps d -> (forall fm F, force = Some (fm, F) -> fm <> CentralMoment /\ length F = dimD S) -> turned w S f f' ->
  exists g g', central_collision (dimD S) S ps zc compr eqc (map Q2R ws) (moment_matrix ps S (rzero (dimD S))) Mpinv fwd bwd d force f = Ok g /\
    central_collision (dimD S) S ps zc compr eqc (map Q2R ws) (moment_matrix ps S (rzero (dimD S))) Mpinv fwd bwd d (turn_force w force) f' = Ok g' /\ turned w S g g'.
Proof.
  intros name ord S ws exps ps P Minv Pinv Mpinv zc dev compr eqc fwd bwd d force w f f' HS HT He (Ld & a & Ha) Hf Ht. destruct (setup_turns _ _ _ _ _ _ _ _ _ _ zc dev w HS) as (T1 & T2 & T3 & T4 & T5 & T6). pose proof HS as [H1 H2 H3 H4 H5 H6 H7].
  apply (central_turned (dimD S) S ps w T1 T2 T3 T4 a) with (bg := background S ws zc dev); auto.
  - intros k q E. now apply (Ha k q E).
  - lia.
  - intros k l Hk Hl. destruct (nth_error ps k) as [q|] eqn:E; [|apply nth_error_None in E; lia]. apply (Ha k q E). lia.
  - intros fm F E. destruct (Hf fm F E) as [K1 K2]. split; [exact K1|]. split; [exact K2|]. intros ? u e Hu Hee. now apply he_turn.
  - intros v Hv. apply (central_transform_ok name ord S ws exps ps P Minv Pinv Mpinv); auto. apply T6.
Qed.
Print Assumptions C60_central_collision.

(* the equilibria of the library: continuous Maxwellian and discrete equilibrium of any order, raw and central moments *)
Theorem C60_equilibria : forall w D compr dev cs2,
  symmetric_equilibrium w D (fun rho u => continuous_maxwellian_moment D compr dev rho u cs2) /\
  symmetric_equilibrium w D (fun rho u => central_from_raw u (continuous_maxwellian_moment D compr dev rho u cs2)) /\
  forall name ord S ws order, predefined_stencils name ord = Ok S -> get_weights S = Ok ws ->
    symmetric_equilibrium w (dimD S) (discrete_raw_moments S compr dev order) /\ symmetric_equilibrium w (dimD S) (discrete_central_moments S compr dev order).
Proof.
  intros w D compr dev cs2. split; [apply continuous_symmetric|]. split; [apply (central_from_raw_symmetric w D (fun rho u => continuous_maxwellian_moment D compr dev rho u cs2)), continuous_symmetric|].
  intros name ord S ws order H1 H2. destruct (predefined_wf _ _ _ H1) as (W1 & _ & W3). split; [eapply discrete_raw_symmetric|eapply discrete_central_symmetric]; eauto.
Qed.
Print Assumptions C60_equilibria.

(* which rates are symmetric: rates given by a class of the monomials which turns keep, if no polynomial mixes classes: one rate (one class), one rate for even and one for
   odd moments, one rate per order *)
Theorem C60_rates : forall name ord S ws exps ps P Minv Pinv Mpinv w (cls : list nat -> nat) (r : nat -> R) d,
  method_setup name ord S ws exps ps P Minv Pinv Mpinv -> (forall e, In e exps -> In (turn_exp w e) exps) -> (forall e, In e exps -> cls (turn_exp w e) = cls e) ->
  length d = length ps -> (forall p, In p ps -> p <> []) ->
  (forall k p t, nth_error ps k = Some p -> In t p -> nth k d 0 = r (cls (snd t)) /\ forall t', In t' p -> cls (snd t') = cls (snd t)) ->
  symmetric_rates w ps d.
Proof.
  intros name ord S ws exps ps P Minv Pinv Mpinv w cls r d HS Hcl Hc Ld Hne Hr. destruct (setup_facts _ _ _ _ _ _ _ _ _ _ HS) as (_ & _ & F3). destruct HS as [H1 H2 [Wst Wq Wf Wd We Wp WP] [[L4 _] _] H5 H6 H7].
  apply (class_rates w exps ps P Pinv) with (cls := cls) (r := r); auto; [now rewrite F3|]. rewrite F3. rewrite <- L4. unfold monomial_matrix. now rewrite map_length.
Qed.
Print Assumptions C60_rates.
Theorem C60_classes : forall w e, nsum (turn_exp w e) = nsum e /\ is_even_tuple (turn_exp w e) = is_even_tuple e.
Proof. intros w e. unfold is_even_tuple. now rewrite nsum_turn. Qed.
Print Assumptions C60_classes.

(* walls: bounce back, interpolated bounce back with the same wall distances, and moving walls with the velocity turned *)
Theorem C60_walls : forall (L L' : lattice) (S : stencil) name ord ws w (sigma : cell L -> cell L') (fluid : cell L -> bool) (B : cell L -> nat -> brule R) (B' : cell L' -> nat -> brule R),
  predefined_stencils name ord = Ok S -> dimD S = ldim L -> get_weights S = Ok ws -> turns_cells w sigma ->
  ((forall x i, B x i = no_slip S i) -> (forall x i, B' x i = no_slip S i) -> turned_walls w S sigma fluid B B') /\
  (forall zc compr force density adapt (vel : cell L -> nat -> list R), (forall fm F, force = Some (fm, F) -> length F = ldim L) -> (forall x i, length (vel x i) = ldim L) ->
    (forall x i, ubb S (map Q2R ws) zc compr force density adapt (vel x i) i = Ok (B x i)) ->
    (forall x i j, (i < length S)%nat -> (j < length S)%nat -> dir S j = turn w (dir S i) -> ubb S (map Q2R ws) zc compr (turn_force w force) density adapt (turnR w (vel x i)) j = Ok (B' (sigma x) j)) ->
    turned_walls w S sigma fluid B B') /\
  (forall inv (q : cell L -> nat -> R), inverse_dirs S = Ok inv -> (forall x i, is_link S fluid (x, i) -> fluid (shift x (vneg (dir S i))) = true) ->
    (forall x i, B x i = bouzidi S inv (q x i) i) ->
    (forall x i j, (i < length S)%nat -> (j < length S)%nat -> dir S j = turn w (dir S i) -> B' (sigma x) j = bouzidi S inv (q x i) j) -> turned_walls w S sigma fluid B B').
Proof.
  intros L L' S name ord ws w sigma fluid B B' H1 HD H2 Hs. destruct (predefined_wf _ _ _ H1) as (W1 & _ & W3). rewrite HD in W1. split; [|split].
  - intros. apply no_slip_turned; auto.
  - intros. eapply ubb_turned; eauto.
  - intros. eapply bouzidi_turned; eauto.
Qed.
Print Assumptions C60_walls.

(* every turn maps every grid, periodic or unbounded in each direction, onto the grid with the turned extents *)
Theorem C60_grids : forall w s, @turns_cells (grid s) (grid (turn_shape w s)) w (turn_cell w s) /\
  (forall x y, turn_cell w s x = turn_cell w s y -> x = y) /\ (forall y, exists x, turn_cell w s x = y).
Proof. intros w s. split; [apply turn_cell_turns|apply turn_cell_bijective]. Qed.
Print Assumptions C60_grids.
(* translations: the empty turn, moving the cells by a constant vector *)
Theorem C60_translations : forall (L : lattice) v, length v = ldim L -> turns_cells [] (fun x : cell L => shift x v).
Proof.
  intros L v Hv. split; [reflexivity|]. intros x v' Hv'. cbn [turn fold_right]. rewrite !shift_add by assumption. f_equal. unfold vadd. clear -v v'.
  revert v'; induction v as [|a v IH]; intros [|b v']; try reflexivity. cbn [combine map fst snd]. rewrite IH. f_equal. lia.
Qed.
Print Assumptions C60_translations.

(* the collisions of the library turn: raw and central moments; rates and forces may differ from cell to cell and step to step *)
Theorem C60_collisions : forall (L L' : lattice) name ord S ws exps ps P Minv Pinv Mpinv zc dev compr w (sigma : cell L -> cell L') (fluid : cell L -> bool) d d' force force' C C',
  method_setup name ord S ws exps ps P Minv Pinv Mpinv -> 
  (forall n x, symmetric_rates w ps (d n x) /\ d' n (sigma x) = d n x) ->
  (forall n x, force' n (sigma x) = turn_force w (force n x) /\ forall fm F, force n x = Some (fm, F) -> fm <> CentralMoment /\ length F = dimD S) ->
  (exists eqm fwd bwd, symmetric_equilibrium w (dimD S) eqm /\ raw_transform S exps ps P Minv Pinv Mpinv (background S ws zc dev) fwd bwd /\
    (forall n x f, length f = length S -> (compr = true -> pdf_density zc f <> 0) ->
      moment_collision (dimD S) S ps zc compr eqm (map Q2R ws) (moment_matrix ps S (rzero (dimD S))) fwd bwd (d n x) (force n x) f = Ok (C n x f)) /\
    (forall n x f, length f = length S -> (compr = true -> pdf_density zc f <> 0) ->
      moment_collision (dimD S) S ps zc compr eqm (map Q2R ws) (moment_matrix ps S (rzero (dimD S))) fwd bwd (d' n x) (force' n x) f = Ok (C' n x f))) \/
  (exists eqc fwd bwd, symmetric_equilibrium w (dimD S) eqc /\ (forall u, length u = dimD S -> central_transform S exps ps P Minv Pinv Mpinv (background S ws zc dev) u (fwd u) (bwd u)) /\
    (forall n x f, length f = length S -> (compr = true -> pdf_density zc f <> 0) ->
      central_collision (dimD S) S ps zc compr eqc (map Q2R ws) (moment_matrix ps S (rzero (dimD S))) Mpinv fwd bwd (d n x) (force n x) f = Ok (C n x f)) /\
    (forall n x f, length f = length S -> (compr = true -> pdf_density zc f <> 0) ->
      central_collision (dimD S) S ps zc compr eqc (map Q2R ws) (moment_matrix ps S (rzero (dimD S))) Mpinv fwd bwd (d' n x) (force' n x) f = Ok (C' n x f))) ->
  turned_collisions w S sigma fluid (fun f => compr = true -> pdf_density zc f <> 0) C C'.
Proof.
  intros L L' name ord S ws exps ps P Minv Pinv Mpinv zc dev compr w sigma fluid d d' force force' C C' HS Hd Hf Hc n x f f' Hx Hok Ht. destruct (setup_turns _ _ _ _ _ _ _ _ _ _ zc dev w HS) as (T1 & T2 & _).
  assert (E : pdf_density zc f' = pdf_density zc f). { unfold pdf_density. f_equal. pose proof Ht as (L1 & L2 & _). rewrite <- !(CollProofs.density_rsum S) by assumption. now apply (turned_density (dimD S) S T1 T2 w). }
  destruct (Hd n x) as [Hr Ed]. destruct (Hf n x) as [Ef HF]. pose proof Ht as (L1 & L2 & _).
  destruct Hc as [(eqm & fwd & bwd & He & HT & HC & HC')|(eqc & fwd & bwd & He & HT & HC & HC')].
  - destruct (C60_raw_collision name ord S ws exps ps P Minv Pinv Mpinv zc dev compr eqm fwd bwd (d n x) (force n x) w f f' HS HT He Hr HF Ht) as (g & g' & E1 & E2 & H). rewrite HC in E1 by auto. rewrite <- Ed, <- Ef, HC' in E2 by (auto; now rewrite E). congruence.
  - destruct (C60_central_collision name ord S ws exps ps P Minv Pinv Mpinv zc dev compr eqc fwd bwd (d n x) (force n x) w f f' HS HT He Hr HF Ht) as (g & g' & E1 & E2 & H). rewrite HC in E1 by auto. rewrite <- Ed, <- Ef, HC' in E2 by (auto; now rewrite E). congruence.
Qed.
Print Assumptions C60_collisions.

(* the simulation: if geometry, walls, collision rules and initial state are those of another simulation turned by sigma, its populations are the turned ones for ever,
   whatever the streaming patterns, time step parities and processing orders of the two *)
Theorem C60_simulation : forall (L L' : lattice) name ord S w (sigma : cell L -> cell L') ok
  p t (fluid : cell L -> bool) xs0 xs links C B f0 m_src m_tmp p' t' (fluid' : cell L' -> bool) xs0' xs' links' C' B' f0' m_src' m_tmp',
  predefined_stencils name ord = Ok S -> turns_cells w sigma -> (forall x, fluid' (sigma x) = fluid x) ->
  turned_collisions w S sigma fluid ok C C' -> (forall n, turned_walls w S sigma fluid (B n) (B' n)) -> turned_state w S sigma fluid f0 f0' ->
  (forall n x, fluid x = true -> ok (arriving S fluid (B n) (post 0 S fluid C B f0 n) x)) ->
  supported p (ldim L) S t -> (forall x, fluid x = true -> In x xs0) -> (forall n, NoDup (xs n)) -> (forall n x, In x (xs n) <-> fluid x = true) -> (forall n l, In l (links n) <-> is_link S fluid l) ->
  (forall n x f, length f = length S -> length (C n x f) = length S) -> (forall n x i a, is_link S fluid (x, i) -> In a (b_reads (B n x i)) -> readable S fluid x a) -> (forall x, length (f0 x) = length S) ->
  supported p' (ldim L') S t' -> (forall x, fluid' x = true -> In x xs0') -> (forall n, NoDup (xs' n)) -> (forall n x, In x (xs' n) <-> fluid' x = true) -> (forall n l, In l (links' n) <-> is_link S fluid' l) ->
  (forall n x f, length f = length S -> length (C' n x f) = length S) -> (forall n x i a, is_link S fluid' (x, i) -> In a (b_reads (B' n x i)) -> readable S fluid' x a) -> (forall x, length (f0' x) = length S) ->
  forall n x, fluid x = true -> exists f f', simulate L R p t S xs0 xs links C B f0 m_src m_tmp n x = Ok f /\
    simulate L' R p' t' S xs0' xs' links' C' B' f0' m_src' m_tmp' n (sigma x) = Ok f' /\ turned w S f f'.
Proof.
  intros L L' name ord S w sigma ok p t fluid xs0 xs links C B f0 m_src m_tmp p' t' fluid' xs0' xs' links' C' B' f0' m_src' m_tmp' H1 Hs Hfl HC HB H0 Hok HP A1 A2 A3 A4 A5 A6 A7 HP' D1 D2 D3 D4 D5 D6 D7 n x Hx.
  destruct (predefined_wf _ _ _ H1) as (W1 & _ & W3). pose proof (proj1 HP) as HS.
  exists (post 0 S fluid C B f0 n x), (post 0 S fluid' C' B' f0' n (sigma x)). split; [apply simulate_correct; auto|]. split; [apply simulate_correct; auto; now rewrite Hfl|].
  apply (post_turned L L' S w sigma fluid fluid' HS W3 Hs Hfl C C' B B' f0 f0'); auto.
Qed.
Print Assumptions C60_simulation.
(* a symmetric set-up stays symmetric *)
Theorem C60_symmetric_flow : forall (L : lattice) name ord S w (sigma : cell L -> cell L) ok p t (fluid : cell L -> bool) xs0 xs links C B f0 m_src m_tmp,
  predefined_stencils name ord = Ok S -> turns_cells w sigma -> (forall x, fluid (sigma x) = fluid x) ->
  turned_collisions w S sigma fluid ok C C -> (forall n, turned_walls w S sigma fluid (B n) (B n)) -> turned_state w S sigma fluid f0 f0 ->
  (forall n x, fluid x = true -> ok (arriving S fluid (B n) (post 0 S fluid C B f0 n) x)) ->
  supported p (ldim L) S t -> (forall x, fluid x = true -> In x xs0) -> (forall n, NoDup (xs n)) -> (forall n x, In x (xs n) <-> fluid x = true) -> (forall n l, In l (links n) <-> is_link S fluid l) ->
  (forall n x f, length f = length S -> length (C n x f) = length S) -> (forall n x i a, is_link S fluid (x, i) -> In a (b_reads (B n x i)) -> readable S fluid x a) -> (forall x, length (f0 x) = length S) ->
  forall n x, fluid x = true -> exists f f', simulate L R p t S xs0 xs links C B f0 m_src m_tmp n x = Ok f /\
    simulate L R p t S xs0 xs links C B f0 m_src m_tmp n (sigma x) = Ok f' /\ turned w S f f' /\
    density f' S = density f S /\ map (momentum f' S) (seq 0 (ldim L)) = turnR w (map (momentum f S) (seq 0 (ldim L))).
Proof.
  intros L name ord S w sigma ok p t fluid xs0 xs links C B f0 m_src m_tmp H1 Hs Hfl HC HB H0 Hok HP A1 A2 A3 A4 A5 A6 A7 n x Hx. destruct (predefined_wf _ _ _ H1) as (W1 & _ & W3). pose proof (proj1 HP) as HS.
  destruct (C60_simulation L L name ord S w sigma ok p t fluid xs0 xs links C B f0 m_src m_tmp p t fluid xs0 xs links C B f0 m_src m_tmp H1 Hs Hfl HC HB H0 Hok HP A1 A2 A3 A4 A5 A6 A7 HP A1 A2 A3 A4 A5 A6 A7 n x Hx) as (f & f' & E1 & E2 & H).
  exists f, f'. split; [exact E1|]. split; [exact E2|]. split; [exact H|]. split; [now apply (turned_density (ldim L) S HS W3 w)|now apply (turned_momentum (ldim L) S HS W3)].
Qed.
Print Assumptions C60_symmetric_flow.

(* symmetry of the rates is needed: with different rates for the moments x^2 and y^2 a state at rest and the same state with the axes exchanged collide differently *)
Theorem C60_rates_needed : forall ws exps ps P Minv Pinv Mpinv fwd bwd d k l, method_setup "D2Q9" "walberla" D2Q9_walberla ws exps ps P Minv Pinv Mpinv ->
  raw_transform D2Q9_walberla exps ps P Minv Pinv Mpinv (background D2Q9_walberla ws false false) fwd bwd -> length d = length ps ->
  nth_error ps k = Some [(1, [2; 0]%nat)] -> nth_error ps l = Some [(1, [0; 2]%nat)] -> nth k d 0 <> nth l d 0 ->
  let collide := moment_collision 2 D2Q9_walberla ps false true (fun rho u => continuous_maxwellian_moment 2 true false rho u (1 / 3)) (map Q2R ws) (moment_matrix ps D2Q9_walberla (rzero 2)) fwd bwd d None in
  exists f f' g g', turned [Exchange 0] D2Q9_walberla f f' /\ collide f = Ok g /\ collide f' = Ok g' /\ ~ turned [Exchange 0] D2Q9_walberla g g'.
Proof.
  intros ws exps ps P Minv Pinv Mpinv fwd bwd d k l HS HT Ld Ek El Hkl. cbv zeta.
  destruct (setup_turns _ _ _ _ _ _ _ _ _ _ false false [Exchange 0] HS) as (T1 & T2 & T3 & _). change (dimD D2Q9_walberla) with 2%nat in *.
  pose proof (raw_transform_ok _ _ _ _ _ _ _ _ _ _ (background D2Q9_walberla ws false false) fwd bwd HS eq_refl HT) as HM. change (dimD D2Q9_walberla) with 2%nat in HM.
  set (f := [0; 0; 0; 1; 1; 0; 0; 0; 0]). set (f' := [0; 1; 1; 0; 0; 0; 0; 0; 0]).
  assert (Hk : (k < length ps)%nat) by (apply nth_error_Some; congruence). assert (Hl : (l < length ps)%nat) by (apply nth_error_Some; congruence). rewrite T3 in Hk, Hl. change (length D2Q9_walberla) with 9%nat in Hk, Hl, T3.
  assert (STEP : forall h, length h = 9%nat -> equilibrium_velocity 2 D2Q9_walberla false true None h = [0; 0] -> pdf_density false h = 2 ->
    exists g, moment_collision 2 D2Q9_walberla ps false true (fun rho u => continuous_maxwellian_moment 2 true false rho u (1 / 3)) (map Q2R ws) (moment_matrix ps D2Q9_walberla (rzero 2)) fwd bwd d None h = Ok g /\ length g = 9%nat /\
      forall j e, (j < 9)%nat -> nth_error ps j = Some [(1, e)] -> In e [[2; 0]; [0; 2]]%nat -> central_moment g D2Q9_walberla (rzero 2) e = central_moment h D2Q9_walberla (rzero 2) e + nth j d 0 * (2 / 3 - central_moment h D2Q9_walberla (rzero 2) e)).
  { intros h Lh Eu Er. unfold moment_collision. rewrite Eu, Er. cbn [rbind]. set (eqs := equilibrium_values _ _).
    destruct (collide_defined 2 9 D2Q9_walberla ps (background D2Q9_walberla ws false false) (rzero 2) fwd bwd HM T3 eq_refl eq_refl d eqs (rzero 9) h) as (g & E1 & E2 & E3); auto; [congruence|unfold eqs, equilibrium_values; now rewrite map_length|].
    exists g. split; [exact E1|]. split; [exact E2|]. intros j e Hj Ej He. change (background D2Q9_walberla ws false false) with (rzero 9) in E3. assert (RZ : forall y, length y = 9%nat -> radd y (rzero 9) = y) by (intros y <-; apply radd_zero_r).
    rewrite (RZ g E2), (RZ h Lh) in E3.
    apply (f_equal (fun v => nth j v 0)) in E3. rewrite (nth_error_nth _ _ _ (map_nth_error (poly_moment g D2Q9_walberla (rzero 2)) _ _ Ej)) in E3.
    assert (Lm : forall q, length (map (poly_moment q D2Q9_walberla (rzero 2)) ps) = 9%nat) by (intros; now rewrite map_length).
    assert (Leq : length eqs = 9%nat) by (unfold eqs, equilibrium_values; now rewrite map_length).
    assert (Ls : length (rsub eqs (map (poly_moment h D2Q9_walberla (rzero 2)) ps)) = 9%nat) by (rewrite rsub_length, Lm, Leq; reflexivity). assert (Lr : length (rmul d (rsub eqs (map (poly_moment h D2Q9_walberla (rzero 2)) ps))) = 9%nat) by (rewrite rmul_length, Ls; lia).
    unfold relax in E3. rewrite RZ in E3 by (rewrite radd_length, Lr, Lm; reflexivity). rewrite nth_radd, nth_rmul, nth_rsub in E3 by congruence. rewrite (nth_error_nth _ _ _ (map_nth_error (poly_moment h D2Q9_walberla (rzero 2)) _ _ Ej)) in E3.
    change [(1, e)] with (mono_poly e) in E3. rewrite !poly_moment_mono in E3. rewrite E3. unfold eqs, equilibrium_values. rewrite (nth_error_nth _ _ _ (map_nth_error (poly_value _) _ _ Ej)).
    match goal with |- context [poly_value ?g ?p] => replace (poly_value g p) with (2 / 3) end; [ring|]. destruct He as [<-|[<-|[]]]; unfold poly_value, continuous_maxwellian_moment, psi_moment; cbn; field. }
  assert (V : forall h, h = f \/ h = f' -> equilibrium_velocity 2 D2Q9_walberla false true None h = [0; 0] /\ pdf_density false h = 2).
  { intros h [-> | ->]; (split; [unfold equilibrium_velocity, pdf_momentum, reference_density, pdf_density; cbn; f_equal; [field|f_equal; field]|unfold pdf_density; cbn; ring]). }
  destruct (STEP f eq_refl (proj1 (V f (or_introl eq_refl))) (proj2 (V f (or_introl eq_refl)))) as (g & E1 & Lg & M1). destruct (STEP f' eq_refl (proj1 (V f' (or_intror eq_refl))) (proj2 (V f' (or_intror eq_refl)))) as (g' & E2 & Lg' & M2).
  exists f, f', g, g'. split.
  - split; [reflexivity|]. split; [reflexivity|]. intros i j Hi Hj E. change (length D2Q9_walberla) with 9%nat in Hi, Hj. do 9 (destruct i as [|i]; [do 9 (destruct j as [|j]; [first [reflexivity|discriminate E]|]); lia|]). lia.
  - split; [exact E1|]. split; [exact E2|]. intros Ht. pose proof (central_turn 2 D2Q9_walberla [Exchange 0] T1 T2 g g' (rzero 2) [0; 2]%nat Ht eq_refl eq_refl) as E. rewrite turnR_rzero in E. cbn [turn_sign turn_exp act_sign act_exp exchange] in E.
    rewrite (M2 l [0; 2]%nat), (M1 k [2; 0]%nat) in E by (auto; cbn; auto). apply Hkl.
    replace (central_moment f' D2Q9_walberla (rzero 2) [0; 2]%nat) with 2 in E by (unfold central_moment; cbn; ring). replace (central_moment f D2Q9_walberla (rzero 2) [2; 0]%nat) with 2 in E by (unfold central_moment; cbn; ring). lra.
Qed.
Print Assumptions C60_rates_needed.

(* non-vacuity: D2Q9 with even and odd rates, incompressible second-order equilibrium and Guo's force: a channel along the first axis on an 8 x 6 block with the AA pattern,
   and the channel along the second axis on a 6 x 8 block with the pull pattern, from any initial states which are turned copies *)
Definition ex60_d : list R := map (fun e => if is_even_tuple e then 19 / 10 else 3 / 10) exps_D2Q9.
Definition ex60_Col ws fwd bwd F (f : list R) : list R :=
  match moment_collision 2 D2Q9_walberla (map mono_poly exps_D2Q9) true false (discrete_raw_moments D2Q9_walberla false true (Some 2%Z)) ws (moment_matrix (map mono_poly exps_D2Q9) D2Q9_walberla (rzero 2)) fwd bwd ex60_d (Some (Guo, F)) f with
  | Ok g => g | Err _ => f end.
Definition ex60_N : list positive := [8; 6]%positive.
Definition ex60_N' : list positive := [6; 8]%positive.
Example C60_example : forall (f0 : cell (torus ex60_N) -> list R) (f0' : cell (torus ex60_N') -> list R), (forall x, length (f0 x) = 9%nat) -> (forall x, length (f0' x) = 9%nat) ->
  @turned_state (torus ex60_N) (torus ex60_N') [Exchange 0] D2Q9_walberla (turn_cell [Exchange 0] (torus_shape ex60_N)) (wall_fluid ex60_N 1 4) f0 f0' ->
  exists ws fwd bwd, get_weights D2Q9_walberla = Ok ws /\ forall n x, wall_fluid ex60_N 1 4 x = true -> exists f f',
    simulate (torus ex60_N) R AA EVEN D2Q9_walberla (torus_cells ex60_N) (fun _ => torus_fluid_cells ex60_N (wall_fluid ex60_N 1 4)) (fun _ => torus_links ex60_N D2Q9_walberla (wall_fluid ex60_N 1 4))
       (fun _ _ => ex60_Col (map Q2R ws) fwd bwd [1 / 1000; 0]) (fun _ _ i => no_slip D2Q9_walberla i) f0 (fun _ _ => 0) (fun _ _ => 0) n x = Ok f /\
    simulate (torus ex60_N') R PULL BOTH D2Q9_walberla (torus_cells ex60_N') (fun _ => torus_fluid_cells ex60_N' (wall_fluid ex60_N' 0 4)) (fun _ => torus_links ex60_N' D2Q9_walberla (wall_fluid ex60_N' 0 4))
       (fun _ _ => ex60_Col (map Q2R ws) fwd bwd [0; 1 / 1000]) (fun _ _ i => no_slip D2Q9_walberla i) f0' (fun _ _ => 0) (fun _ _ => 0) n (turn_cell [Exchange 0] (torus_shape ex60_N) x) = Ok f' /\
    turned [Exchange 0] D2Q9_walberla f f'.
Proof.
  intros f0 f0' L0 L0' H0. destruct method_setup_D2Q9 as (ws & Minv & P & Pinv & Mpinv & HS & _). pose proof HS as [Hpre Hwt _ _ _ _ _].
  pose proof (raw_by_chimera D2Q9_walberla exps_D2Q9 (map mono_poly exps_D2Q9) P Minv Pinv Mpinv (background D2Q9_walberla ws true true)) as HT. cbv zeta in HT.
  set (fwd := fun f => _) in HT. set (bwd := fun m => _) in HT. exists ws, fwd, bwd. split; [exact Hwt|].
  destruct (predefined_wf _ _ _ Hpre) as (HSy & _ & Hclo). change (dimD D2Q9_walberla) with 2%nat in HSy.
  assert (Hrates : forall w, (forall e, In e exps_D2Q9 -> In (turn_exp w e) exps_D2Q9) -> symmetric_rates w (map mono_poly exps_D2Q9) ex60_d).
  { intros w Hw. apply (C60_rates _ _ _ _ _ _ _ _ _ _ w (fun e => if is_even_tuple e then 0 else 1)%nat (fun c => match c with O => 19 / 10 | _ => 3 / 10 end) ex60_d HS Hw); auto.
    - intros e _. now rewrite (proj2 (C60_classes w e)).
    - intros p Hp. apply in_map_iff in Hp as (e & <- & _). discriminate.
    - intros k p t Ek Ht. rewrite nth_error_map in Ek. destruct (nth_error exps_D2Q9 k) as [e|] eqn:E; [|discriminate]. injection Ek as <-. destruct Ht as [<-|[]]. split.
      + unfold ex60_d. rewrite (nth_error_nth _ _ 0 (map_nth_error (fun e => if is_even_tuple e then 19 / 10 else 3 / 10) _ _ E)). cbn [snd]. now destruct (is_even_tuple e).
      + intros t' [<-|[]]. reflexivity. }
  assert (R1 : symmetric_rates [Exchange 0] (map mono_poly exps_D2Q9) ex60_d). { apply Hrates. intros e He. cbn in He. repeat (destruct He as [<-|He]; [cbn; tauto|]). destruct He. }
  assert (R0 : symmetric_rates [] (map mono_poly exps_D2Q9) ex60_d) by (apply Hrates; auto).
  assert (HEq : forall w, symmetric_equilibrium w 2 (discrete_raw_moments D2Q9_walberla false true (Some 2%Z))).
  { intros w. destruct (C60_equilibria w 2 false true (1 / 3)) as (_ & _ & K). apply (K _ _ _ _ (Some 2%Z) Hpre Hwt). }
  assert (HC : forall F f, length F = 2%nat -> length f = 9%nat -> moment_collision 2 D2Q9_walberla (map mono_poly exps_D2Q9) true false (discrete_raw_moments D2Q9_walberla false true (Some 2%Z)) (map Q2R ws) (moment_matrix (map mono_poly exps_D2Q9) D2Q9_walberla (rzero 2)) fwd bwd ex60_d (Some (Guo, F)) f =
     Ok (ex60_Col (map Q2R ws) fwd bwd F f) /\ length (ex60_Col (map Q2R ws) fwd bwd F f) = 9%nat).
  { intros F f LF Lf. destruct (turned_exists 2 D2Q9_walberla HSy Hclo [] f Lf) as [f' Hf'].
    destruct (C60_raw_collision _ _ _ _ _ _ _ _ _ _ true true false _ fwd bwd ex60_d (Some (Guo, F)) [] f f' HS HT (HEq []) R0) as (g & g' & E & _ & Lg & _); auto; [intros fm F' E; injection E as <- <-; split; [discriminate|exact LF]|].
    change (dimD D2Q9_walberla) with 2%nat in E. unfold ex60_Col. rewrite E. split; [reflexivity|exact Lg]. }
  destruct (torus_fluid_cells_spec ex60_N (wall_fluid ex60_N 1 4)) as [Nd Sp]. destruct (torus_fluid_cells_spec ex60_N' (wall_fluid ex60_N' 0 4)) as [Nd' Sp'].
  assert (Hfl : forall x, wall_fluid ex60_N' 0 4 (turn_cell [Exchange 0] (torus_shape ex60_N) x) = wall_fluid ex60_N 1 4 x).
  { intros [x Hx]. pose proof (in_grid_length _ _ Hx) as Lx. destruct x as [|a [|b [|]]]; try discriminate Lx. clear Lx. cbn [in_grid torus_shape map ex60_N] in Hx.
    unfold wall_fluid. cbn [turn_cell proj1_sig turn_shape turn fold_right act exchange torus_shape map ex60_N nth]. rewrite nf_cons. apply andb_prop in Hx as [_ Hx]. apply andb_prop in Hx as [Hx _]. rewrite (wrap_id (Some 6%positive) b Hx). reflexivity. }
  apply (C60_simulation (torus ex60_N) (torus ex60_N') "D2Q9" "walberla" D2Q9_walberla [Exchange 0] (turn_cell [Exchange 0] (torus_shape ex60_N)) (fun f => false = true -> pdf_density true f <> 0)) with (fluid := wall_fluid ex60_N 1 4) (fluid' := wall_fluid ex60_N' 0 4); auto; try discriminate.
  - exact (proj1 (C60_grids [Exchange 0] (torus_shape ex60_N))).
  - apply (C60_collisions _ _ _ _ _ _ _ _ _ _ _ _ true true false _ _ _ (fun _ _ => ex60_d) (fun _ _ => ex60_d) (fun _ _ => Some (Guo, [1 / 1000; 0])) (fun _ _ => Some (Guo, [0; 1 / 1000])) _ _ HS); auto.
    + intros _ _. split; [reflexivity|]. intros fm F E. injection E as <- <-. split; [discriminate|reflexivity].
    + left. exists (discrete_raw_moments D2Q9_walberla false true (Some 2%Z)), fwd, bwd. split; [apply HEq|]. split; [exact HT|]. split; intros _ _ f Lf _; now apply HC.
  - intros _. apply (C60_walls (torus ex60_N) (torus ex60_N') _ _ _ _ _ _ (wall_fluid ex60_N 1 4) (fun _ i => no_slip D2Q9_walberla i) (fun _ i => no_slip D2Q9_walberla i) Hpre eq_refl Hwt); auto. exact (proj1 (C60_grids [Exchange 0] (torus_shape ex60_N))).
  - split; [exact HSy|discriminate].
  - intros x _. apply torus_cells_all.
  - intros _ l. apply torus_links_spec.
  - intros _ _ f Lf. now apply HC.
  - intros _ x i a (Hx & Hi' & _) [<-|[]]. cbn [fst snd] in *. cbn [readable]. unfold here. change (dimD D2Q9_walberla) with (ldim (torus ex60_N)). rewrite shift_zero. repeat split; [exact Hi'|exact Hx].
  - split; [exact HSy|exact I].
  - intros x _. apply torus_cells_all.
  - intros _ l. apply torus_links_spec.
  - intros _ _ f Lf. now apply HC.
  - intros _ x i a (Hx & Hi' & _) [<-|[]]. cbn [fst snd] in *. cbn [readable]. unfold here. change (dimD D2Q9_walberla) with (ldim (torus ex60_N')). rewrite shift_zero. repeat split; [exact Hi'|exact Hx].
Qed.
(* non-vacuity of the need for symmetric rates: the monomial method on D2Q9 has both moments *)
Example C60_two_second_moments : exists k l, nth_error (map mono_poly exps_D2Q9) k = Some [(1, [2; 0]%nat)] /\ nth_error (map mono_poly exps_D2Q9) l = Some [(1, [0; 2]%nat)] /\ (l < k)%nat.
Proof. exists 6%nat, 3%nat. split; [reflexivity|]. split; [reflexivity|lia]. Qed.
