(* C11, C12, C13: what a collision does to mass, momentum and the modes. *)
From Coq Require Import String List ZArith Bool Arith QArith Qreals Reals Lra Lia.
From Verif Require Import StencilModel StencilProofs StencilProofs2 RealLib LinLib LinQ TransSpec TransModel TransProofs TransProofs2 TransProofs3 MomModel EqModel EqSpec PropsEq CumModel CollSpec CollModel CollProofs CollProofs2 CollProofs3 CollProofs4 CollProofs5 CollProofs6 CollProofs7 PropsTrans.
Import ListNotations.
Local Open Scope R_scope.

(* what a method is built from: a predefined stencil with its weights, monomials exps, polynomial moments ps containing 1 and
   the velocities, and the inverses the library computes *)
Record method_setup (name ord : string) (S : stencil) (ws : list Q) (exps : list (list nat)) (ps : list poly) (P Minv Pinv Mpinv : mat) : Prop := {
  m_stencil : predefined_stencils name ord = Ok S;
  m_weights : get_weights S = Ok ws;
  m_moments : moment_setup (dimD S) (sizeQ S) S exps ps P;
  m_monomial : is_inverse (sizeQ S) (monomial_matrix exps S (rzero (dimD S))) Minv;
  m_poly : is_inverse (sizeQ S) P Pinv;
  m_matrix : is_inverse (sizeQ S) (moment_matrix ps S (rzero (dimD S))) Mpinv;
  m_modes : has_conserved_modes (dimD S) ps }.
(* the background the transforms add to the stored populations *)
Definition background (S : stencil) (ws : list Q) (zc dev : bool) : list R := if zc && negb dev then map Q2R ws else rzero (sizeQ S).
(* the raw and the central moment transforms of the library *)
Inductive raw_transform (S : stencil) (exps : list (list nat)) (ps : list poly) (P Minv Pinv Mpinv : mat) (w : list R) :
  (list R -> res (list R)) -> (list R -> res (list R)) -> Prop :=
| raw_by_matrix : let M := moment_matrix ps S (rzero (dimD S)) in let b := map (poly_moment w S (rzero (dimD S))) ps in
    raw_transform S exps ps P Minv Pinv Mpinv w (fun f => Ok (matrix_forward M b f)) (fun m => Ok (matrix_backward Mpinv b m))
| raw_by_chimera : let b := map (poly_moment w S (rzero (dimD S))) ps in
    raw_transform S exps ps P Minv Pinv Mpinv w (fun f => Ok (chimera_forward S exps P b f)) (fun m => Ok (chimera_backward Minv Pinv b m)).
Inductive central_transform (S : stencil) (exps : list (list nat)) (ps : list poly) (P Minv Pinv Mpinv : mat) (w u : list R) :
  (list R -> res (list R)) -> (list R -> res (list R)) -> Prop :=
| central_by_matrix Npinv : let n := sizeQ S in let M := moment_matrix ps S (rzero (dimD S)) in let N := shift_matrix n (moment_matrix ps S u) Mpinv in
    let b := map (poly_moment w S u) ps in is_inverse n N Npinv ->
    central_transform S exps ps P Minv Pinv Mpinv w u (fun f => Ok (central_matrix_forward n N M b f)) (fun k => Ok (central_matrix_backward n Mpinv Npinv b k))
| central_by_fast Ninv : let n := sizeQ S in let b := map (poly_moment w S u) ps in is_inverse n (shift_matrix n (monomial_matrix exps S u) Minv) Ninv ->
    central_transform S exps ps P Minv Pinv Mpinv w u (fun f => Ok (fast_forward S u exps P b f)) (fun k => Ok (fast_backward n Minv Ninv Pinv b k))
| central_by_shift Ninv : let n := sizeQ S in let N := shift_matrix n (monomial_matrix exps S u) Minv in
    let b := map (central_moment w S (rzero (dimD S))) exps in is_inverse n N Ninv ->
    central_transform S exps ps P Minv Pinv Mpinv w u (fun f => Ok (shift_forward S exps P N b f)) (fun k => Ok (shift_backward Minv Ninv Pinv b k))
| central_by_binomial : let b := map (central_moment w S (rzero (dimD S))) exps in down_closed exps ->
    central_transform S exps ps P Minv Pinv Mpinv w u (binomial_forward S u exps P b) (binomial_backward u exps Minv Pinv b).

Lemma raw_transform_ok name ord S ws exps ps P Minv Pinv Mpinv w fwd bwd : method_setup name ord S ws exps ps P Minv Pinv Mpinv -> length w = sizeQ S ->
  raw_transform S exps ps P Minv Pinv Mpinv w fwd bwd -> moment_transform (sizeQ S) S ps w (rzero (dimD S)) fwd bwd.
Proof.
  intros [H1 H2 H3 H4 H5 H6 H7] Hw H. inversion H; subst.
  - apply raw_matrix_transform; auto. eapply setup_ps; eauto.
  - eapply chimera_transform; eauto.
Qed.
Lemma central_transform_ok name ord S ws exps ps P Minv Pinv Mpinv w u fwd bwd : method_setup name ord S ws exps ps P Minv Pinv Mpinv -> length w = sizeQ S -> length u = dimD S ->
  central_transform S exps ps P Minv Pinv Mpinv w u fwd bwd -> moment_transform (sizeQ S) S ps w u fwd bwd.
Proof.
  intros [H1 H2 H3 H4 H5 H6 H7] Hw Hu H. inversion H; subst.
  - unfold M, N, b, n. rewrite <- Hu. apply central_matrix_transform; auto; [eapply setup_ps; eauto|now rewrite Hu].
  - eapply fast_transform; eauto.
  - eapply shift_transform; eauto.
  - eapply binomial_transform; eauto.
Qed.
Lemma background_ok name ord S ws zc dev : predefined_stencils name ord = Ok S -> get_weights S = Ok ws -> storage_background (dimD S) (sizeQ S) S zc dev (background S ws zc dev).
Proof.
  intros H1 H2. unfold background. destruct (zc && negb dev) eqn:E; [|now apply zero_storage]. apply weights_storage; auto. eapply weights_isotropic; eauto.
Qed.
Lemma background_length name ord S ws zc dev : predefined_stencils name ord = Ok S -> get_weights S = Ok ws -> length (background S ws zc dev) = sizeQ S.
Proof. intros. eapply background_ok; eauto. Qed.
Lemma setup_facts name ord S ws exps ps P Minv Pinv Mpinv : method_setup name ord S ws exps ps P Minv Pinv Mpinv ->
  Forall (fun c => length c = dimD S) S /\ isotropic_weights (dimD S) S (map Q2R ws) /\ length ps = sizeQ S.
Proof. intros [H1 H2 H3 H4 H5 H6 H7]. destruct (weights_isotropic _ _ _ _ H1 H2). repeat split; try assumption; try apply H0. eapply setup_ps; eauto. Qed.
Lemma no_impulse D S f f' : adds_impulse D S (rzero D) f f' -> conserves D S f f'.
Proof. intros [H1 H2]. split; auto. intros a Ha. rewrite H2, nth_rzero by auto. lra. Qed.

(* the equilibria of the library have the mass and momentum the theorems below ask for *)
Theorem C11_equilibria : forall D compr dev cs2,
  hydro_moments D compr dev (fun rho u => continuous_maxwellian_moment D compr dev rho u cs2) /\
  hydro_central_moments D compr dev (fun rho u => central_from_raw u (continuous_maxwellian_moment D compr dev rho u cs2)) /\
  hydro_cumulants D (fun rho u => maxwellian_cumulant D rho u cs2) /\
  forall name ord S ws order, predefined_stencils name ord = Ok S -> get_weights S = Ok ws -> (sizeQ S <> 7%nat \/ (eq_order order <= 2)%Z) ->
    hydro_moments (dimD S) compr dev (discrete_raw_moments S compr dev order) /\
    hydro_central_moments (dimD S) compr dev (discrete_central_moments S compr dev order).
Proof.
  intros D compr dev cs2. split; [apply continuous_hydro|]. split; [apply central_from_raw_hydro, continuous_hydro|]. split; [apply maxwellian_hydro_cumulants|].
  intros. split; [eapply discrete_hydro|eapply discrete_hydro_central]; eauto.
Qed.
Print Assumptions C11_equilibria.

(* raw moments: any rates, any storage; with an incompressible method the density may vanish *)
Theorem C11_raw_moments_conserve : forall name ord S ws exps ps P Minv Pinv Mpinv zc dev compr eqm fwd bwd d f,
  method_setup name ord S ws exps ps P Minv Pinv Mpinv -> hydro_moments (dimD S) compr dev eqm ->
  raw_transform S exps ps P Minv Pinv Mpinv (background S ws zc dev) fwd bwd ->
  length d = sizeQ S -> length f = sizeQ S -> (dev = true -> zc = true) -> (compr = true -> pdf_density zc f <> 0) ->
  exists f', moment_collision (dimD S) S ps zc compr eqm (map Q2R ws) (moment_matrix ps S (rzero (dimD S))) fwd bwd d None f = Ok f' /\
    length f' = sizeQ S /\ conserves (dimD S) S f f'.
Proof.
  intros name ord S ws exps ps P Minv Pinv Mpinv zc dev compr eqm fwd bwd d f HS He HT Hd Hf Hdz Hr. destruct (setup_facts _ _ _ _ _ _ _ _ _ _ HS) as (F1 & F2 & F3).
  pose proof HS as [H1 H2 H3 H4 H5 H6 H7]. pose proof (background_ok _ _ _ _ zc dev H1 H2) as HB.
  destruct (raw_step (dimD S) (sizeQ S) S ps zc dev compr eqm (map Q2R ws) (background S ws zc dev) d f Mpinv None) with (fwd := fwd) (bwd := bwd) as (f' & E1 & E2 & E3); auto.
  - discriminate.
  - eapply raw_transform_ok; eauto. apply HB.
  - exists f'. split; [auto|]. split; [auto|]. now apply no_impulse.
Qed.
Print Assumptions C11_raw_moments_conserve.

Theorem C11_central_moments_conserve : forall name ord S ws exps ps P Minv Pinv Mpinv zc dev compr eqc fwd bwd d f,
  method_setup name ord S ws exps ps P Minv Pinv Mpinv -> hydro_central_moments (dimD S) compr dev eqc ->
  (forall u, length u = dimD S -> central_transform S exps ps P Minv Pinv Mpinv (background S ws zc dev) u (fwd u) (bwd u)) ->
  length d = sizeQ S -> length f = sizeQ S -> (dev = true -> zc = true) -> (compr = true -> pdf_density zc f <> 0) ->
  exists f', central_collision (dimD S) S ps zc compr eqc (map Q2R ws) (moment_matrix ps S (rzero (dimD S))) Mpinv fwd bwd d None f = Ok f' /\
    length f' = sizeQ S /\ conserves (dimD S) S f f'.
Proof.
  intros name ord S ws exps ps P Minv Pinv Mpinv zc dev compr eqc fwd bwd d f HS He HT Hd Hf Hdz Hr. destruct (setup_facts _ _ _ _ _ _ _ _ _ _ HS) as (F1 & F2 & F3).
  pose proof HS as [H1 H2 H3 H4 H5 H6 H7]. pose proof (background_ok _ _ _ _ zc dev H1 H2) as HB.
  destruct (central_step (dimD S) (sizeQ S) S ps zc dev compr eqc (map Q2R ws) (background S ws zc dev) d f Mpinv None) with (fwd := fwd) (bwd := bwd) as (f' & E1 & E2 & E3); auto.
  - discriminate.
  - intros u Hu. eapply central_transform_ok; eauto. apply HB.
  - exists f'. split; [auto|]. split; [auto|]. now apply no_impulse.
Qed.
Print Assumptions C11_central_moments_conserve.

(* population form (no moment transform): only methods whose storage and equilibrium agree; the others are rejected *)
Theorem C11_population_form_conserves : forall name ord S ws exps ps P Minv Pinv Mpinv zc compr eqm srt d f,
  method_setup name ord S ws exps ps P Minv Pinv Mpinv -> hydro_moments (dimD S) compr zc eqm ->
  length d = sizeQ S -> length f = sizeQ S -> (compr = true -> pdf_density zc f <> 0) -> (srt = true -> forall i, (i < sizeQ S)%nat -> nth i d 0 = nth 0 d 0) ->
  exists f', population_collision (dimD S) S ps zc zc compr eqm (map Q2R ws) (moment_matrix ps S (rzero (dimD S))) Mpinv srt d None f = Ok f' /\
    length f' = sizeQ S /\ conserves (dimD S) S f f'.
Proof.
  intros name ord S ws exps ps P Minv Pinv Mpinv zc compr eqm srt d f HS He Hd Hf Hr Hsrt. destruct (setup_facts _ _ _ _ _ _ _ _ _ _ HS) as (F1 & F2 & F3).
  pose proof HS as [H1 H2 H3 H4 H5 H6 H7].
  destruct (population_step (dimD S) (sizeQ S) S ps zc zc compr eqm (map Q2R ws) d f Mpinv None srt) as (f' & E1 & E2 & E3); auto; try discriminate.
  exists f'. split; [auto|]. split; [auto|]. now apply no_impulse.
Qed.
Print Assumptions C11_population_form_conserves.
Theorem C11_population_form_rejects : forall D S ps compr eqm ws M Minv srt d force f,
  population_collision D S ps true false compr eqm ws M Minv srt d force f = Err PlainException.
Proof. reflexivity. Qed.
Print Assumptions C11_population_form_rejects.

(* cumulants (compressible, absolute equilibrium): ps are polynomials in the cumulants cexps, cms the required central moments *)
Theorem C11_cumulants_conserve : forall name ord S ws cexps cms ps P Minv Pinv Pcms Pcinv Mpinv zc dev eqC fwd bwd d f,
  method_setup name ord S ws cms (map mono_poly cms) Pcms Minv Pcinv Mpinv -> length cms = sizeQ S ->
  NoDup cexps -> Forall (fun p : poly => NoDup (map snd p)) ps -> mono_to_poly cexps ps = Ok P -> is_inverse (length cexps) P Pinv ->
  has_conserved_modes (dimD S) ps -> hydro_cumulants (dimD S) eqC ->
  (forall u, length u = dimD S -> central_transform S cms (map mono_poly cms) Pcms Minv Pcinv Mpinv (background S ws zc false) u (fwd u) (bwd u)) ->
  length d = length cexps -> length f = sizeQ S -> zc && dev = false -> 0 < pdf_density zc f ->
  exists f', cumulant_collision (dimD S) S ps zc dev true (map Q2R ws) cexps cms P Pinv Minv eqC fwd bwd d None f = Ok f' /\
    length f' = sizeQ S /\ conserves (dimD S) S f f'.
Proof.
  intros name ord S ws cexps cms ps P Minv Pinv Pcms Pcinv Mpinv zc dev eqC fwd bwd d f HS Lc Hne Hnp HP HPi Hmodes He HT Hd Hf Hz Hr.
  destruct (setup_facts _ _ _ _ _ _ _ _ _ _ HS) as (F1 & F2 & F3). pose proof HS as [H1 H2 H3 H4 H5 H6 [H7 H8]]. pose proof (background_ok _ _ _ _ zc false H1 H2) as HB.
  assert (Hmono : forall e, In [(1, e)] (map mono_poly cms) -> In e cms). { intros e Hin. apply in_map_iff in Hin as (x & E & Hx). now injection E as <-. }
  destruct (cumulant_step (dimD S) (sizeQ S) S ps zc dev eqC (map Q2R ws) (background S ws zc false) d f cexps cms P Pinv Minv None fwd bwd) as (f' & E1 & E2 & E3); auto; try discriminate.
  - apply H3.
  - intros u Hu. eapply central_transform_ok; eauto. apply HB.
  - exists f'. split; [auto|]. split; [auto|]. now apply no_impulse.
Qed.
Print Assumptions C11_cumulants_conserve.

(* ---- C12: force models ---- *)
Theorem C12_raw_moments_impulse : forall name ord S ws exps ps P Minv Pinv Mpinv zc dev compr eqm fwd bwd d f fm F,
  method_setup name ord S ws exps ps P Minv Pinv Mpinv -> hydro_moments (dimD S) compr dev eqm ->
  raw_transform S exps ps P Minv Pinv Mpinv (background S ws zc dev) fwd bwd ->
  length d = sizeQ S -> length f = sizeQ S -> (dev = true -> zc = true) -> (compr = true -> pdf_density zc f <> 0) ->
  In fm [Simple; Luo; Guo; He; Buick; EDM; ShanChen] -> length F = dimD S ->
  exists f', moment_collision (dimD S) S ps zc compr eqm (map Q2R ws) (moment_matrix ps S (rzero (dimD S))) fwd bwd d (Some (fm, F)) f = Ok f' /\
    length f' = sizeQ S /\ adds_impulse (dimD S) S F f f'.
Proof.
  intros name ord S ws exps ps P Minv Pinv Mpinv zc dev compr eqm fwd bwd d f fm F HS He HT Hd Hf Hdz Hr Hfm HF. destruct (setup_facts _ _ _ _ _ _ _ _ _ _ HS) as (F1 & F2 & F3).
  pose proof HS as [H1 H2 H3 H4 H5 H6 H7]. pose proof (background_ok _ _ _ _ zc dev H1 H2) as HB.
  destruct (raw_step (dimD S) (sizeQ S) S ps zc dev compr eqm (map Q2R ws) (background S ws zc dev) d f Mpinv (Some (fm, F))) with (fwd := fwd) (bwd := bwd) as (f' & E1 & E2 & E3); auto.
  - intros fm' F' [= <- <-]. split; [|auto]. intros ->. cbn in Hfm. decompose [or] Hfm; discriminate || contradiction.
  - eapply raw_transform_ok; eauto. apply HB.
  - exists f'. auto.
Qed.
Print Assumptions C12_raw_moments_impulse.

Theorem C12_central_moments_impulse : forall name ord S ws exps ps P Minv Pinv Mpinv zc dev compr eqc fwd bwd d f fm F,
  method_setup name ord S ws exps ps P Minv Pinv Mpinv -> hydro_central_moments (dimD S) compr dev eqc ->
  (forall u, length u = dimD S -> central_transform S exps ps P Minv Pinv Mpinv (background S ws zc dev) u (fwd u) (bwd u)) ->
  length d = sizeQ S -> length f = sizeQ S -> (dev = true -> zc = true) -> (compr = true -> pdf_density zc f <> 0) ->
  In fm [Simple; Luo; Guo; He; Buick; EDM; ShanChen] -> length F = dimD S ->
  exists f', central_collision (dimD S) S ps zc compr eqc (map Q2R ws) (moment_matrix ps S (rzero (dimD S))) Mpinv fwd bwd d (Some (fm, F)) f = Ok f' /\
    length f' = sizeQ S /\ adds_impulse (dimD S) S F f f'.
Proof.
  intros name ord S ws exps ps P Minv Pinv Mpinv zc dev compr eqc fwd bwd d f fm F HS He HT Hd Hf Hdz Hr Hfm HF. destruct (setup_facts _ _ _ _ _ _ _ _ _ _ HS) as (F1 & F2 & F3).
  pose proof HS as [H1 H2 H3 H4 H5 H6 H7]. pose proof (background_ok _ _ _ _ zc dev H1 H2) as HB.
  destruct (central_step (dimD S) (sizeQ S) S ps zc dev compr eqc (map Q2R ws) (background S ws zc dev) d f Mpinv (Some (fm, F))) with (fwd := fwd) (bwd := bwd) as (f' & E1 & E2 & E3); auto.
  - intros fm' F' [= <- <-]. split; [|auto]. intros ->. cbn in Hfm. decompose [or] Hfm; discriminate || contradiction.
  - intros u Hu. eapply central_transform_ok; eauto. apply HB.
  - exists f'. auto.
Qed.
Print Assumptions C12_central_moments_impulse.

(* population form; the He model with a single rate uses a discrete source term, which needs isotropy of order 4 (not D3Q7) *)
Theorem C12_population_form_impulse : forall name ord S ws exps ps P Minv Pinv Mpinv zc compr eqm srt d f fm F,
  method_setup name ord S ws exps ps P Minv Pinv Mpinv -> hydro_moments (dimD S) compr zc eqm ->
  length d = sizeQ S -> length f = sizeQ S -> (compr = true -> pdf_density zc f <> 0) -> (srt = true -> forall i, (i < sizeQ S)%nat -> nth i d 0 = nth 0 d 0) ->
  In fm [Simple; Luo; Guo; He; Buick; EDM; ShanChen] -> length F = dimD S -> (fm = He -> srt = true -> sizeQ S <> 7%nat) ->
  exists f', population_collision (dimD S) S ps zc zc compr eqm (map Q2R ws) (moment_matrix ps S (rzero (dimD S))) Mpinv srt d (Some (fm, F)) f = Ok f' /\
    length f' = sizeQ S /\ adds_impulse (dimD S) S F f f'.
Proof.
  intros name ord S ws exps ps P Minv Pinv Mpinv zc compr eqm srt d f fm F HS He' Hd Hf Hr Hsrt Hfm HF Hhe. destruct (setup_facts _ _ _ _ _ _ _ _ _ _ HS) as (F1 & F2 & F3).
  pose proof HS as [H1 H2 H3 H4 H5 H6 H7].
  destruct (population_step (dimD S) (sizeQ S) S ps zc zc compr eqm (map Q2R ws) d f Mpinv (Some (fm, F)) srt) as (f' & E1 & E2 & E3); auto.
  - intros fm' F' [= <- <-]. split; [|auto]. intros ->. cbn in Hfm. decompose [or] Hfm; discriminate || contradiction.
  - intros F' [= -> <-] Hs. eapply he_terms_pulse; eauto. apply velocity_length. intros fm' F'' [= <- <-]. auto.
  - exists f'. auto.
Qed.
Print Assumptions C12_population_form_impulse.

(* symmetric forcing around the cumulant collision; central-moment forcing writes F/2 at positions 1..D and so needs the
   first-order central moments there *)
Theorem C12_cumulants_impulse : forall name ord S ws cexps cms ps P Minv Pinv Pcms Pcinv Mpinv zc dev eqC fwd bwd d f fm F,
  method_setup name ord S ws cms (map mono_poly cms) Pcms Minv Pcinv Mpinv -> length cms = sizeQ S ->
  NoDup cexps -> Forall (fun p : poly => NoDup (map snd p)) ps -> mono_to_poly cexps ps = Ok P -> is_inverse (length cexps) P Pinv ->
  has_conserved_modes (dimD S) ps -> hydro_cumulants (dimD S) eqC ->
  (forall u, length u = dimD S -> central_transform S cms (map mono_poly cms) Pcms Minv Pcinv Mpinv (background S ws zc false) u (fwd u) (bwd u)) ->
  length d = length cexps -> length f = sizeQ S -> zc && dev = false -> 0 < pdf_density zc f ->
  In fm [Simple; Luo; Guo; He; CentralMoment] -> length F = dimD S ->
  (fm = CentralMoment -> exists rest, cms = zero_tuple (dimD S) :: map (unit_tuple (dimD S)) (seq 0 (dimD S)) ++ rest) ->
  exists f', cumulant_collision (dimD S) S ps zc dev true (map Q2R ws) cexps cms P Pinv Minv eqC fwd bwd d (Some (fm, F)) f = Ok f' /\
    length f' = sizeQ S /\ adds_impulse (dimD S) S F f f'.
Proof.
  intros name ord S ws cexps cms ps P Minv Pinv Pcms Pcinv Mpinv zc dev eqC fwd bwd d f fm F HS Lc Hne Hnp HP HPi Hmodes He' HT Hd Hf Hz Hr Hfm HF Hcm.
  destruct (setup_facts _ _ _ _ _ _ _ _ _ _ HS) as (F1 & F2 & F3). pose proof HS as [H1 H2 H3 H4 H5 H6 [H7 H8]]. pose proof (background_ok _ _ _ _ zc false H1 H2) as HB.
  assert (Hmono : forall e, In [(1, e)] (map mono_poly cms) -> In e cms). { intros e Hin. apply in_map_iff in Hin as (x & E & Hx). now injection E as <-. }
  destruct (cumulant_step (dimD S) (sizeQ S) S ps zc dev eqC (map Q2R ws) (background S ws zc false) d f cexps cms P Pinv Minv (Some (fm, F)) fwd bwd) as (f' & E1 & E2 & E3); auto.
  - apply H3.
  - intros u Hu. eapply central_transform_ok; eauto. apply HB.
  - intros fm' F' [= <- <-]. auto.
  - exists f'. auto.
Qed.
Print Assumptions C12_cumulants_impulse.

(* combinations the library rejects *)
Theorem C12_rejected_models : forall D S ps zc dev compr eqm eqc eqC ws M Minv cexps cms P Pinv fwd bwd cfwd cbwd srt d F f,
  moment_collision D S ps zc compr eqm ws M fwd bwd d (Some (CentralMoment, F)) f = Err ValueError /\
  central_collision D S ps zc compr eqc ws M Minv cfwd cbwd d (Some (CentralMoment, F)) f = Err ValueError /\
  (zc && negb dev = false -> population_collision D S ps zc dev compr eqm ws M Minv srt d (Some (CentralMoment, F)) f = Err ValueError) /\
  (forall fm, In fm [Buick; EDM; ShanChen] -> zc && dev = false ->
     cumulant_collision D S ps zc dev compr ws cexps cms P Pinv Minv eqC cfwd cbwd d (Some (fm, F)) f = Err AttributeError) /\
  (zc && dev = true -> forall force, cumulant_collision D S ps zc dev compr ws cexps cms P Pinv Minv eqC cfwd cbwd d force f = Err AssertionError).
Proof.
  intros. split; [reflexivity|]. split; [reflexivity|]. split; [|split].
  - intros H. unfold population_collision. now rewrite H.
  - intros fm Hin H. unfold cumulant_collision, cumulant_collision_with. rewrite H. cbn in Hin. decompose [or] Hin; subst; try contradiction; reflexivity.
  - intros H force. unfold cumulant_collision, cumulant_collision_with. now rewrite H.
Qed.
Print Assumptions C12_rejected_models.

(* the He source term in moment space does not depend on the density *)
Theorem C12_he_density_free : forall D rho u F e, rho <> 0 -> he_moment_with D rho u F e = he_moment D u F e.
Proof. exact he_density_free. Qed.
Print Assumptions C12_he_density_free.

(* ---- C13 ---- *)
(* equal rates: whatever the moments and the frame, the update is f + omega (feq - f), where feq has the equilibrium moments *)
Theorem C13_equal_rates_is_SRT : forall n S ps w u fwd bwd omega eqs f,
  moment_transform n S ps w u fwd bwd -> length ps = n -> length w = n -> length eqs = n -> length f = n ->
  exists feq, bwd eqs = Ok feq /\ length feq = n /\ map (poly_moment (radd feq w) S u) ps = eqs /\
    collide fwd bwd (repeat omega n) eqs (rzero n) f = Ok (radd f (rscal omega (rsub feq f))).
Proof.
  intros n S ps w u fwd bwd omega eqs f HT Lp Lw Le Lf. destruct (srt_collide n S ps w u fwd bwd HT Lp Lw omega eqs f Le Lf) as (feq & E1 & E2 & E3).
  exists feq. repeat split; auto. destruct HT as (_ & HB & _). destruct (HB eqs Le) as (g & G1 & G2 & G3). congruence.
Qed.
Print Assumptions C13_equal_rates_is_SRT.

(* with the discrete Maxwellian p as equilibrium, raw- and central-moment collision with equal rates are the SRT update
   f + omega (p - f), the same for every moment set and transform (f stored absolutely or p taken as deviation) *)
Theorem C13_SRT_discrete_equilibrium : forall name ord S ws exps ps P Minv Pinv Mpinv zc dev compr order fwd bwd cfwd cbwd omega f p,
  method_setup name ord S ws exps ps P Minv Pinv Mpinv -> length f = sizeQ S ->
  (sizeQ S <> 7%nat \/ (eq_order order <= 2)%Z) ->
  raw_transform S exps ps P Minv Pinv Mpinv (background S ws zc dev) fwd bwd ->
  (forall u, length u = dimD S -> central_transform S exps ps P Minv Pinv Mpinv (background S ws zc dev) u (cfwd u) (cbwd u)) ->
  hydro_maxwellian S compr dev order (pdf_density zc f) (equilibrium_velocity (dimD S) S zc compr None f) (1 / 3) = Ok p ->
  let M := moment_matrix ps S (rzero (dimD S)) in
  let srt := Ok (radd f (rscal omega (rsub (rsub p (background S ws zc dev)) f))) in
  moment_collision (dimD S) S ps zc compr (discrete_raw_moments S compr dev order) (map Q2R ws) M fwd bwd (repeat omega (sizeQ S)) None f = srt /\
  central_collision (dimD S) S ps zc compr (discrete_central_moments S compr dev order) (map Q2R ws) M Mpinv cfwd cbwd (repeat omega (sizeQ S)) None f = srt.
Proof.
  intros name ord S ws exps ps P Minv Pinv Mpinv zc dev compr order fwd bwd cfwd cbwd omega f p HS Lf Ho HT HTc Hp M srt.
  destruct (setup_facts _ _ _ _ _ _ _ _ _ _ HS) as (F1 & F2 & F3). pose proof HS as [H1 H2 H3 H4 H5 H6 H7]. pose proof (background_ok _ _ _ _ zc dev H1 H2) as (Lw & _).
  assert (Lp : length p = sizeQ S). { destruct (discrete_populations _ _ _ _ compr dev order H1 H2 Ho (pdf_density zc f) (equilibrium_velocity (dimD S) S zc compr None f)) as (p' & E & L & _). rewrite Hp in E. injection E as <-. exact L. }
  assert (Lu : length (equilibrium_velocity (dimD S) S zc compr None f) = dimD S) by (apply velocity_length; discriminate).
  assert (EP : radd (rsub p (background S ws zc dev)) (background S ws zc dev) = p) by (apply radd_rsub_cancel; congruence).
  assert (GEN : forall u' eqs fw bw, moment_transform (sizeQ S) S ps (background S ws zc dev) u' fw bw -> eqs = map (poly_moment p S u') ps ->
            collide fw bw (repeat omega (sizeQ S)) eqs (rzero (sizeQ S)) f = srt).
  { intros u' eqs fw bw HM ->. destruct (srt_collide _ _ _ _ _ _ _ HM F3 Lw omega (map (poly_moment p S u') ps) f ltac:(now rewrite map_length) Lf) as (feq & E1 & E2 & E3).
    rewrite E3. unfold srt, mix. rewrite (bwd_unique _ _ _ _ _ _ _ HM F3 (map (poly_moment p S u') ps) (rsub p (background S ws zc dev))) in E1; [now injection E1 as <-|rewrite rsub_length; lia|now rewrite EP]. }
  split.
  - unfold moment_collision. cbn [rbind]. apply (GEN (rzero (dimD S))); [eapply raw_transform_ok; eauto|].
    apply map_ext. intros q. rewrite poly_moment_value. unfold poly_value. apply rsum_ext. intros t _. unfold discrete_raw_moments. now rewrite Hp.
  - unfold central_collision. cbn [rbind]. apply (GEN (equilibrium_velocity (dimD S) S zc compr None f)); [eapply central_transform_ok; eauto|].
    apply map_ext. intros q. rewrite poly_moment_value. unfold poly_value. apply rsum_ext. intros t _. unfold discrete_central_moments. now rewrite Hp.
Qed.
Print Assumptions C13_SRT_discrete_equilibrium.

(* two rates, one for the even and one for the odd moments: the symmetric and antisymmetric parts relax separately *)
Theorem C13_TRT_parts : forall D n S ps w fwd bwd d we wo eqs f,
  moment_transform n S ps w (rzero D) fwd bwd -> length ps = n -> length w = n -> NoDup S -> length S = n -> inversion_closed S ->
  Forall (fun c => length c = D) S -> Forall (Forall (fun t : R * list nat => length (snd t) = D)) ps -> length d = n ->
  (forall i p, nth_error ps i = Some p -> even_poly p /\ nth i d 0 = we \/ odd_poly p /\ nth i d 0 = wo) -> length eqs = n -> length f = n ->
  exists feq, bwd eqs = Ok feq /\ length feq = n /\
    collide fwd bwd d eqs (rzero n) f =
      Ok (radd f (radd (rscal we (rsub (symmetric_part S feq) (symmetric_part S f)))
                       (rscal wo (rsub (antisymmetric_part S feq) (antisymmetric_part S f))))).
Proof. exact trt_collide. Qed.
Print Assumptions C13_TRT_parts.

(* replacing the modes by invertible combinations of modes of equal rate changes nothing *)
Theorem C13_basis_change : forall n S ps ps' A w u fwd bwd fwd' bwd' d d' g f,
  moment_transform n S ps w u fwd bwd -> moment_transform n S ps' w u fwd' bwd' -> length ps = n -> length ps' = n -> length w = n ->
  (forall h, equilibrium_values ps' h = mv A (equilibrium_values ps h)) -> mat_wf n n A -> length d = n -> length d' = n -> length f = n ->
  (forall i j, (i < n)%nat -> (j < n)%nat -> nth j (nth i A []) 0 <> 0 -> nth i d' 0 = nth j d 0) ->
  collide fwd' bwd' d' (equilibrium_values ps' g) (rzero n) f = collide fwd bwd d (equilibrium_values ps g) (rzero n) f.
Proof. exact basis_change. Qed.
Print Assumptions C13_basis_change.

(* the population form computes what the moment form computes (He with a single rate excepted: its source terms differ) *)
Theorem C13_population_form : forall D n S ps zc dev compr eqm ws Minv srt d force f,
  let M := moment_matrix ps S (rzero D) in
  Forall (fun c => length c = D) S -> length S = n -> length ps = n -> is_inverse n M Minv -> length d = n -> length f = n ->
  zc && negb dev = false -> (srt = true -> d = repeat (nth 0 d 0) n) ->
  (forall fm F, force = Some (fm, F) -> fm <> CentralMoment /\ length F = D /\ length ws = n /\ ~ (fm = He /\ srt = true)) ->
  population_collision D S ps zc dev compr eqm ws M Minv srt d force f =
  moment_collision D S ps zc compr eqm ws M (fun f => Ok (mv M f)) (fun m => Ok (mv Minv m)) d force f.
Proof.
  intros D n S ps zc dev compr eqm ws Minv srt d force f M H1 H2 H3 H4 H5 H6 H7 H8 H9. apply (population_is_moment D n); auto.
  intros fm F rho u _ _. eexists. split; [reflexivity|]. rewrite mv_length. destruct H4 as (_ & [L _] & _). exact L.
Qed.
Print Assumptions C13_population_form.

(* cumulant collision relaxes every (polynomial) cumulant separately, in the frame and with the density of the input *)
Theorem C13_cumulants_relax : forall D n S ps zc dev compr ws w cexps cms P Pinv Minv eqC fwd bwd d f,
  let rho := pdf_density zc f in let u := equilibrium_velocity D S zc compr None f in
  length S = n -> length cms = n -> NoDup cms -> NoDup cexps -> Forall (fun e => length e = D) cexps -> down_closed cexps -> incl cexps cms ->
  is_inverse (length cexps) P Pinv -> length d = length cexps -> length ps = length cexps -> length f = n -> zc && dev = false -> rho <> 0 ->
  0 < central_moment (radd f w) S u (repeat 0%nat D) ->
  moment_transform n S (map mono_poly cms) w u (fwd u) (bwd u) -> length w = n ->
  exists f', cumulant_collision D S ps zc dev compr ws cexps cms P Pinv Minv eqC fwd bwd d None f = Ok f' /\ length f' = n /\
    let before := cumulant_forward D u rho cexps P (central_moment (radd f w) S u) in
    cumulant_forward D u rho cexps P (central_moment (radd f' w) S u) =
    radd before (rmul d (rsub (equilibrium_values ps (eqC rho u)) before)).
Proof. exact cumulants_relax. Qed.
Print Assumptions C13_cumulants_relax.

(* ---- non-vacuity: monomial moments on D2Q9 ---- *)
Definition exps_D2Q9 : list (list nat) := [0;0]%nat :: [1;0]%nat :: [0;1]%nat :: filter (fun e => Nat.leb 2 (nsum e)) (moments_up_to_component_order 2 2).
Example method_setup_D2Q9 : exists ws Minv P Pinv Mpinv, method_setup "D2Q9" "walberla" D2Q9_walberla ws exps_D2Q9 (map mono_poly exps_D2Q9) P Minv Pinv Mpinv /\
  down_closed exps_D2Q9 /\ exists rest, exps_D2Q9 = zero_tuple 2 :: map (unit_tuple 2) (seq 0 2) ++ rest.
Proof.
  set (exps := exps_D2Q9). assert (Hw : stencil_wf 2 D2Q9_walberla) by (apply stencil_wf_b_ok; vm_compute; reflexivity).
  assert (Hnd : NoDup exps) by (apply nodup_tuples_b_ok; vm_compute; reflexivity).
  assert (Hpn : Forall (fun p : poly => NoDup (map snd p)) (map mono_poly exps)).
  { apply Forall_forall. intros p Hp. apply in_map_iff in Hp. destruct Hp as (e & <- & _). constructor; [intros []|constructor]. }
  assert (HP : exists P, mono_to_poly exps (map mono_poly exps) = Ok P).
  { apply mono_to_poly_ok. apply Forall_forall. intros p Hp. apply in_map_iff in Hp. destruct Hp as (e & <- & He). intros x [<-|[]]. exact He. }
  destruct HP as [P HP].
  assert (HM : is_inverse 9 (monomial_matrix exps D2Q9_walberla (rzero 2)) (q2r (qinv (qmonomial_matrix exps D2Q9_walberla)))).
  { rewrite (qmonomial_matrix_R 2) by exact Hw. apply qinverse_check_R. vm_compute. reflexivity. }
  assert (HS : moment_setup 2 9 D2Q9_walberla exps (map mono_poly exps) P).
  { constructor; auto; [apply first_neighbours_b_ok; vm_compute; reflexivity|]. repeat constructor. }
  assert (HPP : is_inverse 9 P P).
  { destruct (mono_to_poly_spec exps _ P (fun _ => 0) Hnd Hpn HP) as [HPw _].
    assert (Hid : forall x, length x = 9%nat -> mv P x = x).
    { intros x Hx. rewrite <- (map_env_val exps x Hnd Hx) at 1.
      destruct (mono_to_poly_spec exps _ P (env_val exps x) Hnd Hpn HP) as [_ ->].
      rewrite map_map. transitivity (map (env_val exps x) exps); [|now apply map_env_val]. apply map_ext. intros e. cbn. lra. }
    split; [exact HPw|]. split; [exact HPw|]. split; intros x Hx; rewrite (Hid x Hx); auto. }
  destruct (poly_inverse 2 9 _ _ _ _ (rzero 2) _ _ _ HS eq_refl eq_refl HM HPP (rzero_shift_inverse 2 9 _ _ _ _ _ HS HM)) as [A HA].
  eexists _, _, P, P, A. split; [constructor|split].
  - reflexivity.
  - reflexivity.
  - exact HS.
  - exact HM.
  - exact HPP.
  - exact HA.
  - split; [left; reflexivity|]. intros [|[|a]] Ha; [right; left; reflexivity|right; right; left; reflexivity|exfalso; vm_compute in Ha; lia].
  - apply down_closed_b_ok. vm_compute. reflexivity.
  - eexists. reflexivity.
Qed.
(* the rest state with density 2 meets the conditions on the populations *)
Example populations_D2Q9 : pdf_density false (repeat (2 / 9) 9) <> 0 /\ 0 < pdf_density true (repeat 0 9).
Proof. unfold pdf_density, rsum. cbn. split; lra. Qed.
