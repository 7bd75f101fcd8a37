(* C64: collisions with a prescribed velocity under a force; the two steps of the conservative Allen-Cahn model *)
From Coq Require Import String List ZArith QArith Qreals Bool Arith Reals Lra Lia.
From Verif Require Import StencilModel StencilProofs StencilProofs2 AccessModel AccessProofs StreamModel StreamSpec StreamProofs StreamProofs2 GridModel GridProofs RealLib LinLib TransSpec TransModel MomModel
  EqModel EqSpec CollSpec CollModel CollProofs CollProofs3 CollProofs4 CollProofs5 PropsTrans PropsColl BoundModel BoundSpec BoundProofs2 IniModel IniSpec IniProofs PropsIni AcModel AcSpec AcProofs AcProofs2 PropsAc
  ChanSpec PropsChan PhaseModel TrackModel TrackSpec TrackProofs TrackProofs2.
Import ListNotations.
Local Open Scope string_scope.
Local Open Scope R_scope.

(* ---------- collisions with given density and velocity under a force ---------- *)
Theorem C64_forced_raw : forall name ord S ws exps ps P Minv Pinv Mpinv zc dev compr eqm fwd bwd d f rho_in v fm F,
  method_setup name ord S ws exps ps P Minv Pinv Mpinv -> hydro_moments (dimD S) compr dev eqm ->
  raw_transform S exps ps P Minv Pinv Mpinv (background S ws zc dev) fwd bwd ->
  length d = sizeQ S -> length f = sizeQ S -> (dev = true -> zc = true) -> (dimD S <= length v)%nat -> fm <> CentralMoment -> length F = dimD S ->
  let rho := mass zc S f in
  let r := match rho_in with Some r => r | None => rho end in
  (fm = EDM \/ fm = ShanChen -> carrier compr r <> 0) ->
  exists f', raw_forced_collision (dimD S) S ps zc compr eqm (map Q2R ws) (moment_matrix ps S (rzero (dimD S))) fwd bwd d fm F rho_in (Some v) f = Ok f' /\ length f' = sizeQ S /\
    (rho_in = None -> mass zc S f' = rho) /\
    (forall i, nth_error ps i = Some [(1, zero_exponents (dimD S))] -> mass zc S f' = rho + nth i d 0 * (r - rho)) /\
    (forall i a, (a < dimD S)%nat -> nth_error ps i = Some [(1, unit_exponents (dimD S) a)] ->
       momentum f' S a = momentum f S a + nth i d 0 * (carrier compr r * nth a v 0 - momentum f S a) + direct_share fm (nth i d 0) * nth a F 0).
Proof.
  intros name ord S ws exps ps P Minv Pinv Mpinv zc dev compr eqm fwd bwd d f rho_in v fm F HS He HT Hd Hf Hdz Hv Hfm HF. cbv zeta. intros Hr.
  destruct (setup_facts _ _ _ _ _ _ _ _ _ _ HS) as (F1 & F2 & F3). pose proof HS as [H1 H2 H3 H4 H5 H6 H7].
  pose proof (background_ok _ _ _ _ zc dev H1 H2) as HB. pose proof (raw_transform_ok _ _ _ _ _ _ _ _ _ _ _ _ _ HS (proj1 HB) HT) as HT'.
  destruct (raw_forced_step (dimD S) (sizeQ S) S ps zc dev compr (background S ws zc dev) (map Q2R ws) d f Mpinv F1 eq_refl F3 H6 H7 Hd Hf Hdz HB F2 rho_in v fm F Hv Hfm HF Hr eqm fwd bwd HT' He) as (f' & E1 & E2 & E3 & E4).
  destruct (has_zero (dimD S) ps H7) as [j Hj].
  exists f'. split; [exact E1|]. split; [exact E2|]. split; [intros ->; rewrite (E3 j Hj); ring|]. split; [exact E3|exact E4].
Qed.
Print Assumptions C64_forced_raw.

Theorem C64_forced_central : forall name ord S ws exps ps P Minv Pinv Mpinv zc dev compr eqc fwd bwd d f rho_in v fm F,
  method_setup name ord S ws exps ps P Minv Pinv Mpinv -> hydro_central_moments (dimD S) compr dev eqc ->
  (forall u, length u = dimD S -> central_transform S exps ps P Minv Pinv Mpinv (background S ws zc dev) u (fwd u) (bwd u)) ->
  length d = sizeQ S -> length f = sizeQ S -> (dev = true -> zc = true) -> (dimD S <= length v)%nat -> fm <> CentralMoment -> length F = dimD S ->
  let rho := mass zc S f in
  let r := match rho_in with Some r => r | None => rho end in
  (fm = EDM \/ fm = ShanChen -> carrier compr r <> 0) ->
  exists f', central_forced_collision (dimD S) S ps zc compr eqc (map Q2R ws) (moment_matrix ps S (rzero (dimD S))) Mpinv fwd bwd d fm F rho_in (Some v) f = Ok f' /\ length f' = sizeQ S /\
    (rho_in = None -> mass zc S f' = rho) /\
    (forall i, nth_error ps i = Some [(1, zero_exponents (dimD S))] -> mass zc S f' = rho + nth i d 0 * (r - rho)) /\
    (forall i j a, (a < dimD S)%nat -> nth_error ps i = Some [(1, unit_exponents (dimD S) a)] -> nth_error ps j = Some [(1, zero_exponents (dimD S))] ->
       momentum f' S a = momentum f S a + nth i d 0 * (carrier compr r * nth a v 0 - momentum f S a) + direct_share fm (nth i d 0) * nth a F 0
         + nth a v 0 * (nth j d 0 - nth i d 0) * (r - rho)).
Proof.
  intros name ord S ws exps ps P Minv Pinv Mpinv zc dev compr eqc fwd bwd d f rho_in v fm F HS He HT Hd Hf Hdz Hv Hfm HF. cbv zeta. intros Hr.
  destruct (setup_facts _ _ _ _ _ _ _ _ _ _ HS) as (F1 & F2 & F3). pose proof HS as [H1 H2 H3 H4 H5 H6 H7].
  pose proof (background_ok _ _ _ _ zc dev H1 H2) as HB.
  assert (HT' : forall u, length u = dimD S -> moment_transform (sizeQ S) S ps (background S ws zc dev) u (fwd u) (bwd u)).
  { intros u Hu. eapply central_transform_ok; eauto. apply HB. }
  destruct (central_forced_step (dimD S) (sizeQ S) S ps zc dev compr (background S ws zc dev) (map Q2R ws) d f Mpinv F1 eq_refl F3 H6 H7 Hd Hf Hdz HB F2 rho_in v fm F Hv Hfm HF Hr eqc fwd bwd HT' He) as (f' & E1 & E2 & E3 & E4).
  destruct (has_zero (dimD S) ps H7) as [j Hj].
  exists f'. split; [exact E1|]. split; [exact E2|]. split; [intros ->; rewrite (E3 j Hj); ring|]. split; [exact E3|exact E4].
Qed.
Print Assumptions C64_forced_central.

(* a force that is zero has no effect: the collision is the one without force model (C52) *)
Theorem C64_zero_force : forall name ord S ws exps ps P Minv Pinv Mpinv zc dev compr eqm fwd bwd d f rho_in v fm,
  method_setup name ord S ws exps ps P Minv Pinv Mpinv -> hydro_moments (dimD S) compr dev eqm ->
  raw_transform S exps ps P Minv Pinv Mpinv (background S ws zc dev) fwd bwd ->
  length d = sizeQ S -> length f = sizeQ S -> (dimD S <= length v)%nat -> fm <> CentralMoment ->
  raw_forced_collision (dimD S) S ps zc compr eqm (map Q2R ws) (moment_matrix ps S (rzero (dimD S))) fwd bwd d fm (rzero (dimD S)) rho_in (Some v) f
  = raw_input_collision (dimD S) S ps zc compr eqm fwd bwd d rho_in (Some v) f.
Proof.
  intros name ord S ws exps ps P Minv Pinv Mpinv zc dev compr eqm fwd bwd d f rho_in v fm HS He HT Hd Hf Hv Hfm.
  destruct (setup_facts _ _ _ _ _ _ _ _ _ _ HS) as (F1 & F2 & F3). pose proof HS as [H1 H2 H3 H4 H5 H6 H7].
  pose proof (background_ok _ _ _ _ zc dev H1 H2) as HB. pose proof (raw_transform_ok _ _ _ _ _ _ _ _ _ _ _ _ _ HS (proj1 HB) HT) as HT'.
  eapply (raw_without_force (dimD S) (sizeQ S) S ps zc dev compr (background S ws zc dev)); eauto. apply F2.
Qed.
Print Assumptions C64_zero_force.
Theorem C64_zero_force_central : forall name ord S ws exps ps P Minv Pinv Mpinv zc dev compr eqc fwd bwd d f rho_in v fm,
  method_setup name ord S ws exps ps P Minv Pinv Mpinv -> hydro_central_moments (dimD S) compr dev eqc ->
  (forall u, length u = dimD S -> central_transform S exps ps P Minv Pinv Mpinv (background S ws zc dev) u (fwd u) (bwd u)) ->
  length d = sizeQ S -> length f = sizeQ S -> (dimD S <= length v)%nat -> fm <> CentralMoment ->
  central_forced_collision (dimD S) S ps zc compr eqc (map Q2R ws) (moment_matrix ps S (rzero (dimD S))) Mpinv fwd bwd d fm (rzero (dimD S)) rho_in (Some v) f
  = central_input_collision (dimD S) S ps zc compr eqc fwd bwd d rho_in (Some v) f.
Proof.
  intros name ord S ws exps ps P Minv Pinv Mpinv zc dev compr eqc fwd bwd d f rho_in v fm HS He HT Hd Hf Hv Hfm.
  destruct (setup_facts _ _ _ _ _ _ _ _ _ _ HS) as (F1 & F2 & F3). pose proof HS as [H1 H2 H3 H4 H5 H6 H7].
  pose proof (background_ok _ _ _ _ zc dev H1 H2) as HB.
  assert (HT' : forall u, length u = dimD S -> moment_transform (sizeQ S) S ps (background S ws zc dev) u (fwd u) (bwd u)).
  { intros u Hu. eapply central_transform_ok; eauto. apply HB. }
  eapply (central_without_force (dimD S) (sizeQ S) S ps zc dev compr (background S ws zc dev)); eauto. apply F2.
Qed.
Print Assumptions C64_zero_force_central.
(* without given velocity: the usual collision under that force; a density alone is rejected *)
Theorem C64_no_input : forall D S ps zc compr eqm eqc ws M Minv fwd bwd fwd' bwd' d fm F f,
  raw_forced_collision D S ps zc compr eqm ws M fwd bwd d fm F None None f = moment_collision D S ps zc compr eqm ws M fwd bwd d (Some (fm, F)) f /\
  central_forced_collision D S ps zc compr eqc ws M Minv fwd' bwd' d fm F None None f = central_collision D S ps zc compr eqc ws M Minv fwd' bwd' d (Some (fm, F)) f /\
  forall r, raw_forced_collision D S ps zc compr eqm ws M fwd bwd d fm F (Some r) None f = Err ValueError /\
    central_forced_collision D S ps zc compr eqc ws M Minv fwd' bwd' d fm F (Some r) None f = Err ValueError.
Proof. intros. repeat split; reflexivity. Qed.
Print Assumptions C64_no_input.

(* ---------- the phase field step ---------- *)
Lemma tracking_defined nf of S FS W phi : fd_setting nf of S FS -> exists F, interface_tracking_force S FS W 1 0 phi = Ok F /\ length F = dimD S.
Proof.
  intros (Hn & HS & HSD). destruct (fd_cases nf of FS Hn HS) as (D & g & l & HC & HD & _ & Hg & Hl).
  unfold interface_tracking_force, normalized_gradient. rewrite Hg. cbn [rbind]. eexists. split; [reflexivity|]. now rewrite map_length, seq_length.
Qed.
(* for every phase field around the cell and every velocity: the phase of the cell is kept, the flux relaxes towards the transported phase plus
   the flux of the interface tracking force *)
Theorem C64_phase_step : forall name ord S ws exps ps P Minv Pinv Mpinv zc dev compr eqm fwd bwd d nf of FS fm W phi v f,
  method_setup name ord S ws exps ps P Minv Pinv Mpinv -> hydro_moments (dimD S) compr dev eqm ->
  raw_transform S exps ps P Minv Pinv Mpinv (background S ws zc dev) fwd bwd -> fd_setting nf of S FS ->
  length d = sizeQ S -> length f = sizeQ S -> (dev = true -> zc = true) -> (dimD S <= length v)%nat -> fm <> CentralMoment ->
  (fm = EDM \/ fm = ShanChen -> carrier compr (mass zc S f) <> 0) ->
  exists F f', interface_tracking_force S FS W 1 0 phi = Ok F /\
    interface_tracking_step (dimD S) S FS ps zc compr eqm (map Q2R ws) (moment_matrix ps S (rzero (dimD S))) fwd bwd d fm W phi v f = Ok f' /\ length f' = sizeQ S /\
    mass zc S f' = mass zc S f /\
    (forall i a, (a < dimD S)%nat -> nth_error ps i = Some [(1, unit_exponents (dimD S) a)] ->
       momentum f' S a = momentum f S a + nth i d 0 * (carrier compr (mass zc S f) * nth a v 0 - momentum f S a) + direct_share fm (nth i d 0) * nth a F 0).
Proof.
  intros name ord S ws exps ps P Minv Pinv Mpinv zc dev compr eqm fwd bwd d nf of FS fm W phi v f HS He HT Hfd Hd Hf Hdz Hv Hfm Hr.
  destruct (tracking_defined nf of S FS W phi Hfd) as (F & EF & LF).
  destruct (C64_forced_raw name ord S ws exps ps P Minv Pinv Mpinv zc dev compr eqm fwd bwd d f None v fm F HS He HT Hd Hf Hdz Hv Hfm LF Hr) as (f' & E1 & E2 & E3 & _ & E4).
  exists F, f'. split; [exact EF|]. split; [unfold interface_tracking_step; rewrite EF; exact E1|]. split; [exact E2|]. split; [now apply E3|exact E4].
Qed.
Print Assumptions C64_phase_step.
Theorem C64_phase_step_central : forall name ord S ws exps ps P Minv Pinv Mpinv zc dev compr eqc fwd bwd d nf of FS fm W phi v f,
  method_setup name ord S ws exps ps P Minv Pinv Mpinv -> hydro_central_moments (dimD S) compr dev eqc ->
  (forall u, length u = dimD S -> central_transform S exps ps P Minv Pinv Mpinv (background S ws zc dev) u (fwd u) (bwd u)) -> fd_setting nf of S FS ->
  length d = sizeQ S -> length f = sizeQ S -> (dev = true -> zc = true) -> (dimD S <= length v)%nat -> fm <> CentralMoment ->
  (fm = EDM \/ fm = ShanChen -> carrier compr (mass zc S f) <> 0) ->
  exists F f', interface_tracking_force S FS W 1 0 phi = Ok F /\
    interface_tracking_step_central (dimD S) S FS ps zc compr eqc (map Q2R ws) (moment_matrix ps S (rzero (dimD S))) Mpinv fwd bwd d fm W phi v f = Ok f' /\ length f' = sizeQ S /\
    mass zc S f' = mass zc S f /\
    (forall i a, (a < dimD S)%nat -> nth_error ps i = Some [(1, unit_exponents (dimD S) a)] ->
       momentum f' S a = momentum f S a + nth i d 0 * (carrier compr (mass zc S f) * nth a v 0 - momentum f S a) + direct_share fm (nth i d 0) * nth a F 0).
Proof.
  intros name ord S ws exps ps P Minv Pinv Mpinv zc dev compr eqc fwd bwd d nf of FS fm W phi v f HS He HT Hfd Hd Hf Hdz Hv Hfm Hr.
  destruct (tracking_defined nf of S FS W phi Hfd) as (F & EF & LF).
  destruct (C64_forced_central name ord S ws exps ps P Minv Pinv Mpinv zc dev compr eqc fwd bwd d f None v fm F HS He HT Hd Hf Hdz Hv Hfm LF Hr) as (f' & E1 & E2 & E3 & _ & E4).
  exists F, f'. split; [exact EF|]. split; [unfold interface_tracking_step_central; rewrite EF; exact E1|]. split; [exact E2|]. split; [now apply E3|].
  intros i a Ha Hi. destruct (has_zero (dimD S) ps (m_modes _ _ _ _ _ _ _ _ _ _ HS)) as [j Hj]. rewrite (E4 i j a Ha Hi Hj). ring.
Qed.
Print Assumptions C64_phase_step_central.

(* the flux the cell relaxes to, with the relaxation rate the parameters of the model give for a mobility: transported phase plus mobility times the
   sharpening flux (1 - 4 (phi - 1/2)^2) / W n of the Allen-Cahn equation, for force models with half of the force in the velocity; for the others
   the coefficient is mobility + 1/6 *)
Theorem C64_flux : forall name ord S ws exps ps P Minv Pinv Mpinv zc dev compr eqm fwd bwd d nf of FS fm par om W phi v f i a,
  method_setup name ord S ws exps ps P Minv Pinv Mpinv -> hydro_moments (dimD S) compr dev eqm ->
  raw_transform S exps ps P Minv Pinv Mpinv (background S ws zc dev) fwd bwd -> fd_setting nf of S FS ->
  length d = sizeQ S -> length f = sizeQ S -> (dev = true -> zc = true) -> (dimD S <= length v)%nat -> fm <> CentralMoment ->
  (fm = EDM \/ fm = ShanChen -> carrier compr (mass zc S f) <> 0) ->
  omega_phi par = Ok om -> (a < dimD S)%nat -> nth_error ps i = Some [(1, unit_exponents (dimD S) a)] -> nth i d 0 = om -> W <> 0 ->
  exists n f', normalized_gradient FS phi = Ok n /\
    interface_tracking_step (dimD S) S FS ps zc compr eqm (map Q2R ws) (moment_matrix ps S (rzero (dimD S))) fwd bwd d fm W phi v f = Ok f' /\
    let flux := carrier compr (mass zc S f) * nth a v 0 +
                (mobility par + (match fm with Simple | Luo | EDM => 1 / 6 | _ => 0 end)) * ((1 - 4 * (center FS phi - 1 / 2) ^ 2) / W * nth a n 0) in
    momentum f' S a - flux = (1 - om) * (momentum f S a - flux).
Proof.
  intros name ord S ws exps ps P Minv Pinv Mpinv zc dev compr eqm fwd bwd d nf of FS fm par om W phi v f i a HS He HT Hfd Hd Hf Hdz Hv Hfm Hr Hom Ha Hi Hdi HW.
  destruct (C64_phase_step name ord S ws exps ps P Minv Pinv Mpinv zc dev compr eqm fwd bwd d nf of FS fm W phi v f HS He HT Hfd Hd Hf Hdz Hv Hfm Hr) as (F & f' & EF & E1 & _ & _ & E2).
  unfold interface_tracking_force in EF. destruct (normalized_gradient FS phi) as [n|] eqn:En; [|discriminate]. cbn [rbind] in EF. injection EF as EF.
  exists n, f'. split; [reflexivity|]. split; [exact E1|]. cbv zeta. rewrite (E2 i a Ha Hi), Hdi, <- EF, (nth_map_seq _ (dimD S) a) by exact Ha.
  unfold omega_phi, pdiv in Hom. destruct (Req_EM_T (/ 2 + 3 * mobility par) 0) as [|N]; [discriminate|]. injection Hom as <-.
  replace (1 / 2 * (0 + 1)) with (1 / 2) by field.
  replace ((1 - 4 * ((center FS phi - 1 / 2) * ((center FS phi - 1 / 2) * 1))) / W) with ((1 - 4 * (center FS phi - 1 / 2) ^ 2) / W) by (cbn [pow]; reflexivity).
  generalize ((1 - 4 * (center FS phi - 1 / 2) ^ 2) / W). intros q. assert (N2 : 1 + 2 * (3 * mobility par) <> 0) by lra. destruct fm; try congruence; cbn [direct_share]; field; lra.
Qed.
Print Assumptions C64_flux.

(* whole simulations between bounce-back walls: the total phase never changes, whatever the phase fields and velocities the kernels of the single
   steps read *)
Theorem C64_total_phase : forall name ord (L : lattice) S ws exps ps P Minv Pinv Mpinv zc dev compr eqm fwd bwd (d : nat -> cell L -> list R) nf of FS fm W
    (phi : nat -> cell L -> vec -> R) (v : nat -> cell L -> list R) p t (fluid : cell L -> bool) cells xs0 xs links C B f0 m_src m_tmp n,
  method_setup name ord S ws exps ps P Minv Pinv Mpinv -> hydro_moments (dimD S) compr dev eqm ->
  raw_transform S exps ps P Minv Pinv Mpinv (background S ws zc dev) fwd bwd -> fd_setting nf of S FS -> (dev = true -> zc = true) ->
  (forall n x, length (d n x) = sizeQ S) -> (forall n x, (dimD S <= length (v n x))%nat) -> In fm [Simple; Luo; Guo; He; Buick] ->
  supported p (ldim L) S t -> NoDup cells -> (forall x, In x cells <-> fluid x = true) -> (forall x, fluid x = true -> In x xs0) ->
  (forall n, NoDup (xs n)) -> (forall n x, In x (xs n) <-> fluid x = true) -> (forall n l, In l (links n) <-> is_link S fluid l) ->
  (forall n x f, length f = length S ->
     interface_tracking_step (dimD S) S FS ps zc compr eqm (map Q2R ws) (moment_matrix ps S (rzero (dimD S))) fwd bwd (d n x) fm W (phi n x) (v n x) f = Ok (C n x f)) ->
  (forall n x i, B n x i = no_slip S i) -> (forall x, length (f0 x) = length S) ->
  exists F, (forall x, fluid x = true -> simulate L R p t S xs0 xs links C B f0 m_src m_tmp n x = Ok (F x)) /\
    rsum (map (fun x => mass zc S (F x)) cells) = rsum (map (fun x => mass zc S (f0 x)) cells).
Proof.
  intros name ord L S ws exps ps P Minv Pinv Mpinv zc dev compr eqm fwd bwd d nf of FS fm W phi v p t fluid cells xs0 xs links C B f0 m_src m_tmp n
    HS He HT Hfd Hdz Hd Hv Hfm HP Hnd Hc Hx0 Hxn Hxs Hl HC HB H0.
  assert (Nfm : fm <> CentralMoment /\ fm <> EDM /\ fm <> ShanChen) by (cbn in Hfm; repeat split; intros ->; decompose [or] Hfm; discriminate || contradiction). destruct Nfm as (N1 & N2 & N3).
  assert (K : forall n x f, length f = length S -> length (C n x f) = length S /\ rsum (C n x f) = rsum f).
  { intros m x f Hf. destruct (C64_phase_step name ord S ws exps ps P Minv Pinv Mpinv zc dev compr eqm fwd bwd (d m x) nf of FS fm W (phi m x) (v m x) f HS He HT Hfd (Hd m x) Hf Hdz (Hv m x) N1) as (F & f' & _ & E1 & E2 & E3 & _);
      [intros [?|?]; contradiction|]. rewrite (HC m x f Hf) in E1. injection E1 as <-. split; [exact E2|]. unfold mass in E3. rewrite !density_rsum in E3 by auto. lra. }
  assert (HSy : symmetric_stencil (ldim L) S) by (destruct HP; assumption).
  destruct (mass_conserved L S p fluid cells xs0 xs links C B f0 t m_src m_tmp n HP Hnd Hc Hx0 Hxn Hxs Hl K HB H0) as (F & E1 & E2).
  assert (HS' : forall x, fluid x = true -> F x = post 0 S fluid C B f0 n x).
  { intros x Hx. specialize (E1 x Hx). rewrite (simulate_correct L R 0 S p fluid xs0 xs links C B f0) in E1; auto; [congruence|intros; now apply K|].
    intros m y i acc (Fy & Hi & _) Hin. rewrite HB in Hin. destruct Hin as [<-|[]]. cbn [readable fst snd] in *. unfold here.
    rewrite (dimD_D (ldim L) S HSy), shift_zero, vzero_length. auto. }
  exists F. split; [exact E1|]. unfold total_mass in E2.
  assert (LF : forall x, In x cells -> length (F x) = length S).
  { intros x Hx. apply Hc in Hx. rewrite HS' by exact Hx. apply post_length; auto. intros; now apply K. }
  unfold mass. rewrite !rsum_plus. f_equal. rewrite (rsum_ext _ (fun x => rsum (F x)) cells) by (intros x Hx; apply density_rsum; auto).
  rewrite (rsum_ext (fun x => density (f0 x) S) (fun x => rsum (f0 x)) cells) by (intros x Hx; apply density_rsum; auto). exact E2.
Qed.
Print Assumptions C64_total_phase.

(* ---------- uniform phase ---------- *)
(* where the phase field is constant around a cell, a cell in equilibrium stays in equilibrium *)
Theorem C64_uniform : forall name ord S ws exps ps P Minv Pinv Mpinv zc dev compr eqm fwd bwd d nf of FS fm W phi v f c,
  method_setup name ord S ws exps ps P Minv Pinv Mpinv -> hydro_moments (dimD S) compr dev eqm ->
  raw_transform S exps ps P Minv Pinv Mpinv (background S ws zc dev) fwd bwd -> fd_setting nf of S FS ->
  length d = sizeQ S -> (dev = true -> zc = true) -> (dimD S <= length v)%nat -> fm <> CentralMoment ->
  (forall o, In o FS -> phi o = c) -> raw_equilibrium_populations ps eqm bwd c (firstn (dimD S) v) = Ok f ->
  interface_tracking_step (dimD S) S FS ps zc compr eqm (map Q2R ws) (moment_matrix ps S (rzero (dimD S))) fwd bwd d fm W phi v f = Ok f /\ length f = sizeQ S /\ mass zc S f = c.
Proof.
  intros name ord S ws exps ps P Minv Pinv Mpinv zc dev compr eqm fwd bwd d nf of FS fm W phi v f c HS He HT Hfd Hd Hdz Hv Hfm Hc E.
  destruct (setup_facts _ _ _ _ _ _ _ _ _ _ HS) as (F1 & F2 & F3). pose proof HS as [H1 H2 H3 H4 H5 H6 H7].
  pose proof (background_ok _ _ _ _ zc dev H1 H2) as HB. pose proof (raw_transform_ok _ _ _ _ _ _ _ _ _ _ _ _ _ HS (proj1 HB) HT) as HT'.
  destruct (density_witness zc c) as [g0 Hg0].
  destruct (raw_populations (dimD S) (sizeQ S) S ps zc dev compr eqm (background S ws zc dev) g0 F1 F3 H7 HB fwd bwd HT' He (firstn (dimD S) v) (given_length _ v Hv)) as (e & E1 & E2 & E3 & _).
  rewrite Hg0, E in E1. injection E1 as <-. rewrite Hg0 in E3.
  assert (M1 : mass zc S f = c). { destruct HB as (_ & HD & _). unfold mass. rewrite E3, HD. destruct zc, dev; cbn; lra || (exfalso; specialize (Hdz eq_refl); discriminate). }
  destruct (C49_bulk nf of S FS f 0 0 0 0 0 0 0 0 0 0 W (fun _ => 0) (repeat 0 (dimD S)) phi c Hfd Hc) as (_ & _ & EF); [rewrite repeat_length; lia|].
  split; [|split; assumption]. unfold interface_tracking_step. rewrite (EF 1 0). cbn [rbind].
  change (repeat 0 (dimD S)) with (rzero (dimD S)). rewrite (C64_zero_force name ord S ws exps ps P Minv Pinv Mpinv zc dev compr eqm fwd bwd d f None v fm HS He HT Hd E2 Hv Hfm).
  eapply (raw_fixed (dimD S) (sizeQ S) S ps zc compr (background S ws zc dev)); eauto.
Qed.
Print Assumptions C64_uniform.

(* whole simulations: a uniform phase carried by a uniform velocity stays exactly as it is *)
Theorem C64_uniform_simulation : forall name ord (L : lattice) S ws exps ps P Minv Pinv Mpinv zc dev compr eqm fwd bwd (d : nat -> cell L -> list R) nf of FS fm W
    (phi : nat -> cell L -> vec -> R) (v : list R) p t xs0 xs links C B m_src m_tmp n x f c,
  method_setup name ord S ws exps ps P Minv Pinv Mpinv -> hydro_moments (dimD S) compr dev eqm ->
  raw_transform S exps ps P Minv Pinv Mpinv (background S ws zc dev) fwd bwd -> fd_setting nf of S FS -> (dev = true -> zc = true) ->
  (forall n x, length (d n x) = sizeQ S) -> (dimD S <= length v)%nat -> In fm [Simple; Luo; Guo; He; Buick] ->
  supported p (ldim L) S t -> (forall x, In x xs0) -> (forall n, NoDup (xs n)) -> (forall n x, In x (xs n)) -> (forall n, links n = []) ->
  (forall n x f, length f = length S ->
     interface_tracking_step (dimD S) S FS ps zc compr eqm (map Q2R ws) (moment_matrix ps S (rzero (dimD S))) fwd bwd (d n x) fm W (phi n x) v f = Ok (C n x f)) ->
  (forall n x o, In o FS -> phi n x o = c) -> raw_equilibrium_populations ps eqm bwd c (firstn (dimD S) v) = Ok f ->
  simulate L R p t S xs0 xs links C B (fun _ => f) m_src m_tmp n x = Ok f /\ mass zc S f = c.
Proof.
  intros name ord L S ws exps ps P Minv Pinv Mpinv zc dev compr eqm fwd bwd d nf of FS fm W phi v p t xs0 xs links C B m_src m_tmp n x f c
    HS He HT Hfd Hdz Hd Hv Hfm HP Hx0 Hxn Hxs Hl HC Hc E.
  assert (Nfm : fm <> CentralMoment /\ fm <> EDM /\ fm <> ShanChen) by (cbn in Hfm; repeat split; intros ->; decompose [or] Hfm; discriminate || contradiction). destruct Nfm as (N1 & N2 & N3).
  assert (U : forall m y, C m y f = f /\ length f = length S /\ mass zc S f = c).
  { intros m y. destruct (C64_uniform name ord S ws exps ps P Minv Pinv Mpinv zc dev compr eqm fwd bwd (d m y) nf of FS fm W (phi m y) v f c HS He HT Hfd (Hd m y) Hdz Hv N1 (Hc m y) E) as (E1 & E2 & E3).
    rewrite (HC m y f E2) in E1. injection E1 as E1. auto. }
  destruct (U 0%nat x) as (_ & Lf & Mf).
  assert (K : forall n x f, length f = length S -> length (C n x f) = length S).
  { intros m y g Hg. destruct (C64_phase_step name ord S ws exps ps P Minv Pinv Mpinv zc dev compr eqm fwd bwd (d m y) nf of FS fm W (phi m y) v g HS He HT Hfd (Hd m y) Hg Hdz Hv N1) as (F & f' & _ & E1 & E2 & _);
      [intros [?|?]; contradiction|]. rewrite (HC m y g Hg) in E1. injection E1 as <-. exact E2. }
  split; [|exact Mf]. rewrite (simulate_correct L R 0 S p (fun _ => true) xs0 xs links C B (fun _ => f)); auto.
  - f_equal. revert x. induction n as [|n IH]; intros x; [reflexivity|]. cbn [post].
    transitivity (C n x f); [|apply (proj1 (U n x))]. f_equal. etransitivity; [|apply (map_nth_seq 0 f (length S) Lf)]. apply map_ext_in. intros j _. now rewrite IH.
  - intros m y. split; auto.
  - intros m l. rewrite Hl. split; [intros []|]. intros (_ & _ & H). discriminate.
  - intros m y i acc (_ & _ & H). discriminate.
Qed.
Print Assumptions C64_uniform_simulation.

(* ---------- initial populations ---------- *)
Theorem C64_initial : forall name ord S ws exps ps P Minv Pinv Mpinv zc compr eqm fwd bwd nf of FS W phi v,
  method_setup name ord S ws exps ps P Minv Pinv Mpinv -> hydro_moments (dimD S) compr false eqm ->
  raw_transform S exps ps P Minv Pinv Mpinv (background S ws zc false) fwd bwd -> fd_setting nf of S FS ->
  exists F f, interface_tracking_force S FS W 1 0 phi = Ok F /\ initializer_kernel_phase_field S FS ps eqm bwd W phi v = Ok f /\ length f = sizeQ S /\
    mass zc S f = center FS phi /\
    forall a, (a < dimD S)%nat -> momentum f S a = carrier compr (center FS phi) * (nth a v 0 - nth a F 0 / 2).
Proof.
  intros name ord S ws exps ps P Minv Pinv Mpinv zc compr eqm fwd bwd nf of FS W phi v HS He HT Hfd.
  destruct (setup_facts _ _ _ _ _ _ _ _ _ _ HS) as (F1 & F2 & F3). pose proof HS as [H1 H2 H3 H4 H5 H6 H7].
  pose proof (background_ok _ _ _ _ zc false H1 H2) as HB. pose proof (raw_transform_ok _ _ _ _ _ _ _ _ _ _ _ _ _ HS (proj1 HB) HT) as HT'.
  destruct (tracking_defined nf of S FS W phi Hfd) as (F & EF & LF).
  destruct (density_witness zc (center FS phi)) as [g0 Hg0]. set (u := map (fun i => nth i v 0 - 1 / 2 * nth i F 0) (seq 0 (dimD S))).
  destruct (raw_populations (dimD S) (sizeQ S) S ps zc false compr eqm (background S ws zc false) g0 F1 F3 H7 HB fwd bwd HT' He u) as (e & E1 & E2 & E3 & E4); [unfold u; now rewrite map_length, seq_length|].
  rewrite Hg0 in *. exists F, e. split; [exact EF|]. split; [unfold initializer_kernel_phase_field; rewrite EF; exact E1|]. split; [exact E2|]. split.
  - destruct HB as (_ & HD & _). unfold mass. rewrite E3, HD. destruct zc; cbn; lra.
  - intros a Ha. rewrite (E4 a Ha). unfold u. rewrite (nth_map_seq _ (dimD S) a) by exact Ha. unfold carrier, reference_density. destruct compr; field.
Qed.
Print Assumptions C64_initial.
(* expected: the velocity the method computes from these populations, (momentum + force / 2) / density, is the given one.  For compressible methods
   this holds exactly where the force is zero or the phase is one *)
Theorem C64_initial_velocity_refuted : forall name ord S ws exps ps P Minv Pinv Mpinv zc compr eqm fwd bwd nf of FS W phi v,
  method_setup name ord S ws exps ps P Minv Pinv Mpinv -> hydro_moments (dimD S) compr false eqm ->
  raw_transform S exps ps P Minv Pinv Mpinv (background S ws zc false) fwd bwd -> fd_setting nf of S FS ->
  exists F f, interface_tracking_force S FS W 1 0 phi = Ok F /\ initializer_kernel_phase_field S FS ps eqm bwd W phi v = Ok f /\
    forall a, (a < dimD S)%nat ->
      (momentum f S a + nth a F 0 / 2 = carrier compr (mass zc S f) * nth a v 0 <-> nth a F 0 = 0 \/ carrier compr (mass zc S f) = 1).
Proof.
  intros name ord S ws exps ps P Minv Pinv Mpinv zc compr eqm fwd bwd nf of FS W phi v HS He HT Hfd.
  destruct (C64_initial name ord S ws exps ps P Minv Pinv Mpinv zc compr eqm fwd bwd nf of FS W phi v HS He HT Hfd) as (F & f & EF & E1 & _ & E2 & E3).
  exists F, f. split; [exact EF|]. split; [exact E1|]. intros a Ha. rewrite (E3 a Ha), E2. set (k := carrier compr (center FS phi)). set (g := nth a F 0). set (w := nth a v 0). split.
  - intros H. assert (Z : g * (1 - k) = 0) by lra. apply Rmult_integral in Z as [Z|Z]; [now left|right; lra].
  - intros [Z|Z]; rewrite Z; field.
Qed.
Print Assumptions C64_initial_velocity_refuted.

(* ---------- the hydrodynamic step ---------- *)
Theorem C64_hydro_step : forall name ord S ws exps ps P Minv Pinv Mpinv zc dev compr eqm fwd bwd d f fm rho_light rho_heavy p F,
  method_setup name ord S ws exps ps P Minv Pinv Mpinv -> hydro_moments (dimD S) compr dev eqm ->
  raw_transform S exps ps P Minv Pinv Mpinv (background S ws zc dev) fwd bwd ->
  length d = sizeQ S -> length f = sizeQ S -> (dev = true -> zc = true) -> (compr = true -> mass zc S f <> 0) ->
  In fm [Simple; Luo; Guo; He; Buick; EDM; ShanChen] -> length F = dimD S -> 0 < rho_light -> 0 < rho_heavy -> 0 <= p <= 1 ->
  exists f', hydrodynamic_step (dimD S) S ps zc compr eqm (map Q2R ws) (moment_matrix ps S (rzero (dimD S))) fwd bwd d fm rho_light rho_heavy p F f = Ok f' /\ length f' = sizeQ S /\
    density f' S = density f S /\
    forall a, (a < dimD S)%nat -> (p * rho_heavy + (1 - p) * rho_light) * (momentum f' S a - momentum f S a) = nth a F 0.
Proof.
  intros name ord S ws exps ps P Minv Pinv Mpinv zc dev compr eqm fwd bwd d f fm rl rh p F HS He HT Hd Hf Hdz Hr Hfm HF Hl Hh Hp.
  assert (N : 0 < phase_density rl rh p) by (unfold phase_density; nra).
  destruct (C12_raw_moments_impulse name ord S ws exps ps P Minv Pinv Mpinv zc dev compr eqm fwd bwd d f fm (map (fun x => x / phase_density rl rh p) F) HS He HT Hd Hf Hdz) as (f' & E1 & E2 & E3 & E4); auto.
  { intros Hc. specialize (Hr Hc). unfold mass in Hr. rewrite density_rsum in Hr by exact Hf. exact Hr. }
  { now rewrite map_length. }
  exists f'. split; [exact E1|]. split; [exact E2|]. split; [exact E3|]. intros a Ha. rewrite (E4 a Ha).
  rewrite (nth_indep _ 0 (0 / phase_density rl rh p)) by now rewrite map_length, HF. rewrite (map_nth (fun x => x / phase_density rl rh p) F 0 a). unfold phase_density in *. field. lra.
Qed.
Print Assumptions C64_hydro_step.
Theorem C64_hydro_step_central : forall name ord S ws exps ps P Minv Pinv Mpinv zc dev compr eqc fwd bwd d f fm rho_light rho_heavy p F,
  method_setup name ord S ws exps ps P Minv Pinv Mpinv -> hydro_central_moments (dimD S) compr dev eqc ->
  (forall u, length u = dimD S -> central_transform S exps ps P Minv Pinv Mpinv (background S ws zc dev) u (fwd u) (bwd u)) ->
  length d = sizeQ S -> length f = sizeQ S -> (dev = true -> zc = true) -> (compr = true -> mass zc S f <> 0) ->
  In fm [Simple; Luo; Guo; He; Buick; EDM; ShanChen] -> length F = dimD S -> 0 < rho_light -> 0 < rho_heavy -> 0 <= p <= 1 ->
  exists f', hydrodynamic_step_central (dimD S) S ps zc compr eqc (map Q2R ws) (moment_matrix ps S (rzero (dimD S))) Mpinv fwd bwd d fm rho_light rho_heavy p F f = Ok f' /\ length f' = sizeQ S /\
    density f' S = density f S /\
    forall a, (a < dimD S)%nat -> (p * rho_heavy + (1 - p) * rho_light) * (momentum f' S a - momentum f S a) = nth a F 0.
Proof.
  intros name ord S ws exps ps P Minv Pinv Mpinv zc dev compr eqc fwd bwd d f fm rl rh p F HS He HT Hd Hf Hdz Hr Hfm HF Hl Hh Hp.
  assert (N : 0 < phase_density rl rh p) by (unfold phase_density; nra).
  destruct (C12_central_moments_impulse name ord S ws exps ps P Minv Pinv Mpinv zc dev compr eqc fwd bwd d f fm (map (fun x => x / phase_density rl rh p) F) HS He HT Hd Hf Hdz) as (f' & E1 & E2 & E3 & E4); auto.
  { intros Hc. specialize (Hr Hc). unfold mass in Hr. rewrite density_rsum in Hr by exact Hf. exact Hr. }
  { now rewrite map_length. }
  exists f'. split; [exact E1|]. split; [exact E2|]. split; [exact E3|]. intros a Ha. rewrite (E4 a Ha).
  rewrite (nth_indep _ 0 (0 / phase_density rl rh p)) by now rewrite map_length, HF. rewrite (map_nth (fun x => x / phase_density rl rh p) F 0 a). unfold phase_density in *. field. lra.
Qed.
Print Assumptions C64_hydro_step_central.
Theorem C64_hydro_initial : forall name ord S ws exps ps P Minv Pinv Mpinv zc dev compr eqm fwd bwd pressure velocity,
  method_setup name ord S ws exps ps P Minv Pinv Mpinv -> hydro_moments (dimD S) compr dev eqm ->
  raw_transform S exps ps P Minv Pinv Mpinv (background S ws zc dev) fwd bwd -> (dev = true -> zc = true) -> length velocity = dimD S ->
  exists f, initializer_kernel_hydro ps eqm bwd pressure velocity = Ok f /\ length f = sizeQ S /\ mass zc S f = pressure /\
    forall a, (a < dimD S)%nat -> momentum f S a = carrier compr pressure * nth a velocity 0.
Proof.
  intros name ord S ws exps ps P Minv Pinv Mpinv zc dev compr eqm fwd bwd pr vel HS He HT Hdz Hv.
  destruct (setup_facts _ _ _ _ _ _ _ _ _ _ HS) as (F1 & F2 & F3). pose proof HS as [H1 H2 H3 H4 H5 H6 H7].
  pose proof (background_ok _ _ _ _ zc dev H1 H2) as HB. pose proof (raw_transform_ok _ _ _ _ _ _ _ _ _ _ _ _ _ HS (proj1 HB) HT) as HT'.
  destruct (density_witness zc pr) as [g0 Hg0].
  destruct (raw_populations (dimD S) (sizeQ S) S ps zc dev compr eqm (background S ws zc dev) g0 F1 F3 H7 HB fwd bwd HT' He vel Hv) as (e & E1 & E2 & E3 & E4).
  rewrite Hg0 in *. exists e. split; [exact E1|]. split; [exact E2|]. split; [|exact E4].
  destruct HB as (_ & HD & _). unfold mass. rewrite E3, HD. destruct zc, dev; cbn; lra || (exfalso; specialize (Hdz eq_refl); discriminate).
Qed.
Print Assumptions C64_hydro_initial.

(* ---------- examples: an interface at a cell of a D2Q9 lattice ---------- *)
Definition ex64_phi (o : vec) : R := 1 / 2 + IZR (nth 0 o 0%Z) / 10.
Lemma ex64_fd : fd_setting "D2Q9" "walberla" D2Q9_walberla D2Q9_walberla.
Proof. split; [now left|]. split; reflexivity. Qed.
Lemma ex64_force F : interface_tracking_force D2Q9_walberla D2Q9_walberla 5 1 0 ex64_phi = Ok F -> 0 < nth 0 F 0.
Proof.
  assert (G1 : gradient D2Q9_walberla ex64_phi = Ok [1 / 10; 0; 0]). { unfold ex64_phi. cbv -[Rplus Rmult Ropp Rinv Rdiv Rminus IZR]. f_equal. apply f_equal2; [field|]. apply f_equal2; [field|]. apply f_equal2; [try reflexivity; field|reflexivity]. }
  unfold interface_tracking_force, normalized_gradient. rewrite G1. cbn [rbind]. intros H.
  assert (HF : forall l, Ok l = Ok F -> nth 0 l 0 = nth 0 F 0) by (intros l E; injection E as ->; reflexivity). rewrite <- (HF _ H). clear H HF. rewrite (nth_map_seq _ (dimD D2Q9_walberla) 0) by (cbn; lia).
  set (t := sqrt _). assert (Ht : 0 < t). { apply sqrt_lt_R0. assert (0 < 1 / 10 ^ 32) by (apply Rdiv_lt_0_compat; [lra|apply pow_lt; lra]). cbn [map rsum fold_right]. unfold rsum. cbn [fold_right]. lra. }
  replace (center D2Q9_walberla ex64_phi - 1 / 2 * (0 + 1)) with 0 by (unfold center, ex64_phi; cbv -[Rplus Rmult Rminus Rdiv IZR]; field).
  cbn [map nth]. assert (0 < 1 / 10 / t) by (apply Rdiv_lt_0_compat; lra). cbn [pow]. lra.
Qed.
Definition ex64_eq := discrete_raw_moments D2Q9_walberla true false (Some 2%Z).
(* all hypotheses are met; the initial populations of the compressible method do not carry the given velocity; one step keeps the phase 1/2 and drives
   a flux across the interface *)
Example C64_example : exists ws P Minv Pinv Mpinv fwd bwd F f f',
  method_setup "D2Q9" "walberla" D2Q9_walberla ws exps_D2Q9 (map mono_poly exps_D2Q9) P Minv Pinv Mpinv /\
  raw_transform D2Q9_walberla exps_D2Q9 (map mono_poly exps_D2Q9) P Minv Pinv Mpinv (background D2Q9_walberla ws false false) fwd bwd /\
  interface_tracking_force D2Q9_walberla D2Q9_walberla 5 1 0 ex64_phi = Ok F /\
  initializer_kernel_phase_field D2Q9_walberla D2Q9_walberla (map mono_poly exps_D2Q9) ex64_eq bwd 5 ex64_phi [0; 0] = Ok f /\
  momentum f D2Q9_walberla 0 + nth 0 F 0 / 2 <> mass false D2Q9_walberla f * 0 /\
  interface_tracking_step 2 D2Q9_walberla D2Q9_walberla (map mono_poly exps_D2Q9) false true ex64_eq (map Q2R ws) (moment_matrix (map mono_poly exps_D2Q9) D2Q9_walberla (rzero 2)) fwd bwd
    (repeat (8 / 5) 9) Guo 5 ex64_phi [0; 0] f = Ok f' /\
  mass false D2Q9_walberla f' = 1 / 2 /\ momentum f D2Q9_walberla 0 < 0 < momentum f' D2Q9_walberla 0.
Proof.
  destruct method_setup_D2Q9 as (ws & Minv & P & Pinv & Mpinv & HS & _). pose proof HS as [Hpre Hwt _ _ _ _ _].
  pose proof (raw_by_chimera D2Q9_walberla exps_D2Q9 (map mono_poly exps_D2Q9) P Minv Pinv Mpinv (background D2Q9_walberla ws false false)) as HT. cbv zeta in HT.
  set (fwd := fun f => _) in HT. set (bwd := fun m => _) in HT. exists ws, P, Minv, Pinv, Mpinv, fwd, bwd.
  assert (He : hydro_moments 2 true false ex64_eq) by (apply (discrete_hydro "D2Q9" "walberla" D2Q9_walberla ws true false (Some 2%Z) Hpre Hwt); right; cbn; lia).
  destruct (C64_initial "D2Q9" "walberla" D2Q9_walberla ws exps_D2Q9 _ P Minv Pinv Mpinv false true ex64_eq fwd bwd "D2Q9" "walberla" D2Q9_walberla 5 ex64_phi [0; 0] HS He HT ex64_fd) as (F & f & EF & E1 & E2 & E3 & E4).
  destruct (C64_phase_step "D2Q9" "walberla" D2Q9_walberla ws exps_D2Q9 _ P Minv Pinv Mpinv false false true ex64_eq fwd bwd (repeat (8 / 5) 9) "D2Q9" "walberla" D2Q9_walberla Guo 5 ex64_phi [0; 0] f HS He HT ex64_fd) as (F' & f' & EF' & E5 & E6 & E7 & E8);
    auto; try discriminate; [intros [?|?]; discriminate|]. rewrite EF in EF'. injection EF' as <-.
  exists F, f, f'. split; [exact HS|]. split; [exact HT|]. split; [exact EF|]. split; [exact E1|]. pose proof (ex64_force F EF) as HF.
  assert (C0 : center D2Q9_walberla ex64_phi = 1 / 2) by (unfold center, ex64_phi; cbv -[Rplus Rmult Rminus Rdiv IZR]; field). rewrite C0 in *.
  specialize (E4 0%nat (Nat.lt_0_succ 1)). cbn [carrier nth] in E4.
  split; [rewrite E4; lra|]. split; [exact E5|]. split; [rewrite E7; exact E3|].
  rewrite (E8 1%nat 0%nat (Nat.lt_0_succ 1) eq_refl). rewrite E4. cbn [direct_share repeat nth carrier]. lra.
Qed.
(* whole simulations: four rows of fluid between walls, an interface moving with the flow *)
Definition ex64_field (n : nat) (x : cell (torus ex57_N)) (o : vec) : R := 1 / 2 + IZR (nth 0 (proj1_sig x) 0%Z - 5 + nth 0 o 0%Z) / 10 - INR n / 100.
Example C64_example_simulation : forall f0, (forall x, length (f0 x) = 9%nat) -> exists ws P Minv Pinv Mpinv fwd bwd C,
  method_setup "D2Q9" "walberla" D2Q9_walberla ws exps_D2Q9 (map mono_poly exps_D2Q9) P Minv Pinv Mpinv /\
  (forall n x f, length f = 9%nat -> interface_tracking_step 2 D2Q9_walberla D2Q9_walberla (map mono_poly exps_D2Q9) false true ex64_eq (map Q2R ws) (moment_matrix (map mono_poly exps_D2Q9) D2Q9_walberla (rzero 2))
    fwd bwd (repeat (8 / 5) 9) Guo 5 (ex64_field n x) [1 / 10; 0] f = Ok (C n x f)) /\
  forall n, exists F, (forall x, wall_fluid ex57_N 1 4 x = true ->
    simulate (torus ex57_N) R AA EVEN D2Q9_walberla (torus_cells ex57_N) (fun _ => torus_fluid_cells ex57_N (wall_fluid ex57_N 1 4)) (fun _ => torus_links ex57_N D2Q9_walberla (wall_fluid ex57_N 1 4))
      C (fun _ _ i => no_slip D2Q9_walberla i) f0 (fun _ _ => 0) (fun _ _ => 0) n x = Ok (F x)) /\
    rsum (map (fun x => mass false D2Q9_walberla (F x)) (torus_fluid_cells ex57_N (wall_fluid ex57_N 1 4)))
    = rsum (map (fun x => mass false D2Q9_walberla (f0 x)) (torus_fluid_cells ex57_N (wall_fluid ex57_N 1 4))).
Proof.
  intros f0 L0. destruct method_setup_D2Q9 as (ws & Minv & P & Pinv & Mpinv & HS & _). pose proof HS as [Hpre Hwt _ _ _ _ _].
  pose proof (raw_by_chimera D2Q9_walberla exps_D2Q9 (map mono_poly exps_D2Q9) P Minv Pinv Mpinv (background D2Q9_walberla ws false false)) as HT. cbv zeta in HT.
  set (fwd := fun f => _) in HT. set (bwd := fun m => _) in HT. exists ws, P, Minv, Pinv, Mpinv, fwd, bwd.
  assert (He : hydro_moments 2 true false ex64_eq) by (apply (discrete_hydro "D2Q9" "walberla" D2Q9_walberla ws true false (Some 2%Z) Hpre Hwt); right; cbn; lia).
  set (C := fun n x f => match interface_tracking_step 2 D2Q9_walberla D2Q9_walberla (map mono_poly exps_D2Q9) false true ex64_eq (map Q2R ws) (moment_matrix (map mono_poly exps_D2Q9) D2Q9_walberla (rzero 2))
    fwd bwd (repeat (8 / 5) 9) Guo 5 (ex64_field n x) [1 / 10; 0] f with Ok g => g | Err _ => [] end). exists C. split; [exact HS|].
  assert (HC : forall n x f, length f = 9%nat -> interface_tracking_step 2 D2Q9_walberla D2Q9_walberla (map mono_poly exps_D2Q9) false true ex64_eq (map Q2R ws) (moment_matrix (map mono_poly exps_D2Q9) D2Q9_walberla (rzero 2))
    fwd bwd (repeat (8 / 5) 9) Guo 5 (ex64_field n x) [1 / 10; 0] f = Ok (C n x f)).
  { intros n x f Hf. destruct (C64_phase_step "D2Q9" "walberla" D2Q9_walberla ws exps_D2Q9 _ P Minv Pinv Mpinv false false true ex64_eq fwd bwd (repeat (8 / 5) 9) "D2Q9" "walberla" D2Q9_walberla Guo 5 (ex64_field n x) [1 / 10; 0] f HS He HT ex64_fd) as (F' & f' & _ & E5 & _);
      auto; try discriminate; intros [?|?]; discriminate. }
  split; [exact HC|]. intros n. destruct (torus_fluid_cells_spec ex57_N (wall_fluid ex57_N 1 4)) as [Nd Sp].
  apply (C64_total_phase "D2Q9" "walberla" (torus ex57_N) D2Q9_walberla ws exps_D2Q9 (map mono_poly exps_D2Q9) P Minv Pinv Mpinv false false true ex64_eq fwd bwd (fun _ _ => repeat (8 / 5) 9) "D2Q9" "walberla" D2Q9_walberla Guo 5
    ex64_field (fun _ _ => [1 / 10; 0])); auto using ex64_fd.
  - cbn. tauto.
  - split; [apply (predefined_wf _ _ _ Hpre)|discriminate].
  - intros x ?. apply torus_cells_all.
  - intros ? l. apply torus_links_spec.
Qed.
