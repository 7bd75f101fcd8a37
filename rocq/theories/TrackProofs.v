(* Proofs about collisions with prescribed density and velocity under a force. *)
From Coq Require Import List ZArith Bool Arith Reals Lra Lia.
From Verif Require Import StencilModel RealLib LinLib TransSpec TransModel EqSpec CollModel CollSpec CollProofs CollProofs2 CollProofs3 IniModel IniSpec IniProofs TrackModel TrackSpec.
Import ListNotations.
Local Open Scope R_scope.

Lemma share_shift fm rate : direct_share fm rate = if shifts_equilibrium fm then 1 - rate / 2 else 1.
Proof. now destruct fm. Qed.

Lemma forced_used D S zc compr rho_in v fm F f : length f = length S -> (D <= length v)%nat -> length F = D ->
  forced_quantities D S zc compr (fm, F) rho_in (Some v) f = Ok (match rho_in with Some r => r | None => mass zc S f end, firstn D v).
Proof.
  intros Hf Hv HF. unfold forced_quantities. rewrite mass_pdf by exact Hf.
  rewrite (overwrite_all D) by (auto; apply velocity_length; intros fm' F' E; injection E as <- <-; exact HF). destruct rho_in; reflexivity.
Qed.
Lemma given_length D (v : list R) : (D <= length v)%nat -> length (firstn D v) = D. Proof. intros. rewrite firstn_length. lia. Qed.

Section Forced.
  Variables (D n : nat) (S : stencil) (ps : list poly) (zc dev compr : bool) (w ws d f : list R) (Minv : mat).
  Let M := moment_matrix ps S (rzero D).
  Hypothesis Hdim : Forall (fun c => length c = D) S.
  Hypothesis Hq : length S = n.
  Hypothesis Hps : length ps = n.
  Hypothesis HM : is_inverse n M Minv.
  Hypothesis Hmodes : has_conserved_modes D ps.
  Hypothesis Hd : length d = n.
  Hypothesis Hf : length f = n.
  Hypothesis Hdz : dev = true -> zc = true.
  Hypothesis Hw : storage_background D n S zc dev w.
  Hypothesis Hws : isotropic_weights D S ws.
  Variables (rho_in : option R) (v : list R) (fm : force_model) (F : list R).
  Hypothesis Hv : (D <= length v)%nat.
  Hypothesis Hfm : fm <> CentralMoment.
  Hypothesis HF : length F = D.
  Let r := match rho_in with Some r => r | None => mass zc S f end.
  Hypothesis Hr : fm = EDM \/ fm = ShanChen -> carrier compr r <> 0.

  (* populations with a given density exist *)
  Lemma density_witness x : exists g : list R, pdf_density zc g = x.
  Proof. exists [x - (if zc then 1 else 0)]. unfold pdf_density. cbn. lra. Qed.

  Lemma forced_vector T u0 u equilibrium c0 : length u0 = D -> length u = D ->
    (forall phi, length phi = n -> T (map (poly_moment phi S (rzero D)) ps) = map (poly_moment phi S u0) ps) ->
    (forall u', length u' = D -> exists e, equilibrium u' = Ok e /\ length e = n /\ density e S = c0 /\ forall a, (a < D)%nat -> momentum e S a = reference_density compr r * nth a u' 0) ->
    exists g, space_forcing fm D S ps M T ws d equilibrium compr r u F = Ok g /\ force_vector D n ps (fun i => direct_share fm (nth i d 0)) F g.
  Proof.
    intros Hu0 Hu HT Heq. destruct (Req_EM_T (reference_density compr r) 0) as [E|E].
    - assert (N : fm <> EDM /\ fm <> ShanChen) by (split; intros X; apply Hr; auto).
      clear Hr Heq. destruct N as [N1 N2]. destruct fm; try congruence; cbn [space_forcing direct_share]; rewrite ?HF, ?Nat.eqb_refl.
      + eexists. split; [reflexivity|]. apply (T_terms D n S ps T u0); auto. now apply simple_pulse.
      + eexists. split; [reflexivity|]. apply (T_terms D n S ps T u0); auto. now apply luo_pulse.
      + eexists. split; [reflexivity|]. eapply vector_ext; [exact Hps| |apply (half_vector D n S ps u0); auto; apply (T_terms D n S ps T u0); auto; apply luo_pulse; auto]. intros; cbn; lra.
      + eexists. split; [reflexivity|]. eapply vector_ext; [exact Hps| |apply (half_vector D n S ps u0 Hq Hps Hu0 d 1); auto; apply (T_values D n S ps Minv T u0); auto].
        * intros; cbn; lra.
        * rewrite values_length; auto.
        * intros i Hi. rewrite (nth_values _ _ _ _ Hi), poly_value_mono. rewrite <- Hu. apply he_zero. congruence.
        * intros i a Ha Hi. rewrite (nth_values _ _ _ _ Hi), poly_value_mono. rewrite <- Hu. apply he_unit; [congruence|lia].
      + eexists. split; [reflexivity|]. eapply vector_ext; [exact Hps| |apply (half_vector D n S ps u0); auto; apply (T_terms D n S ps T u0); auto; apply simple_pulse; auto]. intros; cbn; lra.
    - destruct (space_forcing_pulse D n S ps Minv T u0 Hdim Hq Hps HM HT Hu0 Hmodes ws d equilibrium compr r c0 u F fm Hws Hd Hu HF E Heq Hfm) as (g & E1 & E2).
      exists g. split; [exact E1|]. eapply vector_ext; [exact Hps| |exact E2]. intros i _. cbn. now rewrite share_shift.
  Qed.

  (* masses and momenta of a relaxed and forced set of moments *)
  Lemma forced_moments u0 eqs g f' : length u0 = D -> length eqs = n -> length f' = n -> force_vector D n ps (fun i => direct_share fm (nth i d 0)) F g ->
    (forall i, nth_error ps i = Some (mono_poly (zero_tuple D)) -> nth i eqs 0 = r - (if dev then 1 else 0)) ->
    (forall i a, (a < D)%nat -> nth_error ps i = Some (mono_poly (unit_tuple D a)) ->
       nth i eqs 0 = carrier compr r * nth a v 0 - nth a u0 0 * (r - (if dev then 1 else 0))) ->
    map (poly_moment (radd f' w) S u0) ps = radd (relax d eqs (map (poly_moment (radd f w) S u0) ps)) g ->
    (forall i, nth_error ps i = Some (mono_poly (zero_tuple D)) -> mass zc S f' = mass zc S f + nth i d 0 * (r - mass zc S f)) /\
    (forall i j a, (a < D)%nat -> nth_error ps i = Some (mono_poly (unit_tuple D a)) -> nth_error ps j = Some (mono_poly (zero_tuple D)) ->
       momentum f' S a = momentum f S a + nth i d 0 * (carrier compr r * nth a v 0 - momentum f S a)
         + direct_share fm (nth i d 0) * nth a F 0 + nth a u0 0 * (nth j d 0 - nth i d 0) * (r - mass zc S f)).
  Proof.
    intros Hu0 He Hf' (Lg & G0 & G1) E0 E1 Hk. pose proof Hw as (Lw & _ & Mw).
    pose proof (stored D n S zc dev w Hdz Hw f) as SF. pose proof (stored D n S zc dev w Hdz Hw f') as SF'.
    assert (Mz : forall i, nth_error ps i = Some (mono_poly (zero_tuple D)) -> mass zc S f' = mass zc S f + nth i d 0 * (r - mass zc S f)).
    { intros i Hi. pose proof (mass_change D n S ps w u0 Hps Lw Hu0 d eqs g f f' Hd He Lg Hf Hf' Hk i Hi) as E.
      rewrite (E0 i Hi), SF, (G0 i Hi) in E. unfold mass in *. rewrite E. ring. }
    split; [exact Mz|]. intros i j a Ha Hi Hj.
    pose proof (component D n S ps w u0 Hps Lw Hu0 d eqs g f f' Hd He Lg Hf Hf' Hk i _ Hi) as E.
    rewrite !poly_moment_mono, !(central_unit D) in E by auto. rewrite (E1 i a Ha Hi), (G1 i a Ha Hi) in E. specialize (Mz j Hj).
    specialize (Mw a Ha). unfold density, momentum in *. rewrite !fsum_radd in E by congruence.
    rewrite Mw, SF', SF, Mz in E. clear - E. set (X := fsum f' S _) in *. set (Y := fsum f S _) in *. lra.
  Qed.

  Lemma raw_forced_step eqm fwd bwd : moment_transform n S ps w (rzero D) fwd bwd -> hydro_moments D compr dev eqm ->
    exists f', raw_forced_collision D S ps zc compr eqm ws M fwd bwd d fm F rho_in (Some v) f = Ok f' /\ length f' = n /\
      (forall i, nth_error ps i = Some (mono_poly (zero_tuple D)) -> mass zc S f' = mass zc S f + nth i d 0 * (r - mass zc S f)) /\
      (forall i a, (a < D)%nat -> nth_error ps i = Some (mono_poly (unit_tuple D a)) ->
         momentum f' S a = momentum f S a + nth i d 0 * (carrier compr r * nth a v 0 - momentum f S a) + direct_share fm (nth i d 0) * nth a F 0).
  Proof.
    intros HT Heq. pose proof Hw as (Lw & _). pose proof (given_length D v Hv) as Lv. unfold raw_forced_collision. rewrite forced_used by (auto; congruence). fold r. cbn [rbind fst snd].
    destruct (density_witness r) as [g0 Hg0].
    destruct (forced_vector (fun m => m) (rzero D) (firstn D v) (raw_equilibrium_populations ps eqm bwd r) (r - (if dev then 1 else 0) - density w S)) as (g & -> & Hg); auto using rzero_length.
    { intros u' Hu'. rewrite <- Hg0. apply (raw_populations D n S ps zc dev compr eqm w g0 Hdim Hps Hmodes Hw fwd bwd HT Heq u' Hu'). }
    cbn [rbind]. assert (Le : length (equilibrium_values ps (eqm r (firstn D v))) = n) by now rewrite values_length.
    destruct (collide_defined D n S ps w (rzero D) fwd bwd HT Hps Lw (rzero_length D) d (equilibrium_values ps (eqm r (firstn D v))) g f) as (f' & E1 & E2 & E3);
      auto; [apply Hg|]. exists f'. split; [exact E1|]. split; [exact E2|].
    destruct (Heq r (firstn D v) Lv) as [V0 V1].
    destruct (forced_moments (rzero D) (equilibrium_values ps (eqm r (firstn D v))) g f') as [M1 M2]; auto using rzero_length.
    + intros i Hi. now rewrite (nth_values _ _ _ _ Hi), poly_value_mono.
    + intros i a Ha Hi. rewrite (nth_values _ _ _ _ Hi), poly_value_mono, nth_rzero. etransitivity; [exact (V1 a Ha)|]. rewrite nth_firstn_lt by auto. unfold carrier. ring.
    + split; [exact M1|]. intros i a Ha Hi. destruct (has_zero D ps Hmodes) as [j Hj]. rewrite (M2 i j a Ha Hi Hj), nth_rzero. ring.
  Qed.
  Lemma central_forced_step eqc fwd bwd : (forall u, length u = D -> moment_transform n S ps w u (fwd u) (bwd u)) -> hydro_central_moments D compr dev eqc ->
    exists f', central_forced_collision D S ps zc compr eqc ws M Minv fwd bwd d fm F rho_in (Some v) f = Ok f' /\ length f' = n /\
      (forall i, nth_error ps i = Some (mono_poly (zero_tuple D)) -> mass zc S f' = mass zc S f + nth i d 0 * (r - mass zc S f)) /\
      (forall i j a, (a < D)%nat -> nth_error ps i = Some (mono_poly (unit_tuple D a)) -> nth_error ps j = Some (mono_poly (zero_tuple D)) ->
         momentum f' S a = momentum f S a + nth i d 0 * (carrier compr r * nth a v 0 - momentum f S a) + direct_share fm (nth i d 0) * nth a F 0
           + nth a v 0 * (nth j d 0 - nth i d 0) * (r - mass zc S f)).
  Proof.
    intros HT Heq. pose proof Hw as (Lw & _). pose proof (given_length D v Hv) as Lv. unfold central_forced_collision. rewrite forced_used by (auto; congruence). fold r. cbn [rbind fst snd].
    destruct (density_witness r) as [g0 Hg0].
    destruct (forced_vector (mv (shift_matrix (length S) (moment_matrix ps S (firstn D v)) Minv)) (firstn D v) (firstn D v) (central_equilibrium_populations ps eqc bwd r)
                (r - (if dev then 1 else 0) - density w S)) as (g & -> & Hg); auto.
    { intros phi Hphi. apply (shift_T D n S ps Minv Hq HM); auto. }
    { intros u' Hu'. rewrite <- Hg0. apply (central_populations D n S ps zc dev compr eqc w g0 Hdim Hps Hmodes Hw fwd bwd HT Heq u' Hu'). }
    cbn [rbind]. assert (Le : length (equilibrium_values ps (eqc r (firstn D v))) = n) by now rewrite values_length.
    destruct (collide_defined D n S ps w (firstn D v) (fwd (firstn D v)) (bwd (firstn D v)) (HT _ Lv) Hps Lw Lv d (equilibrium_values ps (eqc r (firstn D v))) g f) as (f' & E1 & E2 & E3);
      auto; [apply Hg|]. exists f'. split; [exact E1|]. split; [exact E2|].
    destruct (Heq r (firstn D v) Lv) as [V0 V1].
    destruct (forced_moments (firstn D v) (equilibrium_values ps (eqc r (firstn D v))) g f') as [M1 M2]; auto.
    + intros i Hi. now rewrite (nth_values _ _ _ _ Hi), poly_value_mono.
    + intros i a Ha Hi. rewrite (nth_values _ _ _ _ Hi), poly_value_mono. etransitivity; [exact (V1 a Ha)|]. rewrite nth_firstn_lt by auto. unfold carrier. ring.
    + split; [exact M1|]. intros i j a Ha Hi Hj. rewrite (M2 i j a Ha Hi Hj), nth_firstn_lt by auto. reflexivity.
  Qed.
End Forced.
