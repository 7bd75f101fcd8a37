(* Impulse of every force model in every collision space. *)
From Coq Require Import String List ZArith Bool Arith Reals Lra Lia.
From Verif Require Import StencilModel StencilProofs StencilProofs2 RealLib LinLib TransSpec TransModel MomModel EqModel EqSpec EqProofs CollSpec CollModel TransProofs TransProofs2 TransProofs3 CollProofs CollProofs2.
Import ListNotations.
Local Open Scope R_scope.

Lemma half_relaxed_length d m : length (half_relaxed d m) = Nat.min (length d) (length m).
Proof. unfold half_relaxed. now rewrite rmul_length, map_length. Qed.
Lemma nth_half_relaxed d m i : length d = length m -> (i < length m)%nat -> nth i (half_relaxed d m) 0 = (1 - 1 / 2 * nth i d 0) * nth i m 0.
Proof.
  intros H Hi. unfold half_relaxed. rewrite nth_rmul by (rewrite map_length; auto). f_equal.
  rewrite nth_indep with (d' := (fun w => 1 - 1 / 2 * w) 0) by (rewrite map_length; lia). now rewrite (map_nth (fun w => 1 - 1 / 2 * w)).
Qed.

Section Forcing.
  Variables (D n : nat) (S : stencil) (ps : list poly) (Minv : mat) (T : list R -> list R) (u0 : list R).
  Let M := moment_matrix ps S (rzero D).
  Hypothesis Hdim : Forall (fun c => length c = D) S.
  Hypothesis Hq : length S = n.
  Hypothesis Hps : length ps = n.
  Hypothesis HM : is_inverse n M Minv.
  Hypothesis HT : forall phi, length phi = n -> T (map (poly_moment phi S (rzero D)) ps) = map (poly_moment phi S u0) ps.
  Hypothesis Hu0 : length u0 = D.
  Hypothesis Hmodes : has_conserved_modes D ps.

  (* a vector whose entries at the conserved modes are 0 and k(i) F_a *)
  Definition force_vector (k : nat -> R) (F g : list R) : Prop :=
    length g = n /\ (forall i, nth_error ps i = Some (mono_poly (zero_tuple D)) -> nth i g 0 = 0) /\
    (forall i a, (a < D)%nat -> nth_error ps i = Some (mono_poly (unit_tuple D a)) -> nth i g 0 = k i * nth a F 0).

  Lemma index_lt i p : nth_error ps i = Some p -> (i < n)%nat.
  Proof. intros H. rewrite <- Hps. apply nth_error_Some. congruence. Qed.
  Lemma T_terms phi k F : pulse D S phi k F -> force_vector (fun _ => k) F (T (mv M phi)).
  Proof.
    intros (HL & H0 & H1). unfold M. rewrite mv_moment_matrix, HT by congruence. split; [now rewrite map_length|]. split.
    - intros i Hi. rewrite (nth_error_nth _ _ _ (map_nth_error (poly_moment phi S u0) _ _ Hi)), poly_moment_mono, central_zero. exact H0.
    - intros i a Ha Hi. rewrite (nth_error_nth _ _ _ (map_nth_error (poly_moment phi S u0) _ _ Hi)), poly_moment_mono, (central_unit D) by auto.
      rewrite H0, H1 by auto. lra.
  Qed.
  Lemma T_values v F : length v = n -> (forall i, nth_error ps i = Some (mono_poly (zero_tuple D)) -> nth i v 0 = 0) ->
    (forall i a, (a < D)%nat -> nth_error ps i = Some (mono_poly (unit_tuple D a)) -> nth i v 0 = nth a F 0) ->
    force_vector (fun _ => 1) F (T v).
  Proof.
    intros Hv H0 H1. pose proof HM as (W1 & W2 & HM1 & HM2). rewrite <- (HM1 v Hv). apply T_terms.
    assert (E : map (poly_moment (mv Minv v) S (rzero D)) ps = v) by (rewrite <- mv_moment_matrix; now apply HM1).
    assert (HD0 : density (mv Minv v) S = 0).
    { destruct Hmodes as [Hz _]. apply In_nth_error in Hz as [i Hi]. specialize (H0 i Hi). rewrite <- E in H0.
      rewrite (nth_error_nth _ _ _ (map_nth_error (poly_moment (mv Minv v) S (rzero D)) _ _ Hi)) in H0. fold (mono_poly (zero_exponents D)) in H0.
      now rewrite poly_moment_mono, central_zero in H0. }
    split; [rewrite mv_length; destruct W2; congruence|]. split; [exact HD0|].
    intros a Ha. destruct Hmodes as [_ Hz]. specialize (Hz a Ha). apply In_nth_error in Hz as [i Hi].
    specialize (H1 i a Ha Hi). rewrite <- E in H1.
    rewrite (nth_error_nth _ _ _ (map_nth_error (poly_moment (mv Minv v) S (rzero D)) _ _ Hi)) in H1. fold (mono_poly (unit_exponents D a)) in H1.
    rewrite poly_moment_mono in H1. change (unit_exponents D a) with (unit_tuple D a) in H1. rewrite (central_unit D) in H1 by (auto using rzero_length). rewrite HD0 in H1. lra.
  Qed.
  Lemma half_vector d k F g : length d = n -> force_vector (fun _ => k) F g -> force_vector (fun i => (1 - nth i d 0 / 2) * k) F (half_relaxed d g).
  Proof.
    intros Hd (HL & H0 & H1). split; [rewrite half_relaxed_length; lia|]. split.
    - intros i Hi. rewrite nth_half_relaxed by (try congruence; rewrite HL; eapply index_lt; eauto). rewrite (H0 i Hi). lra.
    - intros i a Ha Hi. rewrite nth_half_relaxed by (try congruence; rewrite HL; eapply index_lt; eauto). rewrite (H1 i a Ha Hi). lra.
  Qed.
  Lemma vector_ext k k' F g : (forall i, (i < n)%nat -> k i = k' i) -> force_vector k F g -> force_vector k' F g.
  Proof. intros E (HL & H0 & H1). split; [auto|]. split; [auto|]. intros i a Ha Hi. rewrite <- E by (eapply index_lt; eauto). auto. Qed.

  Variables (ws d : list R) (equilibrium : list R -> res (list R)) (compr : bool) (rho c0 : R) (u F : list R) (fm : force_model).
  Hypothesis Hws : isotropic_weights D S ws.
  Hypothesis Hd : length d = n.
  Hypothesis Hu : length u = D.
  Hypothesis HF : length F = D.
  Hypothesis Hr : reference_density compr rho <> 0.
  Hypothesis Heq : forall u', length u' = D -> exists e, equilibrium u' = Ok e /\ length e = n /\ density e S = c0 /\
     forall a, (a < D)%nat -> momentum e S a = reference_density compr rho * nth a u' 0.

  Lemma edm_pulse : exists t, edm_terms equilibrium compr rho u F = Ok t /\ pulse D S t 1 F.
  Proof.
    unfold edm_terms. destruct (Heq (radd u (map (fun x => x / reference_density compr rho) F))) as (e1 & -> & L1 & D1 & P1).
    { rewrite radd_length, map_length. lia. }
    destruct (Heq u Hu) as (e2 & -> & L2 & D2 & P2). cbn [rbind]. eexists. split; [reflexivity|].
    assert (E : forall h, fsum (rsub e1 e2) S h = fsum e1 S h - fsum e2 S h).
    { intros h. rewrite <- (radd_rsub_cancel e1 e2) at 2 by congruence. rewrite fsum_radd by (rewrite rsub_length; lia). lra. }
    split; [rewrite rsub_length; lia|]. unfold density, momentum in *. split; [rewrite E; lra|].
    intros a Ha. rewrite E, P1, P2 by auto. rewrite nth_radd by (rewrite map_length; congruence).
    replace 0 with (0 / reference_density compr rho) at 2 by (field; auto). rewrite (map_nth (fun x => x / reference_density compr rho)). field. auto.
  Qed.

  Lemma space_forcing_pulse : fm <> CentralMoment ->
    exists g, space_forcing fm D S ps M T ws d equilibrium compr rho u F = Ok g /\
      force_vector (fun i => if shifts_equilibrium fm then 1 - nth i d 0 / 2 else 1) F g.
  Proof.
    intros Hfm. destruct fm; try congruence; cbn [space_forcing shifts_equilibrium]; rewrite ?HF, ?Nat.eqb_refl.
    - eexists. split; [reflexivity|]. apply T_terms. now apply simple_pulse.
    - eexists. split; [reflexivity|]. apply T_terms. now apply luo_pulse.
    - eexists. split; [reflexivity|]. eapply vector_ext; [|apply half_vector, T_terms, luo_pulse; auto]. intros; cbn; lra.
    - eexists. split; [reflexivity|]. eapply vector_ext; [|apply (half_vector d 1), T_values; auto].
      + intros; cbn; lra.
      + rewrite values_length; auto.
      + intros i Hi. rewrite (nth_values _ _ _ _ Hi), poly_value_mono. rewrite <- Hu. apply he_zero. congruence.
      + intros i a Ha Hi. rewrite (nth_values _ _ _ _ Hi), poly_value_mono. rewrite <- Hu. apply he_unit; [congruence|lia].
    - eexists. split; [reflexivity|]. eapply vector_ext; [|apply half_vector, T_terms, simple_pulse; auto]. intros; cbn; lra.
    - destruct edm_pulse as (t & -> & Ht). cbn [rbind]. eexists. split; [reflexivity|]. now apply T_terms.
    - eexists. split; [reflexivity|].
      destruct (T_terms _ _ _ (shan_linear_pulse D S ws Hdim Hws u F Hu HF)) as (L1 & Z1 & P1).
      destruct (T_terms _ _ _ (shan_nonlinear_pulse D S ws Hdim Hws compr rho F HF Hr)) as (L2 & Z2 & P2).
      assert (LC : length (shan_chen_factor d) = n) by (unfold shan_chen_factor; now rewrite map_length).
      assert (NC : forall i, (i < n)%nat -> nth i (shan_chen_factor d) 0 = 3 * (1 - nth i d 0 / 2)).
      { intros i Hi. unfold shan_chen_factor. rewrite nth_indep with (d' := (fun w => / (1 / 3) * (1 - 1 / 2 * w)) 0) by (rewrite map_length; lia).
        rewrite (map_nth (fun w => / (1 / 3) * (1 - 1 / 2 * w))). field. }
      split; [rewrite radd_length, !rmul_length; lia|]. split.
      + intros i Hi. rewrite nth_radd, !nth_rmul by (rewrite ?rmul_length; lia). rewrite (Z1 i Hi), (Z2 i Hi). lra.
      + intros i a Ha Hi. rewrite nth_radd, !nth_rmul by (rewrite ?rmul_length; lia). rewrite (P1 i a Ha Hi), (P2 i a Ha Hi), NC by (eapply index_lt; eauto). lra.
  Qed.
End Forcing.

(* ---- collisions ---- *)
Section Steps.
  Variables (D n : nat) (S : stencil) (ps : list poly) (zc dev compr : bool) (eqm eqc : R -> list R -> list nat -> R).
  Variables (ws w d f : list R) (Minv : mat) (force : option (force_model * list R)).
  Let M := moment_matrix ps S (rzero D).
  Hypothesis Hdim : Forall (fun c => length c = D) S.
  Hypothesis Hq : length S = n.
  Hypothesis Hps : length ps = n.
  Hypothesis HM : is_inverse n M Minv.
  Hypothesis Hmodes : has_conserved_modes D ps.
  Hypothesis Hd : length d = n.
  Hypothesis Hf : length f = n.
  Hypothesis Hdz : dev = true -> zc = true.
  Hypothesis Hr : compr = true -> pdf_density zc f <> 0.
  Hypothesis Hw : storage_background D n S zc dev w.
  Hypothesis Hforce : forall fm F, force = Some (fm, F) -> fm <> CentralMoment /\ length F = D /\ isotropic_weights D S ws.
  Let rho := pdf_density zc f.
  Let u := equilibrium_velocity D S zc compr force f.
  Definition impulse : list R := match force with Some (_, F) => F | None => rzero D end.

  Lemma Hlen : forall fm F, force = Some (fm, F) -> length F = D.
  Proof. intros fm F E. now apply Hforce in E. Qed.
  Lemma Lu : length u = D. Proof. apply velocity_length, Hlen. Qed.
  Lemma Ref : reference_density compr rho <> 0. Proof. now apply reference_nonzero. Qed.
  Lemma stored_density : density f S + density w S = rho - (if dev then 1 else 0).
  Proof.
    destruct Hw as (_ & -> & _). unfold rho, pdf_density. rewrite density_rsum by congruence.
    destruct dev; [rewrite Hdz by reflexivity|]; destruct zc; cbn; lra.
  Qed.

  (* what remains to be shown about the equilibrium and force vectors *)
  Lemma step_impulse u0 eqs g f' : length u0 = D -> length eqs = n -> length f' = n ->
    force_vector D n ps (fun i => match force with Some (fm, _) => if shifts_equilibrium fm then 1 - nth i d 0 / 2 else 1 | None => 1 end) impulse g ->
    (forall i, nth_error ps i = Some (mono_poly (zero_tuple D)) -> nth i eqs 0 = rho - (if dev then 1 else 0)) ->
    (forall i a, (a < D)%nat -> nth_error ps i = Some (mono_poly (unit_tuple D a)) ->
       nth i eqs 0 = reference_density compr rho * nth a u 0 - nth a u0 0 * (rho - (if dev then 1 else 0))) ->
    map (poly_moment (radd f' w) S u0) ps = radd (relax d eqs (map (poly_moment (radd f w) S u0) ps)) g ->
    adds_impulse D S impulse f f'.
  Proof.
    intros Hu0 He Hf' (Lg & G0 & G1) E0 E1 Hk. pose proof stored_density as SD. pose proof Hw as (Lw & _ & Mw).
    assert (HD : density f' S = density f S).
    { destruct Hmodes as [Hz _]. apply In_nth_error in Hz as [i Hi]. change [(1, zero_exponents D)] with (mono_poly (zero_tuple D)) in Hi.
      rewrite (mass_change D n S ps w u0 Hps Lw Hu0 d eqs g f f' Hd He Lg Hf Hf' Hk i Hi), (E0 i Hi), (G0 i Hi), SD. lra. }
    split; [exact HD|]. intros a Ha. destruct Hmodes as [_ Hz]. specialize (Hz a Ha). apply In_nth_error in Hz as [i Hi].
    change [(1, unit_exponents D a)] with (mono_poly (unit_tuple D a)) in Hi.
    rewrite (momentum_change D n S ps w u0 Hdim Hps Lw Hu0 d eqs g f f' Hd He Lg Hf Hf' Hk i a Ha HD Hi), (E1 i a Ha Hi), (G1 i a Ha Hi), SD, Mw by auto.
    pose proof (velocity_nth D S zc compr force f a Ha Hlen Ref) as V. cbv zeta in V. fold rho u in V. rewrite V. unfold impulse.
    destruct force as [[fm F]|]; [|rewrite nth_rzero; lra]. destruct (shifts_equilibrium fm); lra.
  Qed.
  Lemma zero_vector k : force_vector D n ps k (rzero D) (rzero n).
  Proof. split; [apply rzero_length|]. split; intros; rewrite !nth_rzero; lra. Qed.

  (* raw moments *)
  Section Raw.
    Variables (fwd bwd : list R -> res (list R)).
    Hypothesis HT : moment_transform n S ps w (rzero D) fwd bwd.
    Hypothesis Heq : hydro_moments D compr dev eqm.
    Lemma raw_values u' : length u' = D ->
      (forall i, nth_error ps i = Some (mono_poly (zero_tuple D)) -> nth i (equilibrium_values ps (eqm rho u')) 0 = rho - (if dev then 1 else 0)) /\
      (forall i a, (a < D)%nat -> nth_error ps i = Some (mono_poly (unit_tuple D a)) -> nth i (equilibrium_values ps (eqm rho u')) 0 = reference_density compr rho * nth a u' 0).
    Proof.
      intros Hu'. destruct (Heq rho u' Hu') as [E0 E1]. split; [intros i Hi|intros i a Ha Hi]; rewrite (nth_values _ _ _ _ Hi), poly_value_mono; [exact E0|now apply E1].
    Qed.
    Lemma raw_populations u' : length u' = D -> exists e, raw_equilibrium_populations ps eqm bwd rho u' = Ok e /\ length e = n /\
      density e S = rho - (if dev then 1 else 0) - density w S /\ forall a, (a < D)%nat -> momentum e S a = reference_density compr rho * nth a u' 0.
    Proof.
      intros Hu'. destruct HT as (_ & HB & _). destruct (HB (equilibrium_values ps (eqm rho u'))) as (e & E1 & E2 & E3); [rewrite values_length; auto|].
      exists e. split; [exact E1|]. split; [exact E2|]. destruct (raw_values u' Hu') as [V0 V1]. pose proof Hw as (Lw & _ & Mw).
      assert (HD : density e S = rho - (if dev then 1 else 0) - density w S).
      { destruct Hmodes as [Hz _]. apply In_nth_error in Hz as [i Hi]. change [(1, zero_exponents D)] with (mono_poly (zero_tuple D)) in Hi.
        rewrite <- (V0 i Hi), <- E3, (nth_error_nth _ _ _ (map_nth_error (poly_moment (radd e w) S (rzero D)) _ _ Hi)), poly_moment_mono, central_zero.
        unfold density. rewrite fsum_radd by congruence. lra. }
      split; [exact HD|]. intros a Ha. destruct Hmodes as [_ Hz]. specialize (Hz a Ha). apply In_nth_error in Hz as [i Hi]. change [(1, unit_exponents D a)] with (mono_poly (unit_tuple D a)) in Hi.
      rewrite <- (V1 i a Ha Hi), <- E3, (nth_error_nth _ _ _ (map_nth_error (poly_moment (radd e w) S (rzero D)) _ _ Hi)), poly_moment_mono, (central_unit D) by (auto using rzero_length).
      rewrite nth_rzero. specialize (Mw a Ha). unfold momentum in *. rewrite fsum_radd by congruence. lra.
    Qed.
    Lemma raw_step : exists f', moment_collision D S ps zc compr eqm ws M fwd bwd d force f = Ok f' /\ length f' = n /\ adds_impulse D S impulse f f'.
    Proof.
      unfold moment_collision. fold u. fold rho.
      assert (G : exists g, match force with None => Ok (rzero (length S)) | Some (fm, F) =>
                   space_forcing fm D S ps M (fun m => m) ws d (raw_equilibrium_populations ps eqm bwd rho) compr rho u F end = Ok g /\
                 force_vector D n ps (fun i => match force with Some (fm, _) => if shifts_equilibrium fm then 1 - nth i d 0 / 2 else 1 | None => 1 end) impulse g).
      { pose proof Lu as HLu. pose proof Ref as HRef. unfold impulse. clearbody u. destruct force as [[fm F]|].
        - destruct (Hforce fm F eq_refl) as (Hc & HF & Hiso).
          eapply (space_forcing_pulse D n S ps Minv (fun m => m) (rzero D)); eauto using rzero_length, raw_populations.
        - exists (rzero n). split; [now rewrite Hq|apply zero_vector]. }
      destruct G as (g & -> & Hg). cbn [rbind].
      pose proof Hw as (Lw & _).
      destruct (collide_defined D n S ps w (rzero D) fwd bwd HT Hps Lw (rzero_length D) d (equilibrium_values ps (eqm rho u)) g f) as (f' & E1 & E2 & E3); auto; [rewrite values_length; auto|apply Hg|].
      exists f'. split; [exact E1|]. split; [exact E2|]. destruct (raw_values u Lu) as [V0 V1].
      apply (step_impulse (rzero D) (equilibrium_values ps (eqm rho u)) g f'); auto using rzero_length; [rewrite values_length; auto|].
      intros i a Ha Hi. rewrite (V1 i a Ha Hi), nth_rzero. lra.
    Qed.
  End Raw.

  (* central moments *)
  Section Central.
    Variables (fwd bwd : list R -> list R -> res (list R)).
    Hypothesis HT : forall u', length u' = D -> moment_transform n S ps w u' (fwd u') (bwd u').
    Hypothesis Heq : hydro_central_moments D compr dev eqc.
    Lemma central_values u' : length u' = D ->
      (forall i, nth_error ps i = Some (mono_poly (zero_tuple D)) -> nth i (equilibrium_values ps (eqc rho u')) 0 = rho - (if dev then 1 else 0)) /\
      (forall i a, (a < D)%nat -> nth_error ps i = Some (mono_poly (unit_tuple D a)) -> nth i (equilibrium_values ps (eqc rho u')) 0 =
         reference_density compr rho * nth a u' 0 - nth a u' 0 * (rho - (if dev then 1 else 0))).
    Proof.
      intros Hu'. destruct (Heq rho u' Hu') as [E0 E1]. split; [intros i Hi|intros i a Ha Hi]; rewrite (nth_values _ _ _ _ Hi), poly_value_mono; [exact E0|now apply E1].
    Qed.
    Lemma central_populations u' : length u' = D -> exists e, central_equilibrium_populations ps eqc bwd rho u' = Ok e /\ length e = n /\
      density e S = rho - (if dev then 1 else 0) - density w S /\ forall a, (a < D)%nat -> momentum e S a = reference_density compr rho * nth a u' 0.
    Proof.
      intros Hu'. destruct (HT u' Hu') as (_ & HB & _). destruct (HB (equilibrium_values ps (eqc rho u'))) as (e & E1 & E2 & E3); [rewrite values_length; auto|].
      exists e. split; [exact E1|]. split; [exact E2|]. destruct (central_values u' Hu') as [V0 V1]. pose proof Hw as (Lw & _ & Mw).
      assert (HD : density e S = rho - (if dev then 1 else 0) - density w S).
      { destruct Hmodes as [Hz _]. apply In_nth_error in Hz as [i Hi]. change [(1, zero_exponents D)] with (mono_poly (zero_tuple D)) in Hi.
        rewrite <- (V0 i Hi), <- E3, (nth_error_nth _ _ _ (map_nth_error (poly_moment (radd e w) S u') _ _ Hi)), poly_moment_mono, central_zero.
        unfold density. rewrite fsum_radd by congruence. lra. }
      split; [exact HD|]. intros a Ha. destruct Hmodes as [_ Hz]. specialize (Hz a Ha). apply In_nth_error in Hz as [i Hi]. change [(1, unit_exponents D a)] with (mono_poly (unit_tuple D a)) in Hi.
      specialize (V1 i a Ha Hi). rewrite <- E3, (nth_error_nth _ _ _ (map_nth_error (poly_moment (radd e w) S u') _ _ Hi)), poly_moment_mono, (central_unit D) in V1 by auto.
      specialize (Mw a Ha). unfold momentum, density in *. rewrite !fsum_radd in V1 by congruence. rewrite HD, Mw in V1.
      replace (rho - (if dev then 1 else 0) - fsum w S (fun _ => 1) + fsum w S (fun _ => 1)) with (rho - (if dev then 1 else 0)) in V1 by lra. lra.
    Qed.
    Lemma shift_T u' phi : length u' = D -> length phi = n -> mv (shift_matrix (length S) (moment_matrix ps S u') Minv) (map (poly_moment phi S (rzero D)) ps) = map (poly_moment phi S u') ps.
    Proof. intros Hu' Hphi. rewrite Hq. eapply (poly_shift_action D n S ps); eauto. Qed.
    Lemma central_step : exists f', central_collision D S ps zc compr eqc ws M Minv fwd bwd d force f = Ok f' /\ length f' = n /\ adds_impulse D S impulse f f'.
    Proof.
      unfold central_collision. fold u. fold rho.
      assert (G : exists g, match force with None => Ok (rzero (length S)) | Some (fm, F) =>
                   space_forcing fm D S ps M (mv (shift_matrix (length S) (moment_matrix ps S u) Minv)) ws d (central_equilibrium_populations ps eqc bwd rho) compr rho u F end = Ok g /\
                 force_vector D n ps (fun i => match force with Some (fm, _) => if shifts_equilibrium fm then 1 - nth i d 0 / 2 else 1 | None => 1 end) impulse g).
      { pose proof Lu as HLu. pose proof Ref as HRef. unfold impulse. clearbody u. destruct force as [[fm F]|].
        - destruct (Hforce fm F eq_refl) as (Hc & HF & Hiso).
          eapply (space_forcing_pulse D n S ps Minv (mv (shift_matrix (length S) (moment_matrix ps S u) Minv)) u); eauto using central_populations.
          intros phi Hphi. now apply shift_T.
        - exists (rzero n). split; [now rewrite Hq|apply zero_vector]. }
      destruct G as (g & -> & Hg). cbn [rbind].
      pose proof Hw as (Lw & _).
      destruct (collide_defined D n S ps w u (fwd u) (bwd u) (HT u Lu) Hps Lw Lu d (equilibrium_values ps (eqc rho u)) g f) as (f' & E1 & E2 & E3); auto; [rewrite values_length; auto|apply Hg|].
      exists f'. split; [exact E1|]. split; [exact E2|]. destruct (central_values u Lu) as [V0 V1].
      apply (step_impulse u (equilibrium_values ps (eqc rho u)) g f'); auto using Lu; rewrite values_length; auto.
    Qed.
  End Central.
End Steps.
