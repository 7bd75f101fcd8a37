(* Cumulant collisions with prescribed density and velocity. *)
From Coq Require Import String List ZArith Bool Arith Reals Lra Lia.
From Verif Require Import StencilModel RealLib LinLib TransSpec TransModel MomModel EqModel EqSpec CumModel CumProofs CumProofs2 CumProofs3 CumProofs4 CollSpec CollModel TransProofs TransProofs2 TransProofs3 CollProofs CollProofs2 CollProofs3 CollProofs4 CollProofs6 CollProofs7 MacroModel IniModel IniSpec IniProofs TrackSpec TrackModel TrackProofs CinModel.
Import ListNotations.
Local Open Scope R_scope.

Section Input.
  Variables (D n : nat) (S : stencil) (ps : list poly) (zc dev compr : bool).
  Variables (ws w f : list R) (cexps cms : list (list nat)) (P Pinv Minv : mat) (force : option (force_model * list R)).
  Variables (fwd bwd : list R -> list R -> res (list R)) (eqC : R -> list R -> list nat -> R) (d : list R).
  Let m := length cexps.
  Hypothesis Hdim : Forall (fun c => length c = D) S.
  Hypothesis Hq : length S = n.
  Hypothesis Hcms : length cms = n.
  Hypothesis Hcnd : NoDup cms.
  Hypothesis Hcmodes : In (zero_tuple D) cms /\ forall a, (a < D)%nat -> In (unit_tuple D a) cms.
  Hypothesis HM : is_inverse n (monomial_matrix cms S (rzero D)) Minv.
  Hypothesis Hexps : NoDup cexps.
  Hypothesis Hpnd : Forall (fun p => NoDup (map snd p)) ps.
  Hypothesis HP : mono_to_poly cexps ps = Ok P.
  Hypothesis HPinv : is_inverse m P Pinv.
  Hypothesis Hmodes : has_conserved_modes D ps.
  Hypothesis Hf : length f = n.
  Hypothesis Hd : length d = m.
  Hypothesis Hdz : zc && dev = false.
  Hypothesis Hrho : 0 < mass zc S f.
  Hypothesis Hw : storage_background D n S zc false w.
  Hypothesis HT : forall u', length u' = D -> moment_transform n S (map mono_poly cms) w u' (fwd u') (bwd u').
  Hypothesis HC : hydro_cumulants D eqC.
  Hypothesis Hforce : forall fm F, force = Some (fm, F) -> In fm [Simple; Luo; Guo; He; CentralMoment] /\ length F = D /\ isotropic_weights D S ws /\
    (fm = CentralMoment -> exists rest, cms = zero_tuple D :: map (unit_tuple D) (seq 0 D) ++ rest).
  Variables (rho_in : option R) (v : list R).
  Hypothesis Hv : (D <= length v)%nat.
  Let rho := mass zc S f.
  Let r := match rho_in with Some r => r | None => rho end.
  Hypothesis Hr : 0 < r.
  Let u := firstn D v.
  Let MP := map mono_poly cms.
  Let before_share := match force with Some (fm, _) => if shifts_equilibrium fm then 1 / 2 else 0 | None => 0 end.
  Let after_share := match force with Some (fm, _) => if shifts_equilibrium fm then 1 / 2 else 1 | None => 1 end.

  Lemma in_u : length u = D. Proof. unfold u. rewrite firstn_length. lia. Qed.
  Lemma in_forcing : exists before after, match force with None => Ok (rzero (length S), rzero (length S)) | Some (fm, F) =>
        symmetric_forcing fm D S cms (mv (shift_matrix (length S) (monomial_matrix cms S u) Minv)) ws u F end = Ok (before, after) /\
      force_vector D n MP (fun _ => before_share) (impulse D force) before /\ force_vector D n MP (fun _ => after_share) (impulse D force) after.
  Proof.
    assert (Z : forall k F, (k = 0 \/ F = rzero D) -> force_vector D n MP (fun _ => k) F (rzero n)).
    { intros k F H. split; [apply rzero_length|]. split; intros; rewrite nth_rzero; [auto|]. destruct H as [-> | ->]; rewrite ?nth_rzero; lra. }
    assert (CT : forall phi k F, pulse D S phi k F -> length F = D -> forall u', length u' = D -> force_vector D n MP (fun _ => k) F (mv (monomial_matrix cms S u') phi)) by (intros; apply (c_terms D n S cms); auto).
    assert (CH : forall F g k, force_vector D n MP (fun _ => k) F g -> force_vector D n MP (fun _ => k / 2) F (rscal (1 / 2) g)) by (intros; now apply (c_half D n cms)).
    pose proof in_u as HL. unfold impulse, before_share, after_share. clearbody u. clear before_share after_share. destruct force as [[fm F]|].
    2:{ exists (rzero n), (rzero n). split; [now rewrite Hq|]. auto. }
    destruct (Hforce fm F eq_refl) as (Hin & HF & Hiso & Hcm).
    pose proof (simple_pulse D S ws Hdim Hiso F HF) as SP. pose proof (luo_pulse D S ws Hdim Hiso u F HL HF) as LP.
    destruct fm; cbn [symmetric_forcing shifts_equilibrium] in *.
    - rewrite HF, Nat.eqb_refl. do 2 eexists. split; [reflexivity|]. rewrite Hq. split; [auto|]. now apply CT.
    - destruct (Hcm eq_refl) as (rest & Ec). assert (Ln : n = (1 + D + length rest)%nat) by (rewrite <- Hcms, Ec; cbn; rewrite app_length, map_length, seq_length; lia).
      assert (Lt : (length F <? length S)%nat = true) by (apply Nat.ltb_lt; lia). rewrite Lt. do 2 eexists. split; [reflexivity|].
      assert (G : force_vector D n MP (fun _ => 1 / 2) F (0 :: map (fun x => 1 / 2 * x) F ++ rzero (length S - 1 - length F))).
      { split; [cbn; rewrite app_length, map_length, rzero_length; lia|].
        assert (Nz : nth_error cms 0 = Some (zero_tuple D)) by (rewrite Ec; reflexivity).
        assert (Nu : forall a, (a < D)%nat -> nth_error cms (1 + a) = Some (unit_tuple D a)).
        { intros a Ha. rewrite Ec. cbn [Nat.add nth_error]. rewrite nth_error_app1 by (rewrite map_length, seq_length; auto). erewrite map_nth_error; [reflexivity|].
          rewrite (nth_error_nth' (seq 0 D) 0%nat) by (rewrite seq_length; auto). now rewrite seq_nth. }
        split.
        - intros i Hi. apply nth_error_mono_inv in Hi. assert (i = 0%nat) as ->; [|reflexivity].
          apply (proj1 (NoDup_nth_error cms) Hcnd); [apply nth_error_Some; congruence|congruence].
        - intros i a Ha Hi. apply nth_error_mono_inv in Hi. assert (i = (1 + a)%nat) as ->.
          { apply (proj1 (NoDup_nth_error cms) Hcnd); [apply nth_error_Some; congruence|]. rewrite Nu; auto. }
          cbn [Nat.add nth]. rewrite app_nth1 by (rewrite map_length; lia).
          rewrite nth_indep with (d' := 1 / 2 * 0) by (rewrite map_length; lia). now rewrite (map_nth (fun x => 1 / 2 * x)). }
      auto.
    - do 2 eexists. split; [reflexivity|]. rewrite Hq. split; [auto|]. now apply CT.
    - do 2 eexists. split; [reflexivity|]. assert (force_vector D n MP (fun _ => 1 / 2) F (rscal (1 / 2) (mv (monomial_matrix cms S u) (luo_terms S ws u F)))) by (apply CH; now apply CT). auto.
    - do 2 eexists. split; [reflexivity|].
      assert (G : force_vector D n MP (fun _ => 1 / 2) F (rscal (1 / 2) (mv (shift_matrix (length S) (monomial_matrix cms S u) Minv) (map (he_moment D u F) cms)))).
      { apply CH. rewrite (c_mm S cms). apply (T_values D n S MP Minv (mv (shift_matrix (length S) (moment_matrix MP S u) Minv)) u Hdim Hq); auto.
        - unfold MP. now rewrite map_length.
        - unfold MP. now rewrite <- (c_mm S cms).
        - intros phi Hphi. apply (shift_T D n); auto. unfold MP. now rewrite <- (c_mm S cms).
        - unfold MP. now apply c_modes.
        - now rewrite map_length.
        - intros i Hi. apply nth_error_mono_inv in Hi. rewrite (nth_error_nth _ _ _ (map_nth_error (he_moment D u F) _ _ Hi)). rewrite <- HL. apply he_zero. congruence.
        - intros i a Ha Hi. apply nth_error_mono_inv in Hi. rewrite (nth_error_nth _ _ _ (map_nth_error (he_moment D u F) _ _ Hi)). rewrite <- HL in *. apply he_unit; congruence. }
      auto.
    - cbn in Hin. intuition discriminate.
    - cbn in Hin. intuition discriminate.
    - cbn in Hin. intuition discriminate.
  Qed.
  Lemma in_quantities : given_quantities D S zc compr force rho_in (Some v) f = Ok (r, u).
  Proof.
    assert (Er : pdf_density zc f = rho) by (unfold rho, mass, pdf_density; rewrite density_rsum by congruence; reflexivity).
    assert (Eu : forall x : list R, length x = D -> overwrite x v = u). { intros x Lx. unfold overwrite, u. rewrite Lx, skipn_all2 by lia. apply app_nil_r. }
    unfold given_quantities, input_quantities, forced_quantities, r. destruct force as [[fm F]|].
    - rewrite Eu, Er by (apply velocity_length; intros ? ? E; injection E as <- <-; now apply (Hforce fm F)). now destruct rho_in.
    - rewrite Eu, Er by (apply velocity_length; discriminate). now destruct rho_in.
  Qed.
  Lemma in_step : exists f', cumulant_input_collision D S ps zc dev compr ws cexps cms P Pinv Minv eqC fwd bwd d force rho_in (Some v) f = Ok f' /\ length f' = n /\
    (forall i, nth_error ps i = Some (mono_poly (zero_tuple D)) -> mass zc S f' = rho * Rpower (r / rho) (nth i d 0)) /\
    (forall i a, (a < D)%nat -> nth_error ps i = Some (mono_poly (unit_tuple D a)) ->
      let U := (momentum f S a + before_share * nth a (impulse D force) 0) / rho in
      momentum f' S a = mass zc S f' * (U + nth i d 0 * (nth a v 0 - U)) + after_share * nth a (impulse D force) 0).
  Proof.
    unfold cumulant_input_collision. rewrite in_quantities. cbn [rbind fst snd]. rewrite Hdz. destruct in_forcing as (before & after & E & HB & HA). rewrite E. cbn [rbind fst snd]. clear E.
    pose proof in_u as HL. destruct (HT u HL) as (T1 & T2 & _). rewrite T1 by auto. cbn [rbind].
    pose proof Hw as (Lw & Dw & Mw).
    set (kappa := map (poly_moment (radd f w) S u) (map mono_poly cms)).
    assert (Lk : length kappa = n) by (unfold kappa; now rewrite !map_length).
    assert (Lr : length (radd kappa before) = n) by (rewrite radd_length; destruct HB; lia).
    assert (DF : density (radd f w) S = rho). { unfold density in *. rewrite fsum_radd by congruence. rewrite Dw. unfold rho, mass, density. destruct zc; cbn; lra. }
    assert (MF : forall a, (a < D)%nat -> momentum (radd f w) S a = momentum f S a).
    { intros a Ha. specialize (Mw a Ha). unfold momentum in *. rewrite fsum_radd by congruence. lra. }
    assert (Hr0 : 0 < rho) by exact Hrho.
    destruct Hcmodes as [Cz Cu]. apply In_nth_error in Cz as [iz Hiz].
    assert (K0 : lookup cms (radd kappa before) (zero_tuple D) = rho).
    { rewrite (c_lookup n f cms Hcms Hcnd Hf _ _ _ Lr Hiz), nth_radd by (destruct HB; congruence). destruct HB as (_ & B0 & _). rewrite (B0 iz (nth_error_mono _ _ _ Hiz)).
      unfold kappa. rewrite map_map, (nth_error_nth _ _ _ (map_nth_error (fun x => poly_moment (radd f w) S u (mono_poly x)) _ _ Hiz)), poly_moment_mono, central_zero, DF. lra. }
    assert (K1 : forall a, (a < D)%nat -> lookup cms (radd kappa before) (unit_tuple D a) = momentum f S a - nth a u 0 * rho + before_share * nth a (impulse D force) 0).
    { intros a Ha. destruct (In_nth_error _ _ (Cu a Ha)) as [i Hi]. rewrite (c_lookup n f cms Hcms Hcnd Hf _ _ _ Lr Hi), nth_radd by (destruct HB; congruence).
      destruct HB as (_ & _ & B1). rewrite (B1 i a Ha (nth_error_mono _ _ _ Hi)). unfold kappa.
      rewrite map_map, (nth_error_nth _ _ _ (map_nth_error (fun x => poly_moment (radd f w) S u (mono_poly x)) _ _ Hi)), poly_moment_mono, (central_unit D), DF, MF by auto. reflexivity. }
    set (kap := lookup cms (radd kappa before)) in *. set (C := cumulant_forward D u r cexps P kap).
    pose proof (c_ps ps cexps P Pinv Hexps Hpnd HP HPinv) as Lp. fold m in Lp.
    assert (LC : length C = m) by (unfold C, cumulant_forward; rewrite mv_length; apply HPinv).
    set (Cp := relax d (equilibrium_values ps (eqC r u)) C).
    assert (LCp : length Cp = m) by (unfold Cp, relax; rewrite radd_length, rmul_length, rsub_length, values_length; lia).
    assert (CV : forall i e, nth_error ps i = Some (mono_poly e) -> nth i C 0 = cumulant_from_central_moments D u r kap e).
    { intros i e Hi. unfold C, cumulant_forward. destruct (mono_to_poly_spec cexps ps P (cumulant_from_central_moments D u r kap) Hexps Hpnd HP) as [_ ->].
      change (nth i (equilibrium_values ps (cumulant_from_central_moments D u r kap)) 0 = cumulant_from_central_moments D u r kap e).
      now rewrite (nth_values _ _ _ _ Hi), poly_value_mono. }
    assert (RV : forall i e, nth_error ps i = Some (mono_poly e) -> nth i Cp 0 = cumulant_from_central_moments D u r kap e + nth i d 0 * (eqC r u e - cumulant_from_central_moments D u r kap e)).
    { intros i e Hi. assert (Hlt : (i < m)%nat) by (rewrite <- Lp; apply nth_error_Some; congruence).
      unfold Cp, relax. rewrite nth_radd, nth_rmul, nth_rsub by (rewrite ?rmul_length, ?rsub_length, ?values_length; lia). now rewrite (nth_values _ _ _ _ Hi), poly_value_mono, (CV i e Hi). }
    set (c := lookup cexps (mv Pinv Cp)).
    assert (PV : forall i e, nth_error ps i = Some (mono_poly e) -> c e = nth i Cp 0).
    { intros i e Hi. destruct HPinv as (W1 & W2 & H1 & H2). rewrite <- (H1 Cp LCp). assert (LP : length (mv Pinv Cp) = m) by (rewrite mv_length; apply W2).
      rewrite <- (map_lookup cexps (mv Pinv Cp) Hexps LP). destruct (mono_to_poly_spec cexps ps P c Hexps Hpnd HP) as [_ E]. unfold c in E at 1. rewrite E.
      change (c e = nth i (equilibrium_values ps c) 0). now rewrite (nth_values _ _ _ _ Hi), poly_value_mono. }
    destruct (HC r u HL Hr) as [Q0 Q1].
    assert (LD : (length u <= D)%nat) by lia.
    assert (c0 : forall i, nth_error ps i = Some (mono_poly (zero_tuple D)) -> exp (c (zero_tuple D) / r) = rho * Rpower (r / rho) (nth i d 0)).
    { intros i Hi. rewrite (PV i _ Hi), (RV i _ Hi). change (zero_tuple D) with (zero_exponents D) at 2. rewrite Q0. rewrite cumulant_zero, K0 by auto. unfold Rpower. rewrite <- (exp_ln rho Hr0) at 3. rewrite <- exp_plus. f_equal.
      assert (EL : ln (r / rho) = ln r - ln rho) by (unfold Rdiv; rewrite ln_mult, ln_Rinv by (auto; now apply Rinv_0_lt_compat); ring). rewrite EL. field. lra. }
    assert (c1 : forall i a, (a < D)%nat -> nth_error ps i = Some (mono_poly (unit_tuple D a)) ->
      c (unit_tuple D a) = r * (let U := (momentum f S a + before_share * nth a (impulse D force) 0) / rho in U + nth i d 0 * (nth a u 0 - U))).
    { intros i a Ha Hi. rewrite (PV i _ Hi), (RV i _ Hi). change (unit_tuple D a) with (unit_exponents D a) at 2. rewrite (Q1 a Ha). rewrite cumulant_unit, K0, K1 by (auto; rewrite K0; lra). cbv zeta. field. lra. }
    unfold cumulant_backward. fold c.
    assert (Lpost : length (radd (map (central_moment_from_cumulants D u r c) cms) after) = n) by (rewrite radd_length, map_length; destruct HA; lia).
    destruct (T2 _ Lpost) as (f' & E1 & E2 & E3). exists f'. split; [exact E1|]. split; [exact E2|].
    assert (X : forall e i, nth_error cms i = Some e -> central_moment (radd f' w) S u e = central_moment_from_cumulants D u r c e + nth i after 0).
    { intros e i Hi. rewrite map_map in E3. rewrite <- poly_moment_mono. rewrite <- (nth_error_nth _ _ 0 (map_nth_error (fun x => poly_moment (radd f' w) S u (mono_poly x)) _ _ Hi)), E3.
      rewrite nth_radd by (rewrite map_length; destruct HA; lia). f_equal. now rewrite (nth_error_nth _ _ _ (map_nth_error (central_moment_from_cumulants D u r c) _ _ Hi)). }
    assert (DF' : density (radd f' w) S = mass zc S f'). { unfold density in *. rewrite fsum_radd by congruence. rewrite Dw. unfold mass, density. destruct zc; cbn; lra. }
    assert (D' : mass zc S f' = exp (c (zero_tuple D) / r)).
    { rewrite <- DF', <- (central_zero _ S u D), (X _ iz Hiz), moment_zero by auto. destruct HA as (_ & A0 & _). rewrite (A0 iz (nth_error_mono _ _ _ Hiz)). lra. }
    split; [intros i Hi; rewrite D'; now apply c0|].
    intros i a Ha Hi. destruct (In_nth_error _ _ (Cu a Ha)) as [j Hj]. specialize (X _ j Hj). rewrite (central_unit D) in X by auto.
    rewrite moment_unit, (c1 i a Ha Hi), <- D', DF' in X by auto. destruct HA as (_ & _ & A1). rewrite (A1 j a Ha (nth_error_mono _ _ _ Hj)) in X.
    specialize (Mw a Ha). assert (MF' : momentum (radd f' w) S a = momentum f' S a) by (unfold momentum in *; rewrite fsum_radd by congruence; lra). rewrite MF' in X. cbv zeta in *.
    assert (Eu : nth a u 0 = nth a v 0) by (unfold u; now apply nth_firstn_lt). rewrite Eu in X. clear - X Hr. set (M' := momentum f' S a) in *. set (q := (momentum f S a + _) / rho) in *.
    replace (r * (q + nth i d 0 * (nth a v 0 - q)) / r) with (q + nth i d 0 * (nth a v 0 - q)) in X by (field; lra). lra.
  Qed.
  (* without force every polynomial cumulant relaxes on its own *)
  Hypothesis Hdown : down_closed cexps.
  Hypothesis Hdims : Forall (fun e => length e = D) cexps.
  Hypothesis Hincl : incl cexps cms.
  Lemma in_relax f' : force = None -> cumulant_input_collision D S ps zc dev compr ws cexps cms P Pinv Minv eqC fwd bwd d force rho_in (Some v) f = Ok f' -> length f' = n ->
    let before := cumulant_forward D u r cexps P (central_moment (radd f w) S u) in
    cumulant_forward D u r cexps P (central_moment (radd f' w) S u) = radd before (rmul d (rsub (equilibrium_values ps (eqC r u)) before)).
  Proof.
    intros Ef E0 Lf'. unfold cumulant_input_collision in E0. rewrite in_quantities, Ef in E0. cbn [rbind fst snd] in E0. rewrite Hdz in E0.
    pose proof in_u as HL. destruct (HT u HL) as (T1 & T2 & _). rewrite T1 in E0 by auto. cbn [rbind] in E0. pose proof Hw as (Lw & Dw & Mw).
    set (kappa := map (poly_moment (radd f w) S u) (map mono_poly cms)) in *.
    assert (EK : radd kappa (rzero (length S)) = map (central_moment (radd f w) S u) cms).
    { unfold kappa. rewrite map_map, (map_ext _ _ (poly_moment_mono (radd f w) S u)). assert (E : length S = length (map (central_moment (radd f w) S u) cms)) by (rewrite map_length; congruence). rewrite E. apply radd_zero_r. }
    rewrite EK in E0. pose proof Hdims as Hce'. rewrite Forall_forall in Hce'. assert (LD : (length u <= D)%nat) by lia.
    assert (K0 : 0 < central_moment (radd f w) S u (repeat 0%nat D)).
    { change (repeat 0%nat D) with (zero_tuple D). rewrite central_zero. unfold density in *. rewrite fsum_radd by congruence. rewrite Dw. unfold mass, density in Hrho. destruct zc; cbn in *; lra. }
    assert (EC : cumulant_forward D u r cexps P (lookup cms (map (central_moment (radd f w) S u) cms)) = cumulant_forward D u r cexps P (central_moment (radd f w) S u)).
    { unfold cumulant_forward. f_equal. apply map_ext_in. intros e He. symmetry. apply cfm_ext; [lia|auto|auto|]. intros e' L' Hle. symmetry. apply lookup_map. apply Hincl, (Hdown e e'); auto. rewrite (Hce' e He); auto. }
    rewrite EC in E0. set (C := relax _ _ _) in E0. pose proof (c_ps ps cexps P Pinv Hexps Hpnd HP HPinv) as Lp. fold m in Lp. destruct HPinv as (HPw & HPiw & HP1 & HP2).
    assert (LC : length C = m). { unfold C, relax, cumulant_forward. rewrite radd_length, rmul_length, rsub_length, values_length, mv_length. destruct HPw; lia. }
    set (back := central_moment_from_cumulants D u r (lookup cexps (mv Pinv C))).
    assert (EB : radd (cumulant_backward D u r cexps Pinv C cms) (rzero (length S)) = map back cms).
    { unfold cumulant_backward. fold back. assert (E : length S = length (map back cms)) by (rewrite map_length; congruence). rewrite E. apply radd_zero_r. }
    rewrite EB in E0. destruct (T2 (map back cms)) as (g & E1 & E2 & E3); [now rewrite map_length|]. rewrite E1 in E0. injection E0 as ->.
    assert (EM : forall e, In e cexps -> central_moment (radd f' w) S u e = back e).
    { intros e He. apply Hincl in He. apply In_nth_error in He as [i Hi]. rewrite map_map in E3.
      pose proof (f_equal (fun l => nth i l 0) E3) as E4. cbn beta in E4.
      rewrite (nth_error_nth _ _ _ (map_nth_error (fun x => poly_moment (radd f' w) S u (mono_poly x)) _ _ Hi)), (nth_error_nth _ _ _ (map_nth_error back _ _ Hi)), poly_moment_mono in E4. exact E4. }
    cbv zeta. unfold cumulant_forward at 1. transitivity (mv P (mv Pinv C)); [f_equal|now apply HP1].
    transitivity (map (lookup cexps (mv Pinv C)) cexps); [|apply map_lookup; auto; rewrite mv_length; apply HPiw].
    apply map_ext_in. intros e He. apply forth_back; auto; [lra|]. intros e' L' Hle. apply EM, (Hdown e e'); auto. rewrite (Hce' e He); auto.
  Qed.
End Input.
