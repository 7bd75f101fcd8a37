(* Cumulant collisions. *)
From Coq Require Import String List ZArith Bool Arith Reals Lra Lia.
From Verif Require Import StencilModel RealLib LinLib TransSpec TransModel MomModel EqModel EqSpec CumModel CumProofs CumProofs2 CumProofs3 CumProofs4 CollSpec CollModel TransProofs TransProofs2 TransProofs3 CollProofs CollProofs2 CollProofs3 CollProofs4.
Import ListNotations.
Local Open Scope R_scope.

Lemma tally_nil D : tally D [] = zero_tuple D.
Proof. unfold tally. cbn [count_occ]. apply (map_const_seq 0). Qed.
Lemma tally_one D a : tally D [a] = unit_tuple D a.
Proof. rewrite <- unit_exp_tally. reflexivity. Qed.
Lemma indices_zero_tuple D : get_moment_indices (zero_tuple D) = [].
Proof. apply indices_zero. Qed.
Lemma indices_unit_tuple D a : (a < D)%nat -> get_moment_indices (unit_tuple D a) = [a].
Proof. intros. now apply unit_exp_indices. Qed.
Lemma cumulant_zero D u rho kappa : (length u <= D)%nat -> cumulant_from_central_moments D u rho kappa (zero_tuple D) = rho * ln (kappa (zero_tuple D)).
Proof.
  intros Hu. unfold cumulant_from_central_moments. rewrite indices_zero_tuple. cbn [diffs]. unfold ev0. cbn [ev]. rewrite tally_nil.
  pose proof (J_elin0 D kappa u [] Hu) as E. unfold J in E. cbn [diffs linj] in E. rewrite E. f_equal. lra.
Qed.
Lemma cumulant_unit D u rho kappa a : (length u <= D)%nat -> (a < D)%nat -> kappa (zero_tuple D) <> 0 ->
  cumulant_from_central_moments D u rho kappa (unit_tuple D a) = rho * (nth a u 0 + kappa (unit_tuple D a) / kappa (zero_tuple D)).
Proof.
  intros Hu Ha H0. unfold cumulant_from_central_moments. rewrite indices_unit_tuple by auto. cbn [diffs diff]. unfold ev0. cbn [ev]. rewrite tally_nil, tally_one.
  pose proof (J_elin0 D kappa u [a] Hu) as E. unfold J in E. cbn [diffs linj] in E. rewrite E. reflexivity.
Qed.
Lemma moment_zero D u rho c : (length u <= D)%nat -> central_moment_from_cumulants D u rho c (zero_tuple D) = exp (c (zero_tuple D) / rho).
Proof.
  intros Hu. unfold central_moment_from_cumulants. rewrite indices_zero_tuple. cbn [diffs]. unfold ev0. cbn [ev]. rewrite tally_nil.
  pose proof (J_elin0 D (fun i => c i / rho) u [] Hu) as E. unfold J in E. cbn [diffs linj] in E. rewrite E. f_equal. lra.
Qed.
Lemma moment_unit D u rho c a : (length u <= D)%nat -> (a < D)%nat ->
  central_moment_from_cumulants D u rho c (unit_tuple D a) = exp (c (zero_tuple D) / rho) * (c (unit_tuple D a) / rho - nth a u 0).
Proof.
  intros Hu Ha. unfold central_moment_from_cumulants. rewrite indices_unit_tuple by auto. cbn [diffs diff]. unfold ev0. cbn [ev]. rewrite tally_nil, tally_one.
  pose proof (J_elin0 D (fun i => c i / rho) u [] Hu) as E0. pose proof (J_elin0 D (fun i => c i / rho) u [a] Hu) as E1. unfold J in E0, E1. cbn [diffs linj] in E0, E1.
  rewrite E0, E1. replace (c (zero_tuple D) / rho + -1 * 0) with (c (zero_tuple D) / rho) by lra. f_equal. lra.
Qed.

(* a monomial force vector: zero for the constant, k F_a for the velocity components *)
Lemma nth_error_mono (cms : list (list nat)) i e : nth_error cms i = Some e -> nth_error (map mono_poly cms) i = Some (mono_poly e).
Proof. intros H. now apply map_nth_error. Qed.
Lemma mono_inj e e' : mono_poly e = mono_poly e' -> e = e'.
Proof. unfold mono_poly. congruence. Qed.
Lemma nth_error_mono_inv (cms : list (list nat)) i e : nth_error (map mono_poly cms) i = Some (mono_poly e) -> nth_error cms i = Some e.
Proof.
  intros H. destruct (nth_error cms i) as [x|] eqn:E.
  - rewrite (map_nth_error mono_poly i cms E) in H. injection H as H. now subst.
  - apply nth_error_None in E. assert (nth_error (map mono_poly cms) i = None) by (apply nth_error_None; rewrite map_length; auto). congruence.
Qed.

Section Cumulant.
  Variables (D n : nat) (S : stencil) (ps : list poly) (zc dev : bool).
  Variables (ws w f : list R) (cexps cms : list (list nat)) (P Pinv Minv : mat) (force : option (force_model * list R)).
  Variables (fwd bwd : list R -> list R -> res (list R)).
  Let m := length cexps.
  Hypothesis Hdim : Forall (fun c => length c = D) S.
  Hypothesis Hq : length S = n.
  Hypothesis Hcms : length cms = n.
  Hypothesis Hcnd : NoDup cms.
  Hypothesis Hcmodes : In (zero_tuple D) cms /\ forall a, (a < D)%nat -> In (unit_tuple D a) cms.
  Hypothesis HM : is_inverse n (monomial_matrix cms S (rzero D)) Minv.
  Hypothesis Hexps : NoDup cexps.
  Hypothesis Hpnd : Forall (fun p => NoDup (map snd p)) ps.
  Hypothesis HP : mono_to_poly cexps ps = Ok P.
  Hypothesis HPinv : is_inverse m P Pinv.
  Hypothesis Hmodes : has_conserved_modes D ps.
  Hypothesis Hf : length f = n.
  Hypothesis Hdz : zc && dev = false.
  Hypothesis Hrho : 0 < pdf_density zc f.
  Hypothesis Hw : storage_background D n S zc false w.
  Hypothesis HT : forall u', length u' = D -> moment_transform n S (map mono_poly cms) w u' (fwd u') (bwd u').
  Variable post : R -> list R -> (list nat -> R) -> list R -> res (list R).
  (* the collision keeps the conserved cumulants *)
  Hypothesis Hpost : keeps_conserved D ps m post.
  Hypothesis Hforce : forall fm F, force = Some (fm, F) -> In fm [Simple; Luo; Guo; He; CentralMoment] /\ length F = D /\ isotropic_weights D S ws /\
    (fm = CentralMoment -> exists rest, cms = zero_tuple D :: map (unit_tuple D) (seq 0 D) ++ rest).
  Let rho := pdf_density zc f.
  Let u := equilibrium_velocity D S zc true force f.
  Let MP := map mono_poly cms.

  Lemma c_len : forall fm F, force = Some (fm, F) -> length F = D. Proof. intros fm F E. now apply Hforce in E. Qed.
  Lemma c_u : length u = D. Proof. apply velocity_length, c_len. Qed.
  Lemma c_mm u' : monomial_matrix cms S u' = moment_matrix MP S u'. Proof. symmetry. apply mono_poly_matrix. Qed.
  Lemma c_terms phi k F : pulse D S phi k F -> length F = D -> forall u', length u' = D -> force_vector D n MP (fun _ => k) F (mv (monomial_matrix cms S u') phi).
  Proof.
    intros (HL & H0 & H1) HF u' Hu'. rewrite mv_monomial_matrix. split; [now rewrite map_length|]. split.
    - intros i Hi. apply nth_error_mono_inv in Hi. rewrite (nth_error_nth _ _ _ (map_nth_error (central_moment phi S u') _ _ Hi)), central_zero. exact H0.
    - intros i a Ha Hi. apply nth_error_mono_inv in Hi. rewrite (nth_error_nth _ _ _ (map_nth_error (central_moment phi S u') _ _ Hi)), (central_unit D) by auto.
      rewrite H0, H1 by auto. lra.
  Qed.
  Lemma c_half F g k : force_vector D n MP (fun _ => k) F g -> force_vector D n MP (fun _ => k / 2) F (rscal (1 / 2) g).
  Proof.
    intros (HL & H0 & H1). split; [now rewrite rscal_length|]. split; intros; rewrite nth_rscal.
    - rewrite H0 by auto. lra.
    - rewrite (H1 i a) by auto. lra.
  Qed.
  Lemma c_modes : has_conserved_modes D MP.
  Proof. destruct Hcmodes as [H0 H1]. split; [now apply (in_map mono_poly) in H0|]. intros a Ha. specialize (H1 a Ha). now apply (in_map mono_poly) in H1. Qed.

  Lemma c_forcing : exists before after, match force with None => Ok (rzero (length S), rzero (length S)) | Some (fm, F) =>
        symmetric_forcing fm D S cms (mv (shift_matrix (length S) (monomial_matrix cms S u) Minv)) ws u F end = Ok (before, after) /\
      force_vector D n MP (fun _ => match force with Some (fm, _) => if shifts_equilibrium fm then 1 / 2 else 0 | None => 0 end) (impulse D force) before /\
      force_vector D n MP (fun _ => match force with Some (fm, _) => if shifts_equilibrium fm then 1 / 2 else 1 | None => 1 end) (impulse D force) after.
  Proof.
    assert (Z : forall k F, (k = 0 \/ F = rzero D) -> force_vector D n MP (fun _ => k) F (rzero n)).
    { intros k F H. split; [apply rzero_length|]. split; intros; rewrite nth_rzero; [auto|]. destruct H as [-> | ->]; rewrite ?nth_rzero; lra. }
    pose proof c_u as HL. unfold impulse. clearbody u. destruct force as [[fm F]|].
    2:{ exists (rzero n), (rzero n). split; [now rewrite Hq|]. auto. }
    destruct (Hforce fm F eq_refl) as (Hin & HF & Hiso & Hcm).
    pose proof (simple_pulse D S ws Hdim Hiso F HF) as SP. pose proof (luo_pulse D S ws Hdim Hiso u F HL HF) as LP.
    destruct fm; cbn [symmetric_forcing shifts_equilibrium] in *.
    - rewrite HF, Nat.eqb_refl. do 2 eexists. split; [reflexivity|]. rewrite Hq. split; [auto|]. now apply c_terms.
    - destruct (Hcm eq_refl) as (rest & Ec). assert (Ln : n = (1 + D + length rest)%nat) by (rewrite <- Hcms, Ec; cbn; rewrite app_length, map_length, seq_length; lia).
      assert (Lt : (length F <? length S)%nat = true) by (apply Nat.ltb_lt; lia). rewrite Lt. do 2 eexists. split; [reflexivity|].
      assert (G : force_vector D n MP (fun _ => 1 / 2) F (0 :: map (fun x => 1 / 2 * x) F ++ rzero (length S - 1 - length F))).
      { split; [cbn; rewrite app_length, map_length, rzero_length; lia|].
        assert (Nz : nth_error cms 0 = Some (zero_tuple D)) by (rewrite Ec; reflexivity).
        assert (Nu : forall a, (a < D)%nat -> nth_error cms (1 + a) = Some (unit_tuple D a)).
        { intros a Ha. rewrite Ec. cbn [Nat.add nth_error]. rewrite nth_error_app1 by (rewrite map_length, seq_length; auto). erewrite map_nth_error; [reflexivity|].
          rewrite (nth_error_nth' (seq 0 D) 0%nat) by (rewrite seq_length; auto). now rewrite seq_nth. }
        split.
        - intros i Hi. apply nth_error_mono_inv in Hi. assert (i = 0%nat) as ->; [|reflexivity].
          apply (proj1 (NoDup_nth_error cms) Hcnd); [apply nth_error_Some; congruence|congruence].
        - intros i a Ha Hi. apply nth_error_mono_inv in Hi. assert (i = (1 + a)%nat) as ->.
          { apply (proj1 (NoDup_nth_error cms) Hcnd); [apply nth_error_Some; congruence|]. rewrite Nu; auto. }
          cbn [Nat.add nth]. rewrite app_nth1 by (rewrite map_length; lia).
          rewrite nth_indep with (d' := 1 / 2 * 0) by (rewrite map_length; lia). now rewrite (map_nth (fun x => 1 / 2 * x)). }
      auto.
    - do 2 eexists. split; [reflexivity|]. rewrite Hq. split; [auto|]. now apply c_terms.
    - do 2 eexists. split; [reflexivity|]. assert (force_vector D n MP (fun _ => 1 / 2) F (rscal (1 / 2) (mv (monomial_matrix cms S u) (luo_terms S ws u F)))) by (apply c_half; now apply c_terms). auto.
    - do 2 eexists. split; [reflexivity|].
      assert (G : force_vector D n MP (fun _ => 1 / 2) F (rscal (1 / 2) (mv (shift_matrix (length S) (monomial_matrix cms S u) Minv) (map (he_moment D u F) cms)))).
      { apply c_half. rewrite c_mm. apply (T_values D n S MP Minv (mv (shift_matrix (length S) (moment_matrix MP S u) Minv)) u Hdim Hq); auto using c_modes.
        - unfold MP. now rewrite map_length.
        - now rewrite <- c_mm.
        - intros phi Hphi. apply (shift_T D n); auto. now rewrite <- c_mm.
        - now rewrite map_length.
        - intros i Hi. apply nth_error_mono_inv in Hi. rewrite (nth_error_nth _ _ _ (map_nth_error (he_moment D u F) _ _ Hi)). rewrite <- HL. apply he_zero. congruence.
        - intros i a Ha Hi. apply nth_error_mono_inv in Hi. rewrite (nth_error_nth _ _ _ (map_nth_error (he_moment D u F) _ _ Hi)). rewrite <- HL in *. apply he_unit; congruence. }
      auto.
    - cbn in Hin. intuition discriminate.
    - cbn in Hin. intuition discriminate.
    - cbn in Hin. intuition discriminate.
  Qed.

  Lemma c_lookup vals i e : length vals = n -> nth_error cms i = Some e -> lookup cms vals e = nth i vals 0.
  Proof.
    intros Hv Hi. pose proof (nth_error_nth _ _ [] Hi) as E. rewrite <- E at 1. apply lookup_nth; [auto|congruence|]. apply nth_error_Some. congruence.
  Qed.
  Lemma c_ps : length ps = m.
  Proof. destruct (mono_to_poly_spec cexps ps P (fun _ => 0) Hexps Hpnd HP) as [[L _] _]. destruct HPinv as ([L' _] & _). congruence. Qed.

  Lemma cumulant_step_with : exists f', cumulant_collision_with D S zc dev true ws post cexps cms P Pinv Minv fwd bwd force f = Ok f' /\ length f' = n /\
    adds_impulse D S (impulse D force) f f'.
  Proof.
    unfold cumulant_collision_with. rewrite Hdz. fold u rho. destruct c_forcing as (before & after & E & HB & HA). rewrite E. cbn [rbind fst snd]. clear E.
    pose proof c_u as HL. destruct (HT u HL) as (T1 & T2 & _). rewrite T1 by auto. cbn [rbind].
    pose proof Hw as (Lw & Dw & Mw).
    set (kappa := map (poly_moment (radd f w) S u) (map mono_poly cms)).
    assert (Lk : length kappa = n) by (unfold kappa; now rewrite !map_length).
    assert (Lr : length (radd kappa before) = n) by (rewrite radd_length; destruct HB; lia).
    assert (DF : density (radd f w) S = rho).
    { unfold density in *. rewrite fsum_radd by congruence. rewrite Dw. unfold rho, pdf_density. change (fsum f S (fun _ => 1)) with (density f S). rewrite density_rsum by congruence. destruct zc; cbn; lra. }
    assert (MF : forall a, (a < D)%nat -> momentum (radd f w) S a = momentum f S a).
    { intros a Ha. specialize (Mw a Ha). unfold momentum in *. rewrite fsum_radd by congruence. lra. }
    assert (HRef : rho <> 0) by (unfold rho; lra).
    assert (UV : forall a, (a < D)%nat -> rho * nth a u 0 = momentum f S a + match force with Some (fm, F) => if shifts_equilibrium fm then nth a F 0 / 2 else 0 | None => 0 end).
    { intros a Ha. pose proof (velocity_nth D S zc true force f a Ha c_len) as V. cbn [reference_density] in V. apply V. exact HRef. }
    destruct Hcmodes as [Cz Cu]. apply In_nth_error in Cz as [iz Hiz].
    assert (K0 : lookup cms (radd kappa before) (zero_tuple D) = rho).
    { rewrite (c_lookup _ _ _ Lr Hiz), nth_radd by (destruct HB; congruence). destruct HB as (_ & B0 & _). rewrite (B0 iz (nth_error_mono _ _ _ Hiz)).
      unfold kappa. rewrite map_map, (nth_error_nth _ _ _ (map_nth_error (fun x => poly_moment (radd f w) S u (mono_poly x)) _ _ Hiz)), poly_moment_mono, central_zero, DF. lra. }
    assert (K1 : forall a, (a < D)%nat -> lookup cms (radd kappa before) (unit_tuple D a) = 0).
    { intros a Ha. destruct (In_nth_error _ _ (Cu a Ha)) as [i Hi]. rewrite (c_lookup _ _ _ Lr Hi), nth_radd by (destruct HB; congruence).
      destruct HB as (_ & _ & B1). rewrite (B1 i a Ha (nth_error_mono _ _ _ Hi)). unfold kappa.
      rewrite map_map, (nth_error_nth _ _ _ (map_nth_error (fun x => poly_moment (radd f w) S u (mono_poly x)) _ _ Hi)), poly_moment_mono, (central_unit D), DF, MF by auto.
      specialize (UV a Ha). unfold impulse. destruct force as [[fm F]|]; [destruct (shifts_equilibrium fm)|]; lra. }
    set (kap := lookup cms (radd kappa before)) in *. set (C := cumulant_forward D u rho cexps P kap).
    pose proof c_ps as Lp.
    assert (LC : length C = m) by (unfold C, cumulant_forward; rewrite mv_length; apply HPinv).
    destruct (Hpost rho u (cumulant_from_central_moments D u rho kap) C HL Hrho LC) as (Cp & EP & LCp & PZ & PU). rewrite EP. cbn [rbind]. clear EP.
    (* cumulants of the conserved modes *)
    assert (CV : forall i e, nth_error ps i = Some (mono_poly e) -> nth i C 0 = cumulant_from_central_moments D u rho kap e).
    { intros i e Hi. unfold C, cumulant_forward. destruct (mono_to_poly_spec cexps ps P (cumulant_from_central_moments D u rho kap) Hexps Hpnd HP) as [_ ->].
      change (nth i (equilibrium_values ps (cumulant_from_central_moments D u rho kap)) 0 = cumulant_from_central_moments D u rho kap e).
      now rewrite (nth_values _ _ _ _ Hi), poly_value_mono. }
    set (c := lookup cexps (mv Pinv Cp)).
    assert (PV : forall i e, nth_error ps i = Some (mono_poly e) -> c e = nth i Cp 0).
    { intros i e Hi. destruct HPinv as (W1 & W2 & H1 & H2). rewrite <- (H1 Cp LCp). assert (LP : length (mv Pinv Cp) = m) by (rewrite mv_length; apply W2).
      rewrite <- (map_lookup cexps (mv Pinv Cp) Hexps LP). destruct (mono_to_poly_spec cexps ps P c Hexps Hpnd HP) as [_ E]. unfold c in E at 1. rewrite E.
      change (c e = nth i (equilibrium_values ps c) 0). now rewrite (nth_values _ _ _ _ Hi), poly_value_mono. }
    destruct Hmodes as [Mz Mu]. change [(1, zero_exponents D)] with (mono_poly (zero_tuple D)) in Mz.
    assert (LD : (length u <= D)%nat) by lia.
    assert (c0 : c (zero_tuple D) = rho * ln rho).
    { destruct (In_nth_error _ _ Mz) as [i Hi]. rewrite (PV i _ Hi). apply (PZ i Hi). rewrite (CV i _ Hi), cumulant_zero, K0 by auto. reflexivity. }
    assert (c1 : forall a, (a < D)%nat -> c (unit_tuple D a) = rho * nth a u 0).
    { intros a Ha. specialize (Mu a Ha). change [(1, unit_exponents D a)] with (mono_poly (unit_tuple D a)) in Mu. destruct (In_nth_error _ _ Mu) as [i Hi].
      rewrite (PV i _ Hi). apply (PU i a Ha Hi). rewrite (CV i _ Hi). rewrite cumulant_unit, K0, K1 by (auto; rewrite K0; auto). field. auto. }
    unfold cumulant_backward. fold c.
    assert (Lpost : length (radd (map (central_moment_from_cumulants D u rho c) cms) after) = n) by (rewrite radd_length, map_length; destruct HA; lia).
    destruct (T2 _ Lpost) as (f' & E1 & E2 & E3). exists f'. split; [exact E1|]. split; [exact E2|].
    assert (X : forall e i, nth_error cms i = Some e -> central_moment (radd f' w) S u e = central_moment_from_cumulants D u rho c e + nth i after 0).
    { intros e i Hi. rewrite map_map in E3. rewrite <- poly_moment_mono. rewrite <- (nth_error_nth _ _ 0 (map_nth_error (fun x => poly_moment (radd f' w) S u (mono_poly x)) _ _ Hi)), E3.
      rewrite nth_radd by (rewrite map_length; destruct HA; lia). f_equal. now rewrite (nth_error_nth _ _ _ (map_nth_error (central_moment_from_cumulants D u rho c) _ _ Hi)). }
    assert (EX : exp (c (zero_tuple D) / rho) = rho). { rewrite c0. replace (rho * ln rho / rho) with (ln rho) by (field; auto). now apply exp_ln. }
    assert (D' : density (radd f' w) S = rho).
    { rewrite <- (central_zero _ S u D), (X _ iz Hiz), moment_zero, EX by auto. destruct HA as (_ & A0 & _). rewrite (A0 iz (nth_error_mono _ _ _ Hiz)). lra. }
    split.
    - rewrite <- DF in D'. unfold density in *. rewrite !fsum_radd in D' by congruence. lra.
    - intros a Ha. destruct (In_nth_error _ _ (Cu a Ha)) as [i Hi]. specialize (X _ i Hi). rewrite (central_unit D) in X by auto.
      rewrite moment_unit, EX, c1, D' in X by auto. replace (rho * (rho * nth a u 0 / rho - nth a u 0)) with 0 in X by (field; auto).
      destruct HA as (_ & _ & A1). rewrite (A1 i a Ha (nth_error_mono _ _ _ Hi)) in X.
      specialize (UV a Ha). specialize (Mw a Ha). unfold momentum in *. rewrite fsum_radd in X by congruence. unfold impulse in *.
      destruct force as [[fm F]|]; [destruct (shifts_equilibrium fm)|]; rewrite ?nth_rzero in *; lra.
  Qed.
End Cumulant.

(* relaxation keeps the conserved cumulants if the equilibrium has them *)
Lemma relax_keeps D ps m eqC d : hydro_cumulants D eqC -> length d = m -> length ps = m ->
  keeps_conserved D ps m (fun rho u _ C => Ok (relax d (equilibrium_values ps (eqC rho u)) C)).
Proof.
  intros Heq Hd Lp rho u cm C Hu Hrho LC. destruct (Heq rho u Hu Hrho) as [Q0 Q1]. eexists. split; [reflexivity|]. split; [|split].
  - unfold relax. rewrite radd_length, rmul_length, rsub_length, values_length. lia.
  - intros i Hi E. assert (Hlt : (i < m)%nat) by (rewrite <- Lp; apply nth_error_Some; congruence).
    unfold relax. rewrite nth_radd, nth_rmul, nth_rsub by (rewrite ?rmul_length, ?rsub_length, ?values_length; lia).
    change [(1, zero_exponents D)] with (mono_poly (zero_exponents D)) in Hi. rewrite (nth_values _ _ _ _ Hi), poly_value_mono, Q0. rewrite E. lra.
  - intros i a Ha Hi E. assert (Hlt : (i < m)%nat) by (rewrite <- Lp; apply nth_error_Some; congruence).
    unfold relax. rewrite nth_radd, nth_rmul, nth_rsub by (rewrite ?rmul_length, ?rsub_length, ?values_length; lia).
    change [(1, unit_exponents D a)] with (mono_poly (unit_exponents D a)) in Hi. rewrite (nth_values _ _ _ _ Hi), poly_value_mono, (Q1 a Ha). rewrite E. lra.
Qed.
Lemma cumulant_step D n S ps zc dev eqC ws w d f cexps cms P Pinv Minv force fwd bwd :
  Forall (fun c => length c = D) S -> length S = n -> length cms = n -> NoDup cms ->
  In (zero_tuple D) cms /\ (forall a, (a < D)%nat -> In (unit_tuple D a) cms) ->
  is_inverse n (monomial_matrix cms S (rzero D)) Minv -> NoDup cexps -> Forall (fun p => NoDup (map snd p)) ps ->
  mono_to_poly cexps ps = Ok P -> is_inverse (length cexps) P Pinv -> has_conserved_modes D ps -> length d = length cexps -> length f = n ->
  zc && dev = false -> 0 < pdf_density zc f -> storage_background D n S zc false w ->
  (forall u', length u' = D -> moment_transform n S (map mono_poly cms) w u' (fwd u') (bwd u')) -> hydro_cumulants D eqC ->
  (forall fm F, force = Some (fm, F) -> In fm [Simple; Luo; Guo; He; CentralMoment] /\ length F = D /\ isotropic_weights D S ws /\
    (fm = CentralMoment -> exists rest, cms = zero_tuple D :: map (unit_tuple D) (seq 0 D) ++ rest)) ->
  exists f', cumulant_collision D S ps zc dev true ws cexps cms P Pinv Minv eqC fwd bwd d force f = Ok f' /\ length f' = n /\
    adds_impulse D S (impulse D force) f f'.
Proof.
  intros. apply (cumulant_step_with D n S ps zc dev ws w); auto. apply relax_keeps; auto. now apply (c_ps ps cexps P Pinv).
Qed.
