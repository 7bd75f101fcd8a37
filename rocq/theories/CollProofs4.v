(* Population-space collision; the transforms and equilibria of the library meet the hypotheses of the collision theorems. *)
From Coq Require Import String List ZArith Bool Arith QArith Qreals Reals Lra Lia.
From Verif Require Import StencilModel StencilProofs StencilProofs2 RealLib LinLib TransSpec TransModel MomModel EqModel EqSpec EqProofs PropsEq CollSpec CollModel TransProofs TransProofs2 TransProofs3 CollProofs CollProofs2 CollProofs3.
Import ListNotations.
Local Open Scope R_scope.

Lemma fsum_rscal k f S h : fsum (rscal k f) S h = k * fsum f S h.
Proof.
  unfold fsum. revert f. induction S as [|c S IH]; intros [|x f]; cbn; try lra.
  unfold rsum in IH. specialize (IH f). unfold rscal in IH. rewrite IH. ring.
Qed.
Lemma pulse_rscal D S phi k F r : pulse D S phi k F -> pulse D S (rscal r phi) (r * k) F.
Proof.
  intros (HL & H0 & H1). unfold pulse, density, momentum in *. split; [now rewrite rscal_length|]. split.
  - rewrite fsum_rscal, H0. lra.
  - intros a Ha. rewrite fsum_rscal, H1 by auto. lra.
Qed.

Lemma has_weights_of name ord S ws : predefined_stencils name ord = Ok S -> get_weights S = Ok ws -> has_weights S = true.
Proof.
  intros HS Hw. destruct (has_weights S) eqn:E; [reflexivity|]. destruct S as [|c S]; [apply predefined_In in HS; exfalso|rewrite (weights_rejected (c :: S)) in Hw by (assumption || discriminate); discriminate].
  pose proof table_checked as T. rewrite forallb_forall in T. specialize (T _ HS). cbn in T. discriminate.
Qed.
(* the library's weights are isotropic on every stencil that has weights *)
Lemma weights_isotropic name ord S ws : predefined_stencils name ord = Ok S -> get_weights S = Ok ws ->
  Forall (fun c => length c = dimD S) S /\ isotropic_weights (dimD S) S (map Q2R ws).
Proof.
  intros HS Hw. pose proof (has_weights_of _ _ _ _ HS Hw) as HW.
  destruct (iso_facts name ord S HS HW) as (ws' & Hw' & HD & Hlen & Hiso). rewrite Hw in Hw'. injection Hw' as <-.
  assert (HO : (3 <= iso_order S)%nat) by (unfold iso_order; destruct (Nat.eqb _ _); lia).
  split; [now apply Forall_forall|]. split; [rewrite map_length; now apply get_weights_length|].
  unfold density, momentum, second_moment. repeat split.
  - rewrite (fsum_ext _ _ _ (fun c => rprod c [])) by (intros; reflexivity). rewrite Hiso by (cbn; lia || intros a []). apply RMicromega.Q2R_1.
  - intros a Ha. rewrite (fsum_ext _ _ _ (fun c => rprod c [a])) by (intros; unfold rprod; cbn; lra).
    rewrite Hiso; [apply RMicromega.Q2R_0|cbn; lia|intros x [<-|[]]; auto].
  - intros a b Ha Hb. rewrite (fsum_ext _ _ _ (fun c => rprod c [a; b])) by (intros; unfold rprod; cbn; lra).
    rewrite Hiso; [|cbn; lia|intros x [<-|[<-|[]]]; auto]. cbn [iso]. rewrite Q2R_mult, Q2R_qdelta, Q2R_frac. lra.
  - intros a b c Ha Hb Hc. rewrite (fsum_ext _ _ _ (fun v => rprod v [a; b; c])) by (intros; unfold rprod; cbn; lra).
    rewrite Hiso; [apply RMicromega.Q2R_0|cbn; lia|intros x [<-|[<-|[<-|[]]]]; auto].
Qed.

(* He's population-space terms *)
Lemma he_terms_pulse name ord S ws u F : predefined_stencils name ord = Ok S -> get_weights S = Ok ws -> sizeQ S <> 7%nat ->
  length u = dimD S -> length F = dimD S -> exists t, he_terms S u F = Ok t /\ pulse (dimD S) S t 1 F.
Proof.
  intros HS Hw H7 Hu HF. destruct (weights_isotropic _ _ _ _ HS Hw) as (Hdim & _).
  assert (HE : exists e, hydro_maxwellian S true false (Some 2%Z) 1 u (1 / 3) = Ok e).
  { unfold hydro_maxwellian, discrete_maxwellian_equilibrium. rewrite Hw. cbn [rbind]. eexists; reflexivity. }
  destruct HE as (e & He).
  assert (Le : length e = length S) by (destruct (hydro_split S ws true false (Some 2%Z) 1 u (1 / 3) e Hw He) as (_ & _ & _ & H & _); exact H).
  pose proof (hydro_density _ _ _ _ _ _ _ _ _ HS He) as M0.
  assert (M1 : forall a, (a < dimD S)%nat -> momentum e S a = nth a u 0).
  { intros a Ha. rewrite (hydro_momentum _ _ _ _ _ _ _ _ _ HS He a Ha (or_introl H7)). lra. }
  assert (M2 : forall a b, (a < dimD S)%nat -> (b < dimD S)%nat -> second_moment e S a b = delta a b / 3 + nth a u 0 * nth b u 0).
  { intros a b Ha Hb. rewrite (hydro_stress _ _ _ _ _ _ _ _ _ HS He a b Ha Hb H7) by (cbn; lia). lra. }
  unfold he_terms. unfold hydro_maxwellian in He. destruct (discrete_maxwellian_equilibrium S 1 u 2 (1 / 3) true) as [e'|]; [|discriminate]. cbn [rbind] in He |- *. injection He as ->.
  eexists. split; [reflexivity|]. split; [rewrite map_length, combine_length; lia|].
  assert (V : forall c x, In c S -> x * dot (rsub (vecR c) u) F / (1 / 3) = x * (3 * dot F (vecR c) - 3 * dot F u)).
  { intros c x Hc. rewrite Forall_forall in Hdim. specialize (Hdim c Hc). rewrite (dot_comm _ F), dot_rsub_r by (unfold vecR; rewrite map_length; congruence). field. }
  unfold density, momentum, second_moment in *. cbn [fst snd]. split.
  - rewrite (fsum_terms' _ (fun c => 3 * dot F (vecR c) - 3 * dot F u)) by (auto; intros; cbn [fst snd]; now apply V).
    rewrite (fsum_ext _ _ _ (fun c => 3 * (dot F (vecR c) * 1) - 3 * dot F u * 1)) by (intros; lra).
    rewrite fsum_minus, !fsum_scal, M0, (fsum_dot (dimD S)) by auto. rewrite (dot_nth (dimD S) F u) by auto.
    rewrite (rsum_ext _ (fun a => nth a F 0 * nth a u 0)); [lra|]. intros a Ha. apply in_seq in Ha.
    rewrite <- M1 by lia. f_equal. apply fsum_ext. intros; lra.
  - intros a Ha. rewrite (fsum_terms' _ (fun c => 3 * dot F (vecR c) - 3 * dot F u)) by (auto; intros; cbn [fst snd]; now apply V).
    rewrite (fsum_ext _ _ _ (fun c => 3 * (dot F (vecR c) * comp c a) - 3 * dot F u * comp c a)) by (intros; lra).
    rewrite fsum_minus, !fsum_scal, M1, (fsum_dot (dimD S)) by auto. rewrite (dot_nth (dimD S) F u) by auto.
    rewrite (rsum_ext _ (fun b => nth a u 0 * (nth b F 0 * nth b u 0) + (1 / 3) * (nth b F 0 * delta b a))).
    + rewrite rsum_plus, !rsum_scal, rsum_delta by auto. lra.
    + intros b Hb. apply in_seq in Hb. rewrite M2 by lia. lra.
Qed.

Section Population.
  Variables (D n : nat) (S : stencil) (ps : list poly) (zc dev compr : bool) (eqm : R -> list R -> list nat -> R).
  Variables (ws d f : list R) (Minv : mat) (force : option (force_model * list R)) (srt : bool).
  Let M := moment_matrix ps S (rzero D).
  Hypothesis Hdim : Forall (fun c => length c = D) S.
  Hypothesis Hq : length S = n.
  Hypothesis Hps : length ps = n.
  Hypothesis HM : is_inverse n M Minv.
  Hypothesis Hmodes : has_conserved_modes D ps.
  Hypothesis Hd : length d = n.
  Hypothesis Hf : length f = n.
  Hypothesis Hdz : dev = zc.
  Hypothesis Hr : compr = true -> pdf_density zc f <> 0.
  Hypothesis Heq : hydro_moments D compr dev eqm.
  Hypothesis Hsrt : srt = true -> forall i, (i < n)%nat -> nth i d 0 = nth 0 d 0.
  Let rho := pdf_density zc f.
  Let u := equilibrium_velocity D S zc compr force f.
  Hypothesis Hforce : forall fm F, force = Some (fm, F) -> fm <> CentralMoment /\ length F = D /\ isotropic_weights D S ws.
  Hypothesis Hhe : forall F, force = Some (He, F) -> srt = true -> exists t, he_terms S u F = Ok t /\ pulse D S t 1 F.

  Lemma population_background : storage_background D n S zc dev (rzero n).
  Proof.
    assert (Z : forall h, fsum (rzero n) S h = 0).
    { intros h. unfold fsum, rzero. clear. revert n. induction S as [|c S' IH]; intros [|n]; cbn; auto. unfold rsum in IH. rewrite IH. lra. }
    split; [apply rzero_length|]. unfold density, momentum. rewrite Z. split; [rewrite Hdz; destruct zc; reflexivity|intros; apply Z].
  Qed.
  Lemma matrix_transform : moment_transform n S ps (rzero n) (rzero D) (fun f => Ok (mv M f)) (fun m => Ok (mv Minv m)).
  Proof.
    destruct HM as (W1 & W2 & H1 & H2).
    assert (Z : forall x : list R, length x = n -> radd x (rzero n) = x) by (intros x Hx; rewrite <- Hx; apply radd_zero_r).
    repeat split.
    - intros x Hx. rewrite Z by auto. unfold M. now rewrite mv_moment_matrix.
    - intros k Hk. exists (mv Minv k). assert (length (mv Minv k) = n) by (rewrite mv_length; apply W2). split; [reflexivity|]. split; [auto|].
      rewrite Z, <- mv_moment_matrix by auto. now apply H1.
    - intros x y Hx Hy E. rewrite !Z, <- !mv_moment_matrix in E by auto. fold M in E. rewrite <- (H2 x Hx), <- (H2 y Hy). congruence.
  Qed.
  Lemma mv_M_length x : length (mv M x) = n. Proof. rewrite mv_length. apply HM. Qed.

  Lemma population_step : exists f', population_collision D S ps zc dev compr eqm ws M Minv srt d force f = Ok f' /\ length f' = n /\
    adds_impulse D S (impulse D force) f f'.
  Proof.
    unfold population_collision. assert (E : zc && negb dev = false) by (rewrite Hdz; destruct zc; reflexivity). rewrite E. fold u rho.
    assert (HL : length u = D). { apply velocity_length. intros fm F HF. now apply Hforce in HF. }
    assert (HR : reference_density compr rho <> 0) by now apply reference_nonzero.
    assert (Hdz' : dev = true -> zc = true) by congruence.
    pose proof HM as (W1 & W2 & HM1 & HM2).
    assert (G : exists g, match force with None => Ok (rzero (length S)) | Some (fm, F) =>
                   population_forcing fm srt D S ps M Minv ws d (raw_equilibrium_populations ps eqm (fun m => Ok (mv Minv m)) rho) compr rho u F end = Ok g /\
              length g = n /\
              force_vector D n ps (fun i => match force with Some (fm, _) => if shifts_equilibrium fm then 1 - nth i d 0 / 2 else 1 | None => 1 end) (impulse D force) (mv M g)).
    { assert (EQ : forall u', length u' = D -> exists e, raw_equilibrium_populations ps eqm (fun m => Ok (mv Minv m)) rho u' = Ok e /\ length e = n /\
         density e S = rho - (if dev then 1 else 0) - density (rzero n) S /\ forall a, (a < D)%nat -> momentum e S a = reference_density compr rho * nth a u' 0).
      { intros u' Hu'. eapply raw_populations; eauto using population_background, matrix_transform. }
      unfold impulse. clearbody u. destruct force as [[fm F]|].
      2:{ exists (rzero n). split; [now rewrite Hq|]. split; [apply rzero_length|].
          assert (Z : mv M (rzero n) = rzero n). { apply list_ext; [rewrite mv_M_length, rzero_length; auto|]. intros i _. rewrite nth_mv, nth_rzero, dot_comm. apply dot_zero_l. }
          rewrite Z. split; [apply rzero_length|]. split; intros; rewrite !nth_rzero; lra. }
      destruct (Hforce fm F eq_refl) as (Hc & HF & Hiso).
      assert (T : forall phi k, pulse D S phi k F -> force_vector D n ps (fun _ => k) F (mv M phi)).
      { intros phi k Hphi. eapply (T_terms D n S ps (fun m => m) (rzero D)); eauto using rzero_length. }
      assert (TS : forall phi, srt = true -> pulse D S phi 1 F -> force_vector D n ps (fun i => 1 - nth i d 0 / 2) F (mv M (rscal (1 - nth 0 d 0 / 2) phi))).
      { intros phi Hs Hphi. eapply (vector_ext D n ps Hps (fun _ => (1 - nth 0 d 0 / 2) * 1)).
        - intros i Hi. rewrite (Hsrt Hs i Hi). lra.
        - apply T. now apply pulse_rscal. }
      assert (V : exists g, rbind (space_forcing fm D S ps M (fun m => m) ws d (raw_equilibrium_populations ps eqm (fun m => Ok (mv Minv m)) rho) compr rho u F) (fun m => Ok (mv Minv m)) = Ok g /\ length g = n /\
                force_vector D n ps (fun i => if shifts_equilibrium fm then 1 - nth i d 0 / 2 else 1) F (mv M g)).
      { destruct (space_forcing_pulse D n S ps Minv (fun m => m) (rzero D) Hdim Hq Hps HM (fun phi _ => eq_refl) (rzero_length D) Hmodes ws d
                   (raw_equilibrium_populations ps eqm (fun m => Ok (mv Minv m)) rho) compr rho (rho - (if dev then 1 else 0) - density (rzero n) S) u F fm Hiso Hd HL HF HR EQ Hc) as (g & E1 & E2).
        fold M in E1. rewrite E1. cbn [rbind]. eexists. split; [reflexivity|]. split; [rewrite mv_length; apply W2|].
        assert (EM : mv M (mv Minv g) = g) by (apply HM1; apply E2). rewrite EM. exact E2. }
      assert (L : forall phi k, pulse D S phi k F -> length phi = n) by (intros phi k (H & _); congruence).
      destruct fm; try congruence; cbn [population_forcing shifts_equilibrium] in *.
      - rewrite HF, Nat.eqb_refl. eexists. split; [reflexivity|]. pose proof (simple_pulse D S ws Hdim Hiso F HF). eauto.
      - eexists. split; [reflexivity|]. pose proof (luo_pulse D S ws Hdim Hiso u F HL HF). eauto.
      - destruct srt eqn:Es; [|exact V]. eexists. split; [reflexivity|]. pose proof (luo_pulse D S ws Hdim Hiso u F HL HF). split; [rewrite rscal_length; eauto|]. auto.
      - destruct srt eqn:Es; [|exact V]. destruct (Hhe F eq_refl eq_refl) as (t & E1 & E2). rewrite E1. cbn [rbind]. eexists. split; [reflexivity|]. split; [rewrite rscal_length; eauto|]. auto.
      - destruct srt eqn:Es; [|exact V]. rewrite HF, Nat.eqb_refl. eexists. split; [reflexivity|]. pose proof (simple_pulse D S ws Hdim Hiso F HF). split; [rewrite rscal_length; eauto|]. auto.
      - destruct (edm_pulse D n S ps (rzero D) Hq Hps (rzero_length D) d (raw_equilibrium_populations ps eqm (fun m => Ok (mv Minv m)) rho) compr rho (rho - (if dev then 1 else 0) - density (rzero n) S) u F) as (t & E1 & E2); auto.
        rewrite E1. eexists. split; [reflexivity|]. eauto.
      - exact V. }
    destruct G as (g & -> & Lg & Hg). cbn [rbind]. eexists. split; [reflexivity|].
    set (meq := equilibrium_values ps (eqm rho u)). assert (Lm : length meq = n) by (unfold meq; now rewrite values_length).
    assert (L1 : length (mv Minv (rmul d (rsub meq (mv M f)))) = n) by (rewrite mv_length; apply W2).
    assert (Lf' : length (radd (radd f (mv Minv (rmul d (rsub meq (mv M f))))) g) = n) by (rewrite !radd_length; lia).
    split; [exact Lf'|].
    destruct (raw_values D ps zc dev compr eqm f Heq u HL) as [V0 V1]. fold rho meq in V0, V1.
    assert (Z : forall x : list R, length x = n -> radd x (rzero n) = x) by (intros x Hx; rewrite <- Hx; apply radd_zero_r).
    apply (step_impulse D n S ps zc dev compr (ws) (rzero n) d f force Hdim Hq Hps Hmodes Hd Hf Hdz' Hr population_background Hforce (rzero D) meq (mv M g)); auto using rzero_length.
    - intros i a Ha Hi. rewrite (V1 i a Ha Hi), nth_rzero. fold rho u. lra.
    - rewrite !Z by auto. rewrite <- !mv_moment_matrix. fold M. rewrite !mv_radd by (rewrite ?radd_length; lia).
      rewrite HM1; [reflexivity|]. rewrite rmul_length, rsub_length, mv_M_length. lia.
  Qed.
End Population.
