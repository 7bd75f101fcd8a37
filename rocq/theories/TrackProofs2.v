(* Forces that vanish, uniform regions, initialisation. *)
From Coq Require Import List ZArith Bool Arith Reals Lra Lia.
From Verif Require Import StencilModel RealLib LinLib TransSpec TransModel EqSpec CollModel CollSpec CollProofs CollProofs2 CollProofs3 IniModel IniSpec IniProofs TransProofs TrackModel TrackSpec TrackProofs.
Import ListNotations.
Local Open Scope R_scope.

Lemma zero_map {A} (h : A -> R) l : (forall x, In x l -> h x = 0) -> map h l = rzero (length l).
Proof. unfold rzero. induction l as [|x l IH]; intros H; cbn; [reflexivity|]. rewrite H by (left; reflexivity). f_equal. apply IH. intros y Hy. apply H. now right. Qed.
Lemma dot_zero_r' n x : dot x (rzero n) = 0.
Proof. rewrite dot_comm. apply dot_zero_l. Qed.
Lemma mv_zero M n : mv M (rzero n) = rzero (length M).
Proof. apply zero_map. intros r _. apply dot_zero_r'. Qed.
Lemma rmul_zero n d : length d = n -> rmul d (rzero n) = rzero n.
Proof. unfold rmul, rzero. intros <-. induction d as [|a d IH]; cbn; [reflexivity|]. cbn in IH. rewrite IH. f_equal. cbn. lra. Qed.
Lemma half_zero n d : length d = n -> half_relaxed d (rzero n) = rzero n.
Proof. intros H. apply rmul_zero. now rewrite map_length. Qed.
Lemma radd_zeros n : radd (rzero n) (rzero n) = rzero n.
Proof. rewrite <- (rzero_length n) at 1. apply radd_zero_l. Qed.

Section NoForce.
  Variables (D n : nat) (S : stencil) (ps : list poly) (M : mat) (T : list R -> list R) (ws d : list R) (equilibrium : list R -> res (list R)) (compr : bool) (rho : R) (u e : list R) (fm : force_model).
  Hypothesis Hq : length S = n.
  Hypothesis Hps : length ps = n.
  Hypothesis HM : length M = n.
  Hypothesis HT : T (rzero n) = rzero n.
  Hypothesis Hws : length ws = n.
  Hypothesis Hd : length d = n.
  Hypothesis Hu : length u = D.
  Hypothesis Heq : equilibrium u = Ok e.
  Hypothesis He : length e = n.
  Lemma no_terms (h : vec * R -> R) : (forall x, h x = 0) -> T (mv M (map h (combine S ws))) = rzero n.
  Proof. intros H. rewrite zero_map by (intros x _; apply H). rewrite mv_zero, HM. exact HT. Qed.
  Lemma no_force_terms : fm <> CentralMoment -> space_forcing fm D S ps M T ws d equilibrium compr rho u (rzero D) = Ok (rzero n).
  Proof.
    intros Hfm. destruct fm; try congruence; cbn [space_forcing]; rewrite ?rzero_length, ?Nat.eqb_refl; try f_equal.
    - apply no_terms. intros x. rewrite dot_zero_l. lra.
    - apply no_terms. intros x. cbv zeta. rewrite dot_zero_l. lra.
    - unfold luo_terms. rewrite no_terms; [now apply half_zero|]. intros x. cbv zeta. rewrite dot_zero_l. lra.
    - unfold equilibrium_values. rewrite zero_map; [rewrite Hps, HT; now apply half_zero|]. intros p _. unfold poly_value. rewrite (rsum_ext _ (fun _ => 0)); [apply rsum_zero|].
      intros t _. unfold he_moment, he_moment_with. rewrite dot_zero_l, (rsum_ext _ (fun _ => 0)), rsum_zero; [lra|]. intros a _. rewrite nth_rzero. lra.
    - unfold simple_terms. rewrite no_terms; [now apply half_zero|]. intros x. rewrite dot_zero_l. lra.
    - unfold edm_terms. rewrite (zero_map (fun x => x / reference_density compr rho)) by (intros x Hx; apply repeat_spec in Hx; rewrite Hx; unfold Rdiv; ring).
      rewrite rzero_length. replace (radd u (rzero D)) with u by (rewrite <- Hu; symmetry; apply radd_zero_r). rewrite Heq. cbn [rbind]. rewrite rsub_diag, He, mv_zero, HM, HT. reflexivity.
    - unfold shan_chen_linear, shan_chen_nonlinear. assert (LC : length (shan_chen_factor d) = n) by (unfold shan_chen_factor; now rewrite map_length).
      rewrite !no_terms, !rmul_zero; [apply radd_zeros| | | |]; auto; [rewrite rmul_length; lia| |]; intros x; cbv zeta; rewrite ?dot_zero_r', ?dot_zero_l; ring.
  Qed.
End NoForce.

Section Uniform.
  Variables (D n : nat) (S : stencil) (ps : list poly) (zc dev compr : bool) (w ws d f : list R) (Minv : mat).
  Let M := moment_matrix ps S (rzero D).
  Hypothesis Hdim : Forall (fun c => length c = D) S.
  Hypothesis Hq : length S = n.
  Hypothesis Hps : length ps = n.
  Hypothesis HM : is_inverse n M Minv.
  Hypothesis Hmodes : has_conserved_modes D ps.
  Hypothesis Hd : length d = n.
  Hypothesis Hf : length f = n.
  Hypothesis Hw : storage_background D n S zc dev w.
  Hypothesis Hws : length ws = n.
  Variables (rho_in : option R) (v : list R) (fm : force_model).
  Hypothesis Hv : (D <= length v)%nat.
  Hypothesis Hfm : fm <> CentralMoment.
  Let r := match rho_in with Some r => r | None => mass zc S f end.

  Lemma M_length : length M = n. Proof. unfold M, moment_matrix. now rewrite map_length. Qed.
  Lemma raw_without_force eqm fwd bwd : moment_transform n S ps w (rzero D) fwd bwd -> hydro_moments D compr dev eqm ->
    raw_forced_collision D S ps zc compr eqm ws M fwd bwd d fm (rzero D) rho_in (Some v) f = raw_input_collision D S ps zc compr eqm fwd bwd d rho_in (Some v) f.
  Proof.
    intros HT Heq. unfold raw_forced_collision, raw_input_collision. rewrite forced_used by (auto using rzero_length; congruence).
    rewrite (used_quantities D n S ps zc compr d f Hq Hps Hd Hf rho_in v Hv). cbn [rbind fst snd]. fold r. destruct (density_witness zc r) as [g0 Hg0].
    pose proof (given_length D v Hv) as Lv.
    destruct (raw_populations D n S ps zc dev compr eqm w g0 Hdim Hps Hmodes Hw fwd bwd HT Heq (firstn D v) Lv) as (e & E1 & E2 & _). rewrite Hg0 in E1.
    rewrite (no_force_terms D n S ps M (fun m => m) ws d _ compr r (firstn D v) e fm); auto using M_length. cbn [rbind]. now rewrite Hq.
  Qed.
  Lemma central_without_force eqc fwd bwd : (forall u, length u = D -> moment_transform n S ps w u (fwd u) (bwd u)) -> hydro_central_moments D compr dev eqc ->
    central_forced_collision D S ps zc compr eqc ws M Minv fwd bwd d fm (rzero D) rho_in (Some v) f = central_input_collision D S ps zc compr eqc fwd bwd d rho_in (Some v) f.
  Proof.
    intros HT Heq. unfold central_forced_collision, central_input_collision. rewrite forced_used by (auto using rzero_length; congruence).
    rewrite (used_quantities D n S ps zc compr d f Hq Hps Hd Hf rho_in v Hv). cbn [rbind fst snd]. fold r. destruct (density_witness zc r) as [g0 Hg0].
    pose proof (given_length D v Hv) as Lv.
    destruct (central_populations D n S ps zc dev compr eqc w g0 Hdim Hps Hmodes Hw fwd bwd HT Heq (firstn D v) Lv) as (e & E1 & E2 & _). rewrite Hg0 in E1.
    rewrite (no_force_terms D n S ps M _ ws d _ compr r (firstn D v) e fm); auto using M_length; [cbn [rbind]; now rewrite Hq|].
    assert (Z : map (poly_moment (rzero n) S (rzero D)) ps = rzero n).
    { rewrite <- (mv_moment_matrix ps S (rzero D)). fold M. rewrite mv_zero. now rewrite M_length. }
    rewrite <- Z at 1. rewrite (shift_T D n S ps Minv Hq HM (firstn D v) (rzero n) Lv (rzero_length n)).
    rewrite <- mv_moment_matrix, mv_zero. unfold moment_matrix. now rewrite map_length, Hps.
  Qed.
  (* populations in equilibrium with the given velocity are not changed *)
  Lemma raw_fixed eqm fwd bwd c : moment_transform n S ps w (rzero D) fwd bwd -> raw_equilibrium_populations ps eqm bwd c (firstn D v) = Ok f -> r = c ->
    raw_input_collision D S ps zc compr eqm fwd bwd d rho_in (Some v) f = Ok f.
  Proof.
    intros HT E <-. unfold raw_input_collision. rewrite (used_quantities D n S ps zc compr d f Hq Hps Hd Hf rho_in v Hv). cbn [rbind fst snd]. fold r.
    unfold raw_equilibrium_populations in E. destruct HT as (HF & HB & _). unfold collide. rewrite (HF f Hf). cbn [rbind].
    assert (Le : length (equilibrium_values ps (eqm r (firstn D v))) = n) by now rewrite values_length.
    destruct (HB _ Le) as (f1 & E1 & _ & E3). rewrite E in E1. injection E1 as <-. rewrite E3. unfold relax. rewrite rsub_diag, Le, rmul_zero by exact Hd.
    rewrite <- Le at 1. rewrite radd_zero_r. rewrite Hq. rewrite <- Le at 1. rewrite radd_zero_r. exact E.
  Qed.
End Uniform.
