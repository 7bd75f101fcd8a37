(* The velocity setting rule under a force. *)
From Coq Require Import String List ZArith QArith Qreals Bool Arith Reals Lra Lia.
From Verif Require Import CumModel CumProofs CumProofs2 CumProofs3 CumProofs4 CollProofs7 PropsTrans PropsColl PropsTrack CinProofs TransProofs StencilModel RealLib LinLib TransSpec TransModel MomModel EqModel EqSpec CollSpec CollModel CollProofs CollProofs2 CollProofs3 MacroModel IniModel IniSpec IniProofs TrackSpec TrackModel TrackProofs CinModel CinSpec.
Import ListNotations.
Local Open Scope R_scope.

Lemma init_velocity_nth D compr rho v fm F a : (D <= length v)%nat -> length F = D -> (a < D)%nat -> carrier compr rho <> 0 ->
  carrier compr rho * nth a (init_velocity D compr rho v (Some (fm, F))) 0 = carrier compr rho * nth a v 0 - nth a F 0 / 2.
Proof.
  intros Hv HF Ha Hc. unfold init_velocity, macroscopic_velocity_shift, default_velocity_shift. change (reference_density compr rho) with (carrier compr rho).
  assert (L : (a < length (firstn D v))%nat) by (rewrite firstn_length; lia).
  rewrite nth_indep with (d' := (fun uo : R * R => fst uo - snd uo) (0, 0)) by (rewrite map_length, combine_length, map_length; lia).
  rewrite (map_nth (fun uo : R * R => fst uo - snd uo)). rewrite combine_nth by (rewrite map_length, firstn_length; lia). cbn [fst snd]. rewrite nth_firstn_lt by auto.
  match goal with |- context [map ?g F] => rewrite nth_indep with (l := map g F) (d' := g 0) by (rewrite map_length; lia); rewrite (map_nth g) end. field. exact Hc.
Qed.
Lemma init_velocity_length D compr rho v force : (D <= length v)%nat -> (forall fm F, force = Some (fm, F) -> length F = D) -> length (init_velocity D compr rho v force) = D.
Proof.
  intros Hv HF. unfold init_velocity. rewrite map_length, combine_length, firstn_length. unfold macroscopic_velocity_shift. destruct force as [[fm F]|]; [|rewrite rzero_length; lia].
  unfold default_velocity_shift. rewrite map_length, (HF fm F eq_refl). lia.
Qed.
Lemma init_velocity_none D compr rho v a : (D <= length v)%nat -> (a < D)%nat -> nth a (init_velocity D compr rho v None) 0 = nth a v 0.
Proof.
  intros Hv Ha. unfold init_velocity. cbn [macroscopic_velocity_shift].
  rewrite nth_indep with (d' := (fun uo : R * R => fst uo - snd uo) (0, 0)) by (rewrite map_length, combine_length, firstn_length, rzero_length; lia).
  rewrite (map_nth (fun uo : R * R => fst uo - snd uo)), combine_nth by (rewrite firstn_length, rzero_length; lia). cbn [fst snd]. rewrite nth_firstn_lt, nth_rzero by auto. lra.
Qed.
(* decay towards a shifted target *)
Lemma forced_decay {A} (step : A -> res A) (I : A -> Prop) (m : A -> R) target rate push : rate <> 0 ->
  (forall x, I x -> exists y, step x = Ok y /\ I y /\ m y = m x + rate * (target - m x) + push) ->
  forall t x, I x -> exists y, repeat_step step t x = Ok y /\ I y /\ m y - (target + push / rate) = (1 - rate) ^ t * (m x - (target + push / rate)).
Proof.
  intros Hr H t x Hx. destruct (repeat_step_decay step I m (target + push / rate) rate) with (t := t) (x := x) as (y & E1 & E2 & E3); auto.
  - intros z Hz. destruct (H z Hz) as (y & F1 & F2 & F3). exists y. split; [exact F1|]. split; [exact F2|]. rewrite F3. field. exact Hr.
  - exists y. split; [exact E1|]. split; [exact E2|]. rewrite E3. ring.
Qed.
Lemma geometric_limit q c s : Rabs q < 1 -> (forall t, s t = c + q ^ t * (s 0%nat - c)) -> Un_cv s c.
Proof.
  intros Hq Hs eps He. pose proof (pow_lt_1_zero q Hq) as P. set (K := Rabs (s 0%nat - c) + 1). assert (HK : 0 < K) by (unfold K; pose proof (Rabs_pos (s 0%nat - c)); lra).
  destruct (P (eps / K)) as [N HN]; [now apply Rdiv_lt_0_compat|]. exists N. intros t Ht. unfold R_dist. rewrite Hs. replace (c + q ^ t * (s 0%nat - c) - c) with (q ^ t * (s 0%nat - c)) by ring. rewrite Rabs_mult.
  specialize (HN t Ht). pose proof (Rabs_pos (q ^ t)). apply Rle_lt_trans with (Rabs (q ^ t) * K); [apply Rmult_le_compat_l; [lra|unfold K; lra]|].
  apply (Rmult_lt_compat_r K) in HN; [|exact HK]. replace (eps / K * K) with eps in HN by (field; lra). exact HN.
Qed.

Lemma geo_same (rho x : R) : 0 < rho -> rho * Rpower (rho / rho) x = rho.
Proof. intros H. replace (rho / rho) with 1 by (field; lra). unfold Rpower. rewrite ln_1, Rmult_0_r, exp_0. ring. Qed.
Lemma geo_split rho r x : 0 < rho -> 0 < r -> rho * Rpower (r / rho) x = Rpower rho (1 - x) * Rpower r x.
Proof.
  intros H1 H2. unfold Rpower. rewrite <- exp_plus. rewrite <- (exp_ln rho H1) at 1. rewrite <- exp_plus. f_equal.
  unfold Rdiv. rewrite ln_mult, ln_Rinv by (auto; now apply Rinv_0_lt_compat). ring.
Qed.
Lemma cin_step name ord S ws cexps cms ps P Minv Pinv Pcms Pcinv Mpinv zc dev compr eqC fwd bwd d f rho_in v force :
  method_setup name ord S ws cms (map mono_poly cms) Pcms Minv Pcinv Mpinv -> length cms = sizeQ S ->
  NoDup cexps -> Forall (fun p : poly => NoDup (map snd p)) ps -> mono_to_poly cexps ps = Ok P -> is_inverse (length cexps) P Pinv ->
  has_conserved_modes (dimD S) ps -> hydro_cumulants (dimD S) eqC ->
  (forall u, length u = dimD S -> central_transform S cms (map mono_poly cms) Pcms Minv Pcinv Mpinv (background S ws zc false) u (fwd u) (bwd u)) ->
  length d = length cexps -> length f = sizeQ S -> zc && dev = false -> (dimD S <= length v)%nat ->
  (forall fm F, force = Some (fm, F) -> In fm [Simple; Luo; Guo; He; CentralMoment] /\ length F = dimD S /\
    (fm = CentralMoment -> exists rest, cms = zero_tuple (dimD S) :: map (unit_tuple (dimD S)) (seq 0 (dimD S)) ++ rest)) ->
  0 < mass zc S f -> 0 < match rho_in with Some r => r | None => mass zc S f end ->
  let r := match rho_in with Some r => r | None => mass zc S f end in
  let rho := mass zc S f in
  exists f', cumulant_input_collision (dimD S) S ps zc dev compr (map Q2R ws) cexps cms P Pinv Minv eqC fwd bwd d force rho_in (Some v) f = Ok f' /\ length f' = sizeQ S /\
    (forall i, nth_error ps i = Some (mono_poly (zero_tuple (dimD S))) -> mass zc S f' = rho * Rpower (r / rho) (nth i d 0)) /\
    (forall i a, (a < dimD S)%nat -> nth_error ps i = Some (mono_poly (unit_tuple (dimD S) a)) ->
      let U := (momentum f S a + (match force with Some (fm, _) => if shifts_equilibrium fm then 1 / 2 else 0 | None => 0 end) * nth a (impulse (dimD S) force) 0) / rho in
      momentum f' S a = mass zc S f' * (U + nth i d 0 * (nth a v 0 - U)) + (match force with Some (fm, _) => if shifts_equilibrium fm then 1 / 2 else 1 | None => 1 end) * nth a (impulse (dimD S) force) 0).
Proof.
  intros HS Lc Hne Hnp HP HPi Hmodes He HT Hd Hf Hz Hv HF Hrho Hr.
  destruct (setup_facts _ _ _ _ _ _ _ _ _ _ HS) as (F1 & F2 & F3). pose proof HS as [H1 H2 H3 H4 H5 H6 [H7 H8]]. pose proof (background_ok _ _ _ _ zc false H1 H2) as HB.
  assert (Hmono : forall e, In [(1, e)] (map mono_poly cms) -> In e cms). { intros e Hin. apply in_map_iff in Hin as (x & E & Hx). now injection E as <-. }
  apply (in_step (dimD S) (sizeQ S) S ps zc dev compr (map Q2R ws) (background S ws zc false) f cexps cms P Pinv Minv force fwd bwd eqC d); auto.
  - apply H3.
  - intros u Hu. eapply central_transform_ok; eauto. apply HB.
  - intros fm F E. destruct (HF fm F E) as (A & B & C). auto.
Qed.
(* weighted means *)
Lemma geo_mean rho r x : 0 < rho -> 0 < r -> r <> rho -> 0 < x < 1 -> rho * Rpower (r / rho) x < rho + x * (r - rho).
Proof.
  intros H1 H2 Hn Hx. set (t := r / rho). assert (Ht : 0 < t) by (now apply Rdiv_lt_0_compat).
  assert (Hn' : t <> 1). { unfold t. intros E. apply Hn. apply (Rmult_eq_compat_r rho) in E. unfold Rdiv in E. rewrite Rmult_assoc, Rinv_l in E by lra. lra. }
  replace (rho + x * (r - rho)) with (rho * (1 - x + x * t)) by (unfold t; field; lra). apply Rmult_lt_compat_l; [exact H1|].
  set (A := 1 - x + x * t). assert (HA : 0 < A) by (unfold A; pose proof (Rmult_lt_0_compat x t); lra).
  assert (L : forall y, 0 < y -> ln y <= y - 1). { intros y Hy. destruct (Req_dec y 1) as [->|N]; [rewrite ln_1; lra|]. apply Rlt_le. rewrite <- (ln_exp (y - 1)). apply ln_increasing; [exact Hy|]. pose proof (exp_ineq1 (y - 1) ltac:(lra)). lra. }
  assert (L1 : forall y, 0 < y -> y <> 1 -> ln y < y - 1). { intros y Hy N. rewrite <- (ln_exp (y - 1)). apply ln_increasing; [exact Hy|]. pose proof (exp_ineq1 (y - 1) ltac:(lra)). lra. }
  assert (N1 : / A <> 1). { intros E. apply (Rmult_eq_compat_r A) in E. rewrite Rinv_l in E by lra. unfold A in E. assert (x * (t - 1) = 0) by lra. apply Rmult_integral in H as [H|H]; lra. }
  pose proof (L1 (/ A) (Rinv_0_lt_compat _ HA) N1) as B1. rewrite ln_Rinv in B1 by exact HA.
  assert (P2 : 0 < t * / A) by (apply Rmult_lt_0_compat; [exact Ht|now apply Rinv_0_lt_compat]).
  pose proof (L (t * / A) P2) as B2. rewrite ln_mult, ln_Rinv in B2 by (auto; now apply Rinv_0_lt_compat).
  unfold Rpower. rewrite <- (exp_ln A HA). apply exp_increasing.
  assert (B1' : (1 - x) * - ln A < (1 - x) * (/ A - 1)) by (apply Rmult_lt_compat_l; lra).
  assert (B2' : x * (ln t + - ln A) <= x * (t * / A - 1)) by (apply Rmult_le_compat_l; lra).
  assert (E : (1 - x) * (/ A - 1) + x * (t * / A - 1) = 0). { replace ((1 - x) * (/ A - 1) + x * (t * / A - 1)) with ((1 - x + x * t) * / A - 1) by ring. fold A. rewrite Rinv_r; lra. }
  fold t. lra.
Qed.
(* the setter, repeated *)
Section Settle.
  Variables (zc : bool) (S : stencil) (compr : bool) (fm : force_model) (F v : list R) (rate : R) (D : nat) (step : list R -> res (list R)) (f : list R).
  Hypothesis Hrate : rate <> 0.
  Hypothesis Hc : carrier compr (mass zc S f) <> 0.
  Hypothesis Hstep : forall g, length g = length f -> mass zc S g = mass zc S f -> exists g', step g = Ok g' /\ length g' = length f /\ mass zc S g' = mass zc S f /\
    forall a, (a < D)%nat -> let p h := momentum h S a + nth a F 0 / 2 in p g' = p g + rate * (carrier compr (mass zc S f) * nth a v 0 - p g) + direct_share fm rate * nth a F 0.
  Let c := carrier compr (mass zc S f).
  Lemma settle : settles zc S compr F rate (settled_velocity zc S compr fm F rate v f) D step f.
  Proof.
    intros t. assert (G : forall t g, length g = length f -> mass zc S g = mass zc S f -> exists g', repeat_step step t g = Ok g' /\ length g' = length f /\ mass zc S g' = mass zc S f /\
      forall a, (a < D)%nat -> flow_velocity zc S compr F g' a - settled_velocity zc S compr fm F rate v f a = (1 - rate) ^ t * (flow_velocity zc S compr F g a - settled_velocity zc S compr fm F rate v f a)).
    { clear t. induction t as [|t IH]; intros g Lg Mg; [exists g; repeat split; auto; intros; cbn [pow]; lra|].
      destruct (Hstep g Lg Mg) as (g1 & E1 & L1 & M1 & V1). destruct (IH g1 L1 M1) as (g2 & E2 & L2 & M2 & V2). exists g2. cbn [repeat_step]. rewrite E1. repeat split; auto.
      intros a Ha. rewrite (V2 a Ha). specialize (V1 a Ha). cbv zeta in V1. unfold flow_velocity, settled_velocity. rewrite M1, Mg, V1. fold c. cbn [pow].
      replace ((1 - rate) * (1 - rate) ^ t) with ((1 - rate) ^ t * (1 - rate)) by ring. rewrite Rmult_assoc. f_equal. field. split; [exact Hc|exact Hrate]. }
    now apply G.
  Qed.
  Hypothesis Hr : 0 < rate < 2.
  Lemma away a : (a < D)%nat -> nth a F 0 <> 0 -> stays_away zc S compr F v a step f.
  Proof.
    intros Ha HF. set (dev := direct_share fm rate / rate * (nth a F 0 / c)).
    assert (Hs : direct_share fm rate <> 0) by (unfold direct_share; destruct fm; lra).
    assert (Hd : dev <> 0). { unfold dev, Rdiv. repeat apply Rmult_integral_contrapositive_currified; auto; apply Rinv_neq_0_compat; auto. }
    assert (Hp : 0 < Rabs dev) by now apply Rabs_pos_lt.
    set (w0 := flow_velocity zc S compr F f a - settled_velocity zc S compr fm F rate v f a).
    assert (Hq : Rabs (1 - rate) < 1) by (apply Rabs_def1; lra).
    pose proof (geometric_limit (1 - rate) 0 (fun t => (1 - rate) ^ t * w0) Hq) as Lim. destruct (Lim ltac:(intros t; cbn [pow]; ring) (Rabs dev / 2)) as [T HT]; [lra|].
    exists (Rabs dev / 2), T. split; [lra|]. intros t g Ht Eg. destruct (settle t) as (g' & E' & _ & _ & V). rewrite E' in Eg. injection Eg as <-. specialize (V a Ha). fold w0 in V.
    specialize (HT t Ht). unfold R_dist in HT. rewrite Rminus_0_r in HT. rewrite <- V in HT. unfold settled_velocity in HT. fold c dev in HT.
    set (x := flow_velocity zc S compr F g' a) in *. set (y := nth a v 0) in *. pose proof (Rabs_triang_inv dev (dev - (x - y))) as Tr. replace (dev - (dev - (x - y))) with (x - y) in Tr by ring.
    replace (x - (y + dev)) with (- (dev - (x - y))) in HT by ring. rewrite Rabs_Ropp in HT. lra.
  Qed.
End Settle.
Lemma cin_relax name ord S ws cexps cms ps P Minv Pinv Pcms Pcinv Mpinv zc dev compr eqC fwd bwd d f rho_in v f' :
  method_setup name ord S ws cms (map mono_poly cms) Pcms Minv Pcinv Mpinv -> length cms = sizeQ S ->
  NoDup cexps -> Forall (fun p : poly => NoDup (map snd p)) ps -> mono_to_poly cexps ps = Ok P -> is_inverse (length cexps) P Pinv ->
  (forall u, length u = dimD S -> central_transform S cms (map mono_poly cms) Pcms Minv Pcinv Mpinv (background S ws zc false) u (fwd u) (bwd u)) ->
  length d = length cexps -> length f = sizeQ S -> length f' = sizeQ S -> zc && dev = false -> (dimD S <= length v)%nat ->
  down_closed cexps -> Forall (fun e => length e = dimD S) cexps -> incl cexps cms ->
  0 < mass zc S f -> 0 < match rho_in with Some r => r | None => mass zc S f end ->
  cumulant_input_collision (dimD S) S ps zc dev compr (map Q2R ws) cexps cms P Pinv Minv eqC fwd bwd d None rho_in (Some v) f = Ok f' ->
  let r := match rho_in with Some r => r | None => mass zc S f end in
  let C g := cumulant_forward (dimD S) (firstn (dimD S) v) r cexps P (central_moment (radd g (background S ws zc false)) S (firstn (dimD S) v)) in
  C f' = radd (C f) (rmul d (rsub (equilibrium_values ps (eqC r (firstn (dimD S) v))) (C f))).
Proof.
  intros HS Lc Hne Hnp HP HPi HT Hd Hf Hf' Hz Hv Hdc Hds Hi Hrho Hr E.
  destruct (setup_facts _ _ _ _ _ _ _ _ _ _ HS) as (F1 & F2 & F3). pose proof HS as [H1 H2 H3 H4 H5 H6 [H7 H8]]. pose proof (background_ok _ _ _ _ zc false H1 H2) as HB.
  eapply (in_relax (dimD S) (sizeQ S) S ps zc dev compr (map Q2R ws) (background S ws zc false) f cexps cms P Pinv Minv None fwd bwd eqC d); eauto; try discriminate.
  intros u Hu. eapply central_transform_ok; eauto. apply HB.
Qed.
Lemma cin_setter name ord S ws cexps cms ps P Minv Pinv Pcms Pcinv Mpinv zc dev eqC fwd bwd d f rate v force :
  method_setup name ord S ws cms (map mono_poly cms) Pcms Minv Pcinv Mpinv -> length cms = sizeQ S ->
  NoDup cexps -> Forall (fun p : poly => NoDup (map snd p)) ps -> mono_to_poly cexps ps = Ok P -> is_inverse (length cexps) P Pinv ->
  has_conserved_modes (dimD S) ps -> hydro_cumulants (dimD S) eqC ->
  (forall u, length u = dimD S -> central_transform S cms (map mono_poly cms) Pcms Minv Pcinv Mpinv (background S ws zc false) u (fwd u) (bwd u)) ->
  length d = length cexps -> length f = sizeQ S -> zc && dev = false -> (dimD S <= length v)%nat ->
  (forall fm F, force = Some (fm, F) -> In fm [Simple; Luo; Guo; He; CentralMoment] /\ length F = dimD S /\
    (fm = CentralMoment -> exists rest, cms = zero_tuple (dimD S) :: map (unit_tuple (dimD S)) (seq 0 (dimD S)) ++ rest)) ->
  0 < mass zc S f ->
  exists f', velocity_setter_cumulant (dimD S) S ps zc dev true (map Q2R ws) cexps cms P Pinv Minv eqC fwd bwd d force rate v f = Ok f' /\ length f' = sizeQ S /\ mass zc S f' = mass zc S f /\
    forall a, (a < dimD S)%nat -> let F := impulse (dimD S) force in let p g := momentum g S a + nth a F 0 / 2 in
      p f' = p f + rate * (mass zc S f * nth a v 0 - p f) + match force with Some (fm, _) => direct_share fm rate * nth a F 0 | None => 0 end.
Proof.
  intros HS Lc Hne Hnp HP HPi Hmodes He HT Hd Hf Hz Hv HF Hrho. unfold velocity_setter_cumulant.
  assert (Lps : length ps = length cexps). { destruct (mono_to_poly_spec cexps ps P (fun _ => 0) Hne Hnp HP) as [[L _] _]. destruct HPi as ([L' _] & _). congruence. }
  destruct (first_rates (dimD S) ps d rate) as (d' & E1 & E2 & E3); [congruence|apply Hmodes|]. rewrite E1. cbn [rbind].
  assert (Lv : length (init_velocity (dimD S) true (pdf_density zc f) v force) = dimD S) by (apply init_velocity_length; [exact Hv|intros fm F E; now apply (HF fm F)]).
  destruct (cin_step name ord S ws cexps cms ps P Minv Pinv Pcms Pcinv Mpinv zc dev true eqC fwd bwd d' f None (init_velocity (dimD S) true (pdf_density zc f) v force) force) as (f' & G1 & G2 & G3 & G4); auto; try congruence; [lia|].
  destruct (has_zero (dimD S) ps Hmodes) as [j Hj]. specialize (G3 j Hj). rewrite geo_same in G3 by exact Hrho.
  exists f'. split; [exact G1|]. split; [exact G2|]. split; [exact G3|]. intros a Ha. cbv zeta. destruct (has_unit (dimD S) ps Hmodes a Ha) as [i Hi]. specialize (G4 i a Ha Hi). cbv zeta in G4. rewrite G4, G3.
  assert (Er : nth i d' 0 = rate). { rewrite (E3 i _ Hi). replace (is_first _ _) with true; [reflexivity|]. symmetry. apply is_first_spec. eauto. } rewrite Er.
  assert (Ep : pdf_density zc f = mass zc S f) by (symmetry; now apply mass_pdf).
  unfold impulse in *. destruct force as [[fm F]|].
  - destruct (HF fm F eq_refl) as (Hin & HFl & _). pose proof (init_velocity_nth (dimD S) true (pdf_density zc f) v fm F a Hv HFl Ha) as Ei. rewrite Ep in Ei. cbn [carrier] in Ei.
    specialize (Ei ltac:(lra)). rewrite Ep. clear G1 G4. set (q := nth a (init_velocity (dimD S) true (mass zc S f) v (Some (fm, F))) 0) in *. set (rho := mass zc S f) in *.
    assert (Eq : q = nth a v 0 - nth a F 0 / 2 / rho) by (apply (Rmult_eq_reg_l rho); [rewrite Ei; field; lra|lra]). rewrite Eq.
    destruct fm; cbn [shifts_equilibrium direct_share]; try (field; lra); cbn in Hin; intuition discriminate.
  - rewrite init_velocity_none, nth_rzero by auto. field. lra.
Qed.
Lemma raw_setter name ord S ws exps ps P Minv Pinv Mpinv zc dev compr eqm fwd bwd d f rate v fm F :
  method_setup name ord S ws exps ps P Minv Pinv Mpinv -> hydro_moments (dimD S) compr dev eqm ->
  raw_transform S exps ps P Minv Pinv Mpinv (background S ws zc dev) fwd bwd ->
  length d = sizeQ S -> length f = sizeQ S -> (dev = true -> zc = true) -> (dimD S <= length v)%nat -> fm <> CentralMoment -> length F = dimD S -> carrier compr (mass zc S f) <> 0 ->
  exists f', velocity_setter_forced_raw (dimD S) S ps zc compr eqm (map Q2R ws) (moment_matrix ps S (rzero (dimD S))) fwd bwd d fm F rate v f = Ok f' /\ length f' = sizeQ S /\ mass zc S f' = mass zc S f /\
    forall a, (a < dimD S)%nat -> let p g := momentum g S a + nth a F 0 / 2 in p f' = p f + rate * (carrier compr (mass zc S f) * nth a v 0 - p f) + direct_share fm rate * nth a F 0.
Proof.
  intros HS He HT Hd Hf Hdz Hv Hfm HF Hc. destruct (setup_facts _ _ _ _ _ _ _ _ _ _ HS) as (F1 & F2 & F3). pose proof HS as [H1 H2 H3 H4 H5 H6 H7].
  destruct (first_rates (dimD S) ps d rate) as (d' & E1 & E2 & E3); [rewrite Hd; now symmetry|apply H7|]. unfold velocity_setter_forced_raw. rewrite E1. cbn [rbind].
  assert (Lv : length (init_velocity (dimD S) compr (pdf_density zc f) v (Some (fm, F))) = dimD S) by (apply init_velocity_length; [exact Hv|congruence]).
  destruct (C64_forced_raw name ord S ws exps ps P Minv Pinv Mpinv zc dev compr eqm fwd bwd d' f None (init_velocity (dimD S) compr (pdf_density zc f) v (Some (fm, F))) fm F HS He HT) as (f' & G1 & G2 & G3 & _ & G4); auto; try congruence; [lia|].
  exists f'. split; [exact G1|]. split; [exact G2|]. split; [now apply G3|]. intros a Ha. cbv zeta. destruct (has_unit (dimD S) ps H7 a Ha) as [i Hi]. specialize (G4 i a Ha Hi).
  assert (Er : nth i d' 0 = rate). { rewrite (E3 i _ Hi). replace (is_first _ _) with true; [reflexivity|]. symmetry. apply is_first_spec. eauto. } rewrite Er in G4. rewrite G4.
  assert (Ep : pdf_density zc f = mass zc S f) by (symmetry; now apply mass_pdf). rewrite Ep, (init_velocity_nth _ _ _ v fm F a Hv HF Ha Hc). ring.
Qed.
Lemma central_setter' name ord S ws exps ps P Minv Pinv Mpinv zc dev compr eqc fwd bwd d f rate v fm F :
  method_setup name ord S ws exps ps P Minv Pinv Mpinv -> hydro_central_moments (dimD S) compr dev eqc ->
  (forall u, length u = dimD S -> central_transform S exps ps P Minv Pinv Mpinv (background S ws zc dev) u (fwd u) (bwd u)) ->
  length d = sizeQ S -> length f = sizeQ S -> (dev = true -> zc = true) -> (dimD S <= length v)%nat -> fm <> CentralMoment -> length F = dimD S -> carrier compr (mass zc S f) <> 0 ->
  exists f', velocity_setter_forced_central (dimD S) S ps zc compr eqc (map Q2R ws) (moment_matrix ps S (rzero (dimD S))) Mpinv fwd bwd d fm F rate v f = Ok f' /\ length f' = sizeQ S /\ mass zc S f' = mass zc S f /\
    forall a, (a < dimD S)%nat -> let p g := momentum g S a + nth a F 0 / 2 in p f' = p f + rate * (carrier compr (mass zc S f) * nth a v 0 - p f) + direct_share fm rate * nth a F 0.
Proof.
  intros HS He HT Hd Hf Hdz Hv Hfm HF Hc. destruct (setup_facts _ _ _ _ _ _ _ _ _ _ HS) as (F1 & F2 & F3). pose proof HS as [H1 H2 H3 H4 H5 H6 H7].
  destruct (first_rates (dimD S) ps d rate) as (d' & E1 & E2 & E3); [rewrite Hd; now symmetry|apply H7|]. unfold velocity_setter_forced_central. rewrite E1. cbn [rbind].
  assert (Lv : length (init_velocity (dimD S) compr (pdf_density zc f) v (Some (fm, F))) = dimD S) by (apply init_velocity_length; [exact Hv|congruence]).
  destruct (C64_forced_central name ord S ws exps ps P Minv Pinv Mpinv zc dev compr eqc fwd bwd d' f None (init_velocity (dimD S) compr (pdf_density zc f) v (Some (fm, F))) fm F HS He HT) as (f' & G1 & G2 & G3 & _ & G4); auto; try congruence; [lia|].
  exists f'. split; [exact G1|]. split; [exact G2|]. split; [now apply G3|]. intros a Ha. cbv zeta. destruct (has_unit (dimD S) ps H7 a Ha) as [i Hi]. destruct (has_zero (dimD S) ps H7) as [j Hj]. specialize (G4 i j a Ha Hi Hj).
  assert (Er : nth i d' 0 = rate). { rewrite (E3 i _ Hi). replace (is_first _ _) with true; [reflexivity|]. symmetry. apply is_first_spec. eauto. } rewrite Er in G4. rewrite G4.
  assert (Ep : pdf_density zc f = mass zc S f) by (symmetry; now apply mass_pdf). rewrite Ep, (init_velocity_nth _ _ _ v fm F a Hv HF Ha Hc). ring.
Qed.
