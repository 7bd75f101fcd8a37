(* C44, C45: the Galilean and the fourth-order correction of D3Q27 cumulant methods. *)
From Coq Require Import String List ZArith Bool Arith QArith Qreals Reals Lra Lia.
From Verif Require Import StencilModel RealLib LinLib LinQ TransSpec TransModel MomModel EqModel EqSpec CumModel CollSpec CollModel CollProofs CollProofs3 CollProofs6 CollProofs7 PropsColl ModeModel ModeSpec CorrModel CorrSpec CorrProofs CorrProofs2.
Import ListNotations.
Local Open Scope R_scope.

(* a D3Q27 cumulant method as in C11 and C12: central moments cms, cumulants ps over the exponents cexps *)
Record cumulant_setup (S : stencil) (ws : list Q) (cexps cms : list (list nat)) (ps : list qpoly) (P Minv Pinv Pcms Pcinv Mpinv : mat) (zc : bool)
  (fwd bwd : list R -> list R -> res (list R)) : Prop := {
  s_method : method_setup "D3Q27" "walberla" S ws cms (map mono_poly cms) Pcms Minv Pcinv Mpinv;
  s_size : length cms = sizeQ S;
  s_exponents : NoDup cexps;
  s_terms : Forall (fun p : poly => NoDup (map snd p)) (map toR ps);
  s_matrix : mono_to_poly cexps (map toR ps) = Ok P;
  s_inverse : is_inverse (length cexps) P Pinv;
  s_modes : has_conserved_modes 3 (map toR ps);
  s_transform : forall u, length u = 3%nat -> central_transform S cms (map mono_poly cms) Pcms Minv Pcinv Mpinv (background S ws zc false) u (fwd u) (bwd u) }.
Lemma setup_dim S ws cexps cms ps P Minv Pinv Pcms Pcinv Mpinv zc fwd bwd : cumulant_setup S ws cexps cms ps P Minv Pinv Pcms Pcinv Mpinv zc fwd bwd -> dimD S = 3%nat.
Proof. intros [[H _ _ _ _ _ _] _ _ _ _ _ _ _]. cbn in H. injection H as <-. reflexivity. Qed.
(* the force models a cumulant method accepts *)
Definition accepted_force (cms : list (list nat)) (force : option (force_model * list R)) : Prop :=
  forall fm F, force = Some (fm, F) -> In fm [Simple; Luo; Guo; He; CentralMoment] /\ length F = 3%nat /\
    (fm = CentralMoment -> exists rest, cms = zero_tuple 3 :: map (CollModel.unit_tuple 3) (seq 0 3) ++ rest).

Definition force_vector_of (force : option (force_model * list R)) : list R := match force with Some (_, F) => F | None => rzero 3 end.
Lemma background_density S ws cexps cms ps P Minv Pinv Pcms Pcinv Mpinv zc fwd bwd f u : cumulant_setup S ws cexps cms ps P Minv Pinv Pcms Pcinv Mpinv zc fwd bwd ->
  length f = sizeQ S -> central_moment (radd f (background S ws zc false)) S u (zero_tuple 3) = pdf_density zc f.
Proof.
  intros HU Hf. pose proof HU as [[H1 H2 _ _ _ _ _] _ _ _ _ _ _ _]. destruct (background_ok _ _ _ _ zc false H1 H2) as (Lw & Dw & _). unfold sizeQ in *.
  rewrite central_zero. unfold density in *. rewrite fsum_radd by congruence. rewrite Dw. unfold pdf_density. change (fsum f S (fun _ => 1)) with (density f S). rewrite density_rsum by congruence. destruct zc; cbn; lra.
Qed.
Lemma collision_with_impulse S ws cexps cms ps P Minv Pinv Pcms Pcinv Mpinv zc dev fwd bwd post force f :
  cumulant_setup S ws cexps cms ps P Minv Pinv Pcms Pcinv Mpinv zc fwd bwd -> keeps_conserved 3 (map toR ps) (length cexps) post -> accepted_force cms force ->
  length f = sizeQ S -> zc && dev = false -> 0 < pdf_density zc f ->
  exists f', cumulant_collision_with 3 S zc dev true (map Q2R ws) post cexps cms P Pinv Minv fwd bwd force f = Ok f' /\ length f' = sizeQ S /\
    adds_impulse 3 S (force_vector_of force) f f'.
Proof.
  intros HU K HF Hf Hz Hr. pose proof (setup_dim _ _ _ _ _ _ _ _ _ _ _ _ _ _ HU) as D3. pose proof HU as [HS Lc Hne Hnp HP HPi Hmodes HT]. pose proof HS as [H1 H2 H3 H4 H5 H6 [H7 H8]].
  destruct (setup_facts _ _ _ _ _ _ _ _ _ _ HS) as (F1 & F2 & F3). pose proof (background_ok _ _ _ _ zc false H1 H2) as HB. rewrite D3 in *.
  assert (Hmono : forall e, In [(1, e)] (map mono_poly cms) -> In e cms). { intros e Hin. apply in_map_iff in Hin as (x & E & Hx). now injection E as <-. }
  apply (cumulant_step_with 3 (sizeQ S) S (map toR ps) zc dev (map Q2R ws) (background S ws zc false)); auto.
  - apply H3.
  - intros u Hu. eapply central_transform_ok; eauto; [apply HB|now rewrite D3].
  - intros fm F E. destruct (HF fm F E) as (G1 & G2 & G3). repeat split; auto; apply F2.
Qed.

(* ================= C44 ================= *)
(* the gradients the corrections use are the ones determined by the second-order cumulants; undefined only for density 0 *)
Theorem C44_gradients : forall o1 o2 rho c, 0 < rho ->
  (exists D, velocity_gradients o1 o2 rho c = Some D) /\
  (forall dx dy dz, velocity_gradients o1 o2 rho c = Some (dx, dy, dz) <-> diagonal_gradients o1 o2 rho (c e_xx) (c e_yy) (c e_zz) dx dy dz) /\
  velocity_gradients o1 o2 0 c = None.
Proof. intros o1 o2 rho c H. split; [now apply gradients_defined|]. split; [intros; now apply gradients_spec|apply gradients_undefined]. Qed.
Print Assumptions C44_gradients.

(* no correction for a fluid at rest or in equilibrium *)
Theorem C44_vanishes : forall o1 o2 rho u c, 0 < rho ->
  (c e_xx = rho / 3 -> c e_yy = rho / 3 -> c e_zz = rho / 3 -> exists D, velocity_gradients o1 o2 rho c = Some D /\ galilean_terms o1 o2 rho u D = [0; 0; 0]) /\
  (forall D, galilean_terms o1 o2 rho (rzero 3) D = [0; 0; 0]).
Proof.
  intros o1 o2 rho u c H. split; [|intros; apply galilean_rest]. intros E1 E2 E3. exists (0, 0, 0). split; [now apply gradients_equilibrium|apply galilean_zero].
Qed.
Print Assumptions C44_vanishes.

(* exchanging two axes of the flow exchanges the changes of xx, yy, zz *)
Theorem C44_axes : forall o1 o2 rho u c i j D D' delta delta', 0 < rho -> (i < 3)%nat -> (j < 3)%nat ->
  velocity_gradients o1 o2 rho c = Some D -> velocity_gradients o1 o2 rho (swap_cumulants i j c) = Some D' ->
  second_order_changes (galilean_terms o1 o2 rho u D) delta -> second_order_changes (galilean_terms o1 o2 rho (swap_triple 0 i j u) D') delta' ->
  delta' = swap_triple 0 i j delta.
Proof. intros o1 o2 rho u c i j D D' delta delta' Hr Hi Hj HD HD'. apply galilean_swap; auto. eapply gradients_swap; eauto. Qed.
Print Assumptions C44_axes.

(* equal rates: every diagonal cumulant is changed by - 3 rho (1 - omega/2) u_a^2 (d_a u_a) *)
Theorem C44_equal_rates : forall o rho u dx dy dz delta, second_order_changes (galilean_terms o o rho u (dx, dy, dz)) delta ->
  delta = map (fun ud => - 3 * rho * (1 - o / 2) * fst ud ^ 2 * snd ud) [(nth 0 u 0, dx); (nth 1 u 0, dy); (nth 2 u 0, dz)].
Proof. exact galilean_delta. Qed.
Print Assumptions C44_equal_rates.
(* different rates: differences of the changes have the factor of the shear rate, their sum that of the bulk rate *)
Theorem C44_rates : forall o1 o2 rho u dx dy dz delta, second_order_changes (galilean_terms o1 o2 rho u (dx, dy, dz)) delta ->
  let t a := nth a u 0 ^ 2 * nth a [dx; dy; dz] 0 in
  nth 0 delta 0 + nth 1 delta 0 + nth 2 delta 0 = - 3 * rho * (1 - o2 / 2) * (t 0%nat + t 1%nat + t 2%nat) /\
  (forall a b, (a < 3)%nat -> (b < 3)%nat -> nth a delta 0 - nth b delta 0 = - 3 * rho * (1 - o1 / 2) * (t a - t b)).
Proof.
  intros o1 o2 rho u dx dy dz delta (L & H1 & H2 & H3). cbn [galilean_terms nth] in H1, H2, H3. cbn zeta. split; [cbn [nth]; lra|].
  intros [|[|[|a]]] [|[|[|b]]] Ha Hb; try lia; cbn [nth]; lra.
Qed.
Print Assumptions C44_rates.

(* the corrected collision still adds exactly the impulse of the force (none: conserves mass and momentum) *)
Theorem C44_impulse : forall S ws cexps cms ps P Minv Pinv Pcms Pcinv Mpinv zc dev fwd bwd eqC rates V eqb (val : V -> R) b st d post force f,
  cumulant_setup S ws cexps cms ps P Minv Pinv Pcms Pcinv Mpinv zc fwd bwd -> hydro_cumulants 3 eqC -> length rates = length cexps ->
  add_galilean_correction eqb val b st ps d (relaxation_post (map toR ps) eqC rates) = Ok post -> accepted_force cms force ->
  length f = sizeQ S -> zc && dev = false -> 0 < pdf_density zc f ->
  exists f', cumulant_collision_with 3 S zc dev true (map Q2R ws) post cexps cms P Pinv Minv fwd bwd force f = Ok f' /\ length f' = sizeQ S /\
    adds_impulse 3 S (force_vector_of force) f f'.
Proof.
  intros S ws cexps cms ps P Minv Pinv Pcms Pcinv Mpinv zc dev fwd bwd eqC rates V eqb val b st d post force f HU He Lr H HF Hf Hz Hr. eapply collision_with_impulse; eauto.
  eapply galilean_keeps; [eauto|]. apply relax_keeps; auto. pose proof HU as [_ _ Hne Hnp HP HPi _ _]. now apply (c_ps (map toR ps) cexps P Pinv).
Qed.
Print Assumptions C44_impulse.

(* what the correction does to the cumulants of the new populations: the three second-order polynomials move by the terms above,
   every other cumulant is what it is without the correction *)
Theorem C44_effect : forall S ws cexps cms ps P Minv Pinv Pcms Pcinv Mpinv zc dev compr fwd bwd eqC rates V eqb (val : V -> R) b st d post f,
  let rho := pdf_density zc f in let u := equilibrium_velocity 3 S zc compr None f in let w := background S ws zc false in
  let cumulants g := cumulant_forward 3 u rho cexps P (central_moment (radd g w) S u) in
  let c := cumulant_from_central_moments 3 u rho (central_moment (radd f w) S u) in
  cumulant_setup S ws cexps cms ps P Minv Pinv Pcms Pcinv Mpinv zc fwd bwd -> Forall (fun e => length e = 3%nat) cexps -> down_closed cexps -> incl cexps cms ->
  incl [e_xx; e_yy; e_zz] cexps -> length rates = length cexps ->
  add_galilean_correction eqb val b st ps d (relaxation_post (map toR ps) eqC rates) = Ok post ->
  length f = sizeQ S -> zc && dev = false -> 0 < rho ->
  exists f0 f' o1 o2 D, cumulant_collision 3 S (map toR ps) zc dev compr (map Q2R ws) cexps cms P Pinv Minv eqC fwd bwd rates None f = Ok f0 /\
    cumulant_collision_with 3 S zc dev compr (map Q2R ws) post cexps cms P Pinv Minv fwd bwd None f = Ok f' /\
    rate_of d (gal 0) = Ok o1 /\ rate_of d (gal 2) = Ok o2 /\ velocity_gradients (val o1) (val o2) rho c = Some D /\
    (forall j, (j < 3)%nat -> let i := poly_index (gal j) ps in nth i (cumulants f') 0 = nth i (cumulants f0) 0 + nth j (galilean_terms (val o1) (val o2) rho u D) 0) /\
    (forall i, (i < length ps)%nat -> (forall t, In t galilean_polys -> qpoly_eqb t (nth i ps []) = false) -> nth i (cumulants f') 0 = nth i (cumulants f0) 0).
Proof.
  intros S ws cexps cms ps P Minv Pinv Pcms Pcinv Mpinv zc dev compr fwd bwd eqC rates V eqb val b st d post f rho u w cumulants c HU He Hdc Hinc H3 Lr H Hf Hz Hr.
  destruct (galilean_form _ _ _ _ _ _ _ _ H) as (_ & _ & Hs & o & Ho & Epost). apply strict_subset_in in Hs. destruct (rates_galilean _ _ _ Ho) as (R1 & _ & R2).
  pose proof (setup_dim _ _ _ _ _ _ _ _ _ _ _ _ _ _ HU) as D3. pose proof HU as [HS Lc Hne Hnp HP HPi Hmodes HT]. pose proof HS as [H1 H2 H3' H4 H5 H6 H7].
  pose proof (background_ok _ _ _ _ zc false H1 H2) as (Lw & _). assert (Lp : length ps = length cexps) by (rewrite <- (map_length toR ps); now apply (c_ps (map toR ps) cexps P Pinv)).
  assert (Lu : length u = 3%nat) by (apply velocity_length; discriminate).
  assert (HM : moment_transform (sizeQ S) S (map mono_poly cms) w u (fwd u) (bwd u)) by (eapply central_transform_ok; eauto; now rewrite D3).
  assert (Hpos : 0 < central_moment (radd f w) S u (repeat 0%nat 3)) by (unfold w; change (repeat 0%nat 3) with (zero_tuple 3); erewrite background_density; eauto).
  assert (Lrelax : forall C, length C = length cexps -> length (relax rates (equilibrium_values (map toR ps) (eqC rho u)) C) = length cexps).
  { intros C HC. unfold relax. rewrite radd_length, rmul_length, rsub_length, values_length, map_length. lia. }
  assert (NDc : NoDup cms) by apply H3'.
  destruct (cumulants_post 3 (sizeQ S) S zc dev compr (map Q2R ws) w (relaxation_post (map toR ps) eqC rates) cexps cms P Pinv Minv fwd bwd f) as (f0 & E0 & L0 & C0); fold rho u; auto; try lra.
  { intros cm C HC. eexists. split; [reflexivity|]. auto. }
  destruct (cumulants_post 3 (sizeQ S) S zc dev compr (map Q2R ws) w post cexps cms P Pinv Minv fwd bwd f) as (f' & E1 & L1 & C1); fold rho u; auto; try lra.
  { intros cm C HC. rewrite Epost. destruct (gradients_defined (val (fst o)) (val (snd o)) rho cm Hr) as [D ->]. eexists. split; [reflexivity|]. rewrite add_corrections_length. auto. }
  { intros cm cm' C Hext. rewrite !Epost. unfold velocity_gradients. rewrite !(Hext e_xx), !(Hext e_yy), !(Hext e_zz) by (apply H3; cbn; auto). reflexivity. }
  fold rho u c in C0, C1. destruct (gradients_defined (val (fst o)) (val (snd o)) rho c Hr) as [D HD].
  rewrite Epost, HD, C0 in C1. cbn [undefined_if_none rbind] in C1. fold (cumulants f0) (cumulants f') in C1. injection C1 as C1.
  assert (LC0 : length (cumulants f0) = length ps).
  { fold (cumulants f) (cumulants f0) in C0. injection C0 as C0. rewrite <- C0, Lrelax; [auto|]. unfold cumulants, cumulant_forward. rewrite mv_length. destruct HPi as ([L _] & _). exact L. }
  destruct (corrections_effect ps galilean_polys (galilean_terms (val (fst o)) (val (snd o)) rho u D) (cumulants f0) Hs eq_refl) as (_ & A & B); [now destruct D as [[? ?] ?]|auto|].
  rewrite C1 in A, B. exists f0, f', (fst o), (snd o), D. repeat split; auto.
Qed.
Print Assumptions C44_effect.

(* what is rejected *)
Theorem C44_rejected : forall V (eqb : V -> V -> bool) val b st ps d post,
  (b = false \/ is_D3Q27 st = false -> add_galilean_correction eqb val b st ps d post = Err ValueError) /\
  (b = true -> is_D3Q27 st = true ->
    (existsb (fun p => negb (poly_in p ps)) galilean_polys = true -> add_galilean_correction eqb val b st ps d post = Err TypeError) /\
    (strict_subset galilean_polys ps = true -> forall o1 o1', rate_of d (gal 0) = Ok o1 -> rate_of d (gal 1) = Ok o1' -> eqb o1 o1' = false ->
      add_galilean_correction eqb val b st ps d post = Err AssertionError) /\
    (strict_subset galilean_polys ps = true -> forall o1 o2, rate_of d (gal 0) = Ok o1 -> rate_of d (gal 1) = Ok o1 -> rate_of d (gal 2) = Ok o2 -> eqb o1 o1 = true ->
      exists post', add_galilean_correction eqb val b st ps d post = Ok post')).
Proof.
  intros V eqb val b st ps d post. unfold add_galilean_correction. split.
  - intros [-> | ->]; [reflexivity|]. now rewrite orb_true_r.
  - intros -> ->. cbn [negb orb]. split; [|split].
    + intros H. replace (strict_subset galilean_polys ps) with false; [reflexivity|]. symmetry. unfold strict_subset. apply andb_false_intro1.
      apply existsb_exists in H as (p & Hp & Hn). destruct (forallb _ _) eqn:E; [|reflexivity]. rewrite forallb_forall in E. rewrite (E p Hp) in Hn. discriminate.
    + intros -> o1 o1' E1 E2 E. cbn [negb]. unfold galilean_rates. rewrite E1, E2. cbn [rbind]. now rewrite E.
    + intros -> o1 o2 E1 E2 E3 E. cbn [negb]. unfold galilean_rates. rewrite E1, E2. cbn [rbind]. rewrite E, E3. cbn. eauto.
Qed.
Print Assumptions C44_rejected.
(* the default D3Q27 cumulant method *)
Example C44_default : exists S st ps d, lbstencil_of_name "D3Q27" "walberla" = Ok st /\ entries st = S /\ fourth_order_method S 1 = Ok (ps, d) /\
  galilean_rates rate_symbol_eqb d = Ok (RCorr 0, RCorr 1) /\ strict_subset galilean_polys ps = true /\ is_D3Q27 st = true /\ length ps = 27%nat.
Proof. do 4 eexists. split; [vm_compute; reflexivity|]. split; [reflexivity|]. split; [vm_compute; reflexivity|]. repeat split; vm_compute; reflexivity. Qed.
Example C44_gradient_example : velocity_gradients 1 1 1 (fun e => if vec_eqb (map Z.of_nat e) [2%Z; 0%Z; 0%Z] then 1 / 3 + 1 / 10 else 1 / 3) = Some (- (3 / 20), 0, 0).
Proof.
  apply gradients_spec; [lra|]. unfold diagonal_gradients.
  repeat split; cbn; lra.
Qed.

(* ================= C45 ================= *)
Theorem C45_impulse : forall S ws cexps cms ps P Minv Pinv Pcms Pcinv Mpinv zc dev fwd bwd eqC symbols b st d shear bulk limiter post force f,
  cumulant_setup S ws cexps cms ps P Minv Pinv Pcms Pcinv Mpinv zc fwd bwd -> hydro_cumulants 3 eqC -> length symbols = length cexps ->
  add_fourth_order_correction b st ps d shear bulk limiter (fun rates => relaxation_post (map toR ps) eqC (map (rate_value rates) symbols)) = Ok post ->
  rate_of d (expand (ex * ey)%expr) = Ok (RCorr 0) -> shear <> 0 -> 0 < limiter ->
  (exists o, optimal_rates shear bulk = Some o) -> (exists ab, optimal_additional_parameters shear bulk = Some ab) -> accepted_force cms force ->
  length f = sizeQ S -> zc && dev = false -> 0 < pdf_density zc f ->
  exists f', cumulant_collision_with 3 S zc dev true (map Q2R ws) post cexps cms P Pinv Minv fwd bwd force f = Ok f' /\ length f' = sizeQ S /\
    adds_impulse 3 S (force_vector_of force) f f'.
Proof.
  intros S ws cexps cms ps P Minv Pinv Pcms Pcinv Mpinv zc dev fwd bwd eqC symbols b st d shear bulk limiter post force f HU He Ls H Hd Hs Hl [o Ho] [ab Hab] HF Hf Hz Hr.
  eapply collision_with_impulse; eauto. eapply fourth_keeps; eauto. intros rates. apply relax_keeps; auto; [now rewrite map_length|].
  pose proof HU as [_ _ Hne Hnp HP HPi _ _]. now apply (c_ps (map toR ps) cexps P Pinv).
Qed.
Print Assumptions C45_impulse.
(* both corrections together *)
Theorem C45_impulse_with_galilean : forall S ws cexps cms ps P Minv Pinv Pcms Pcinv Mpinv zc dev fwd bwd eqC symbols b st d shear bulk limiter gpost post force f,
  cumulant_setup S ws cexps cms ps P Minv Pinv Pcms Pcinv Mpinv zc fwd bwd -> hydro_cumulants 3 eqC -> length symbols = length cexps ->
  (forall rates, add_galilean_correction rate_symbol_eqb (rate_value rates) b st ps d (relaxation_post (map toR ps) eqC (map (rate_value rates) symbols)) = Ok (gpost rates)) ->
  add_fourth_order_correction b st ps d shear bulk limiter gpost = Ok post ->
  rate_of d (expand (ex * ey)%expr) = Ok (RCorr 0) -> shear <> 0 -> 0 < limiter ->
  (exists o, optimal_rates shear bulk = Some o) -> (exists ab, optimal_additional_parameters shear bulk = Some ab) -> accepted_force cms force ->
  length f = sizeQ S -> zc && dev = false -> 0 < pdf_density zc f ->
  exists f', cumulant_collision_with 3 S zc dev true (map Q2R ws) post cexps cms P Pinv Minv fwd bwd force f = Ok f' /\ length f' = sizeQ S /\
    adds_impulse 3 S (force_vector_of force) f f'.
Proof.
  intros S ws cexps cms ps P Minv Pinv Pcms Pcinv Mpinv zc dev fwd bwd eqC symbols b st d shear bulk limiter gpost post force f HU He Ls HG H Hd Hs Hl [o Ho] [ab Hab] HF Hf Hz Hr.
  eapply collision_with_impulse; eauto. eapply fourth_keeps; eauto. intros rates. eapply galilean_keeps; [apply HG|]. apply relax_keeps; auto; [now rewrite map_length|].
  pose proof HU as [_ _ Hne Hnp HP HPi _ _]. now apply (c_ps (map toR ps) cexps P Pinv).
Qed.
Print Assumptions C45_impulse_with_galilean.

(* the corrected rule: rates replaced by the limited optimal ones, six polynomials corrected, all others only relaxed *)
Theorem C45_effect : forall b st ps d shear bulk limiter post0 post o a bb rho u c C C0,
  add_fourth_order_correction b st ps d shear bulk limiter post0 = Ok post -> rate_of d (expand (ex * ey)%expr) = Ok (RCorr 0) ->
  shear <> 0 -> 0 < limiter -> 0 < rho -> optimal_rates shear bulk = Some o -> optimal_additional_parameters shear bulk = Some (a, bb) -> length C = length ps ->
  (forall rates, fourth_order_rates shear bulk limiter rho c = Some rates -> post0 rates rho u c C = Ok C0) -> length C0 = length ps ->
  exists rates D E t C' s2 s6 s7 s8, post rho u c C = Ok C' /\ length C' = length ps /\ fourth_rates rate_symbol_eqb d = Ok (RCorr 0, s2, s6, s7, s8) /\
    fourth_order_rates shear bulk limiter rho c = Some rates /\
    velocity_gradients shear (rate_value rates s2) rho c = Some D /\ mixed_gradients shear rho c = Some E /\
    fourth_order_terms shear (rate_value rates s6) (rate_value rates s7) (rate_value rates s8) rho a bb D E = Some t /\
    (forall j, (j < 6)%nat -> let i := poly_index (fou j) ps in nth i C' 0 = nth i C0 0 + nth j t 0) /\
    (forall i, (i < length ps)%nat -> (forall p, In p fourth_polys -> qpoly_eqb p (nth i ps []) = false) -> nth i C' 0 = nth i C0 0).
Proof.
  intros b st ps d shear bulk limiter post0 post o a bb rho u c C C0 H Hd Hsh Hl Hr Ho Hab LC HC0 LC0. destruct (fourth_form _ _ _ _ _ _ _ _ _ H) as (_ & _ & Hs & s1 & s2 & s6 & s7 & s8 & HR & E). apply strict_subset_in in Hs.
  assert (s1 = RCorr 0) as -> by (apply rates_fourth in HR; congruence).
  destruct (fourth_values shear bulk limiter rho c o (a, bb) (RCorr 0) s2 s6 s7 s8 Hsh Hl Hr Ho Hab eq_refl) as (rates & D & F & t & E1 & E2 & E3 & Lt & N0 & N1 & E4).
  rewrite E, E1. cbn [obind]. cbv zeta. rewrite Hab. cbn [obind]. rewrite E2. cbn [obind]. rewrite E3. cbn [obind]. rewrite E4. cbn [obind undefined_if_none rbind fst snd].
  rewrite (HC0 rates E1). cbn [rbind]. destruct (corrections_effect ps fourth_polys t C0 Hs eq_refl Lt LC0) as (A1 & A2 & A3).
  assert (V0 : rate_value rates (RCorr 0) = shear) by exact N0. rewrite V0 in E2, E3, E4.
  exists rates, D, F, t, (add_corrections ps fourth_polys t C0), s2, s6, s7, s8. repeat split; auto.
Qed.
Print Assumptions C45_effect.

Theorem C45_vanishes : forall o1 o2 o6 o7 o8 rho a b c, 0 < rho -> o1 <> 0 -> c e_xx = rho / 3 -> c e_yy = rho / 3 -> c e_zz = rho / 3 -> c e_xy = 0 -> c e_xz = 0 -> c e_yz = 0 ->
  exists D E, velocity_gradients o1 o2 rho c = Some D /\ mixed_gradients o1 rho c = Some E /\ fourth_order_terms o1 o6 o7 o8 rho a b D E = Some (repeat 0 6).
Proof. intros. exists (0, 0, 0), (0, 0, 0). split; [now apply gradients_equilibrium|]. split; [now apply mixed_equilibrium|now apply fourth_zero]. Qed.
Print Assumptions C45_vanishes.

(* exchanging axes: holds for the trace and for the mixed cumulants (xxyz, xyyz, xyzz), and for the exchange of x and z;
   missing: the changes of yyzz, xxzz, xxyy under the other exchanges, which is false (C45_axes_refuted) *)
Theorem C45_axes_partial : forall o1 o2 o6 o7 o8 rho a b c i j D D' E E' t t' delta delta', 0 < rho -> (i < 3)%nat -> (j < 3)%nat ->
  velocity_gradients o1 o2 rho c = Some D -> velocity_gradients o1 o2 rho (swap_cumulants i j c) = Some D' ->
  mixed_gradients o1 rho c = Some E -> mixed_gradients o1 rho (swap_cumulants i j c) = Some E' ->
  fourth_order_terms o1 o6 o7 o8 rho a b D E = Some t -> fourth_order_terms o1 o6 o7 o8 rho a b D' E' = Some t' ->
  fourth_order_changes t delta -> fourth_order_changes t' delta' ->
  nth 2 t' 0 = nth 2 t 0 /\ skipn 3 t' = swap_triple 0 i j (skipn 3 t) /\ (i = 0%nat -> j = 2%nat -> delta' = swap_triple 0 i j delta).
Proof.
  intros o1 o2 o6 o7 o8 rho a b c i j D D' E E' t t' delta delta' Hr Hi Hj HD HD' HE HE' Ht Ht' Hd Hd'.
  pose proof (gradients_swap _ _ _ _ _ _ _ _ Hr Hi Hj HD HD') as S1. pose proof (mixed_swap _ _ _ _ _ _ _ Hi Hj HE HE') as S2.
  destruct (fourth_trace_mixed_swap _ _ _ _ _ _ _ _ _ _ _ _ _ _ _ Hi Hj S1 S2 Ht Ht') as [A1 A2]. split; [auto|]. split; [auto|]. intros -> ->. eapply fourth_swap_xz; eauto.
Qed.
Print Assumptions C45_axes_partial.
(* what the correction does to yyzz, xxzz, xxyy (listed in this order): only xxzz is changed by the gradients of its own axes *)
Theorem C45_changes : forall o1 o o8 rho a b dx dy dz E t delta, fourth_order_terms o1 o o o8 rho a b (dx, dy, dz) E = Some t -> fourth_order_changes t delta ->
  let k := 2 / 3 * (/ o1 - 1 / 2) * o * a * rho in delta = [- k * (dx + dy); - k * (dx + dz); - k * (dy + dz)].
Proof. exact fourth_delta. Qed.
Print Assumptions C45_changes.
Theorem C45_axes_refuted : ~ (forall o1 o6 o7 o8 rho a b D D' E E' t t' delta delta' i j, (i < 3)%nat -> (j < 3)%nat -> 0 < rho ->
  (let '(dx, dy, dz) := D' in [dx; dy; dz]) = swap_triple 0 i j (let '(dx, dy, dz) := D in [dx; dy; dz]) ->
  fourth_order_terms o1 o6 o7 o8 rho a b D E = Some t -> fourth_order_terms o1 o6 o7 o8 rho a b D' E' = Some t' ->
  fourth_order_changes t delta -> fourth_order_changes t' delta' -> delta' = swap_triple 0 i j delta).
Proof.
  intros H.
  destruct (terms_defined 1 1 1 1 1 1 1 (1, 0, 0) (0, 0, 0)) as (t & Ht & _); [lra|]. destruct (terms_defined 1 1 1 1 1 1 1 (0, 1, 0) (0, 0, 0)) as (t' & Ht' & _); [lra|].
  pose proof (fourth_terms_eq _ _ _ _ _ _ _ _ _ _ Ht) as (s & Es & _ & Et). pose proof (fourth_terms_eq _ _ _ _ _ _ _ _ _ _ Ht') as (s' & Es' & _ & Et'). rewrite Rinv_1 in *. subst s s'.
  assert (X : [- (1 / 3); 0; - (1 / 3)] = swap_triple 0 0 1 [- (1 / 3); - (1 / 3); 0]).
  { apply (H 1 1 1 1 1 1 1 (1, 0, 0) (0, 1, 0) (0, 0, 0) (0, 0, 0) t t'); auto; try lra; subst t t'; repeat split; cbn [nth length]; lra. }
  cbn in X. injection X. intros. lra.
Qed.
Print Assumptions C45_axes_refuted.

(* the limited rate lies between the unlimited one and 1 and is the unlimited one for vanishing third-order cumulants *)
Theorem C45_limiter : forall limiter rho omega x, 0 < limiter -> 0 < rho ->
  exists y, limited_rate limiter rho omega x = Some y /\ Rmin omega 1 <= y <= Rmax omega 1 /\ (x = 0 -> y = omega) /\ (admissible omega -> admissible y).
Proof. intros limiter rho omega x Hl Hr. destruct (limited_defined limiter rho omega x Hl Hr) as [y E]. exists y. split; [auto|]. now apply limited_between in E. Qed.
Print Assumptions C45_limiter.
(* shear rates for which the optimal rates are admissible, with bulk rate 1: small viscosities *)
Theorem C45_rates_partial : forall shear limiter rho c, 7 / 4 < shear < 2 -> 0 < limiter -> 0 < rho ->
  exists bulk, fourth_order_bulk_rate [shear] = Some bulk /\ (exists ab, optimal_additional_parameters shear bulk = Some ab) /\
  exists rates, fourth_order_rates shear bulk limiter rho c = Some rates /\ length rates = 10%nat /\ nth 0 rates 0 = shear /\ nth 1 rates 0 = 1 /\ Forall admissible rates.
Proof.
  intros shear limiter rho c Hs Hl Hr. exists 1. split; [reflexivity|]. split; [now apply parameters_defined|]. destruct (rates_admissible shear Hs) as (o3 & o4 & o5 & E & A3 & A4 & A5). unfold fourth_order_rates. rewrite E. cbn [obind].
  destruct (C45_limiter limiter rho o3 (c e_xyy + c e_xzz) Hl Hr) as (l3 & -> & _ & _ & B3). destruct (C45_limiter limiter rho o4 (c e_xyy - c e_xzz) Hl Hr) as (l4 & -> & _ & _ & B4).
  destruct (C45_limiter limiter rho o5 (c e_xyz) Hl Hr) as (l5 & -> & _ & _ & B5). cbn [obind]. eexists. split; [reflexivity|]. cbn [length nth]. repeat split; auto.
  unfold admissible in *. repeat constructor; auto; lra.
Qed.
Print Assumptions C45_rates_partial.
(* not for every shear rate between 0 and 2: undefined or negative rates *)
Theorem C45_rates_refuted :
  ~ (forall shear, 0 < shear < 2 -> exists o3 o4 o5, optimal_rates shear 1 = Some (o3, o4, o5) /\ admissible o3 /\ admissible o4 /\ admissible o5) /\
  optimal_rates (14 / 9) 1 = None /\ (exists o3 o5, optimal_rates (8 / 5) 1 = Some (o3, -2, o5)) /\ (forall omega, optimal_additional_parameters omega omega = None).
Proof.
  split; [|split; [exact rates_undefined|split; [exact rates_negative|exact parameters_undefined]]].
  intros H. destruct (H (14 / 9)) as (a & b & c & E & _); [lra|]. rewrite rates_undefined in E. discriminate.
Qed.
Print Assumptions C45_rates_refuted.
(* the limiter looks at the x axis only: exchanging x and y changes the limited rate *)
Theorem C45_limiter_axes_refuted :
  ~ (forall shear limiter rho c i j, 7 / 4 < shear < 2 -> 0 < limiter -> 0 < rho -> (i < 3)%nat -> (j < 3)%nat ->
       fourth_order_rates shear 1 limiter rho (swap_cumulants i j c) = fourth_order_rates shear 1 limiter rho c).
Proof.
  intros H. set (c := fun e : list nat => if list_eq_dec Nat.eq_dec e [2; 1; 0]%nat then 1 else 0).
  specialize (H (19 / 10) 1 1 c 0%nat 1%nat ltac:(lra) ltac:(lra) ltac:(lra) ltac:(lia) ltac:(lia)). unfold fourth_order_rates in H.
  assert (E : exists o4 o5, optimal_rates (19 / 10) 1 = Some (8 * (19 / 10 - 2) * (1 * (3 * (19 / 10) - 1) - 5 * (19 / 10)) / (8 * (5 - 2 * (19 / 10)) * (19 / 10) + 1 * (8 + 19 / 10 * (9 * (19 / 10) - 26))), o4, o5)).
  { unfold optimal_rates. cbv zeta. rewrite !rdiv_ok by lra. cbn [obind]. eauto. }
  destruct E as (o4 & o5 & E). rewrite E in H. cbn [obind] in H.
  change (swap_cumulants 0 1 c e_xyy) with 1 in H. change (swap_cumulants 0 1 c e_xzz) with 0 in H. change (swap_cumulants 0 1 c e_xyz) with 0 in H.
  change (c e_xyy) with 0 in H. change (c e_xzz) with 0 in H. change (c e_xyz) with 0 in H. unfold limited_rate in H.
  replace (1 + 0) with 1 in H by lra. replace (1 - 0) with 1 in H by lra. replace (0 + 0) with 0 in H by lra. replace (0 - 0) with 0 in H by lra. rewrite Rabs_R0, Rabs_R1 in H.
  rewrite !rdiv_ok in H by lra. cbn [obind] in H. injection H. intros. lra.
Qed.
Print Assumptions C45_limiter_axes_refuted.

(* the default method: which symbols the corrections find, and that both corrections use the same gradients *)
Example C45_default : exists S st ps d, lbstencil_of_name "D3Q27" "walberla" = Ok st /\ entries st = S /\ fourth_order_method S 1 = Ok (ps, d) /\
  fourth_rates rate_symbol_eqb d = Ok (RCorr 0, RCorr 1, RCorr 5, RCorr 6, RCorr 7) /\ galilean_rates rate_symbol_eqb d = Ok (RCorr 0, RCorr 1) /\
  rate_of d (expand (ex * ey)%expr) = Ok (RCorr 0) /\ strict_subset fourth_polys ps = true /\ is_D3Q27 st = true.
Proof. do 4 eexists. split; [vm_compute; reflexivity|]. split; [reflexivity|]. split; [vm_compute; reflexivity|]. repeat split; vm_compute; reflexivity. Qed.
Example C45_rate_example : 7 / 4 < 19 / 10 < 2. Proof. lra. Qed.
Theorem C45_rejected : forall b st ps d shear bulk limiter post,
  (b = false \/ is_D3Q27 st = false -> add_fourth_order_correction b st ps d shear bulk limiter post = Err ValueError) /\
  (b = true -> is_D3Q27 st = true -> existsb (fun p => negb (poly_in p ps)) fourth_polys = true -> add_fourth_order_correction b st ps d shear bulk limiter post = Err TypeError).
Proof.
  intros. unfold add_fourth_order_correction. split.
  - intros [-> | ->]; [reflexivity|]. now rewrite orb_true_r.
  - intros -> -> H. cbn [negb orb]. replace (strict_subset fourth_polys ps) with false; [reflexivity|]. symmetry. unfold strict_subset. apply andb_false_intro1.
    apply existsb_exists in H as (p & Hp & Hn). destruct (forallb _ _) eqn:E; [|reflexivity]. rewrite forallb_forall in E. rewrite (E p Hp) in Hn. discriminate.
Qed.
Print Assumptions C45_rejected.
(* create_lb_method accepts the option for D3Q19 too (the check uses "and") and returns a method with unbound rates *)
Theorem C45_stencil_check_refuted : ~ (forall name ord S n, predefined_stencils name ord = Ok S -> sizeQ S <> 27%nat -> fourth_order_method S n = Err ValueError).
Proof.
  intros H. destruct (predefined_stencils "D3Q19" "walberla") as [T|] eqn:E; [|vm_compute in E; discriminate]. specialize (H _ _ _ 1%nat E).
  vm_compute in E. injection E as <-. specialize (H ltac:(discriminate)). vm_compute in H. discriminate.
Qed.
Print Assumptions C45_stencil_check_refuted.
(* a D3Q27 stencil with another ordering of its directions is rejected by both corrections *)
Theorem C44_orderings_refuted : ~ (forall ord st, lbstencil_of_name "D3Q27" ord = Ok st -> is_D3Q27 st = true).
Proof.
  intros H. destruct (lbstencil_of_name "D3Q27" "braunschweig") as [st|] eqn:E; [|vm_compute in E; discriminate]. specialize (H _ _ E).
  vm_compute in E. injection E as <-. vm_compute in H. discriminate.
Qed.
Print Assumptions C44_orderings_refuted.
