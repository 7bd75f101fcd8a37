(* Conservation, symmetry and stability of the corrections. *)
From Coq Require Import String List ZArith QArith Qreals Bool Arith Reals Lra Lia Psatz.
From Verif Require Import StencilModel RealLib LinLib LinQ TransSpec MomModel EqModel CumModel CollModel CollSpec CollProofs6 CollProofs7 ModeModel ModeSpec CorrModel CorrSpec CorrProofs.
Import ListNotations.
Local Open Scope R_scope.

(* ---- the conserved cumulants ---- *)
Lemma nth_add_corrections_skip ps targets corr C i e : forallb (fun p => poly_in p ps) targets = true ->
  (forall t, In t targets -> map snd t <> [e]) -> nth_error (map toR ps) i = Some [(1, e)] -> nth i (add_corrections ps targets corr C) 0 = nth i C 0.
Proof.
  intros Hin He Hi. destruct (Nat.lt_ge_cases i (length C)) as [Hlt|Hge].
  - rewrite nth_add_corrections by auto. rewrite sum_other; [lra|]. intros t Ht E. rewrite forallb_forall in Hin.
    destruct (poly_index_spec t ps (Hin t Ht)) as [_ H2]. rewrite E in H2. apply (He t Ht). rewrite (qpoly_eqb_snd _ _ H2).
    rewrite nth_error_map in Hi. destruct (nth_error ps i) as [q|] eqn:Eq; [|discriminate]. cbn in Hi. injection Hi as Hi. rewrite (nth_error_nth _ _ _ Eq).
    unfold toR in Hi. destruct q as [|[a b] [|? ?]]; try discriminate. cbn in Hi. injection Hi as _ ->. reflexivity.
  - rewrite !nth_overflow; auto. rewrite add_corrections_length. auto.
Qed.
Lemma gal_not_conserved t : In t galilean_polys -> (map snd t <> [zero_exponents 3]) /\ forall a, (a < 3)%nat -> map snd t <> [unit_exponents 3 a].
Proof.
  intros Ht. cbn in Ht. decompose [or] Ht; subst; try contradiction; (split; [discriminate|]; intros a Ha; destruct a as [|[|[|a]]]; try lia; discriminate).
Qed.
Lemma fou_not_conserved t : In t fourth_polys -> (map snd t <> [zero_exponents 3]) /\ forall a, (a < 3)%nat -> map snd t <> [unit_exponents 3 a].
Proof.
  intros Ht. cbn in Ht. decompose [or] Ht; subst; try contradiction; (split; [discriminate|]; intros a Ha; destruct a as [|[|[|a]]]; try lia; discriminate).
Qed.
Lemma strict_subset_in a b : strict_subset a b = true -> forallb (fun p => poly_in p b) a = true.
Proof. unfold strict_subset. intros H. now apply andb_prop in H. Qed.
Lemma rates_galilean {V} (eqb : V -> V -> bool) d o : galilean_rates eqb d = Ok o ->
  rate_of d (gal 0) = Ok (fst o) /\ (exists o1', rate_of d (gal 1) = Ok o1' /\ eqb (fst o) o1' = true) /\ rate_of d (gal 2) = Ok (snd o).
Proof.
  unfold galilean_rates. destruct (rate_of d (gal 0)) as [o1|] eqn:E1; [|discriminate]. destruct (rate_of d (gal 1)) as [o1'|] eqn:E2; [|discriminate]. cbn [rbind].
  destruct (eqb o1 o1') eqn:E; [|discriminate]. cbn [negb]. destruct (rate_of d (gal 2)) as [o2|]; [|discriminate]. cbn [rbind]. intros [= <-]. cbn. eauto.
Qed.
Lemma galilean_form {V} eqb (val : V -> R) b st ps d post post' : add_galilean_correction eqb val b st ps d post = Ok post' ->
  b = true /\ is_D3Q27 st = true /\ strict_subset galilean_polys ps = true /\ exists o, galilean_rates eqb d = Ok o /\
  forall rho u c C, post' rho u c C = rbind (undefined_if_none (velocity_gradients (val (fst o)) (val (snd o)) rho c)) (fun D =>
      rbind (post rho u c C) (fun C' => Ok (add_corrections ps galilean_polys (galilean_terms (val (fst o)) (val (snd o)) rho u D) C'))).
Proof.
  unfold add_galilean_correction. destruct b; [|discriminate]. destruct (is_D3Q27 st); [|discriminate]. cbn [negb orb]. destruct (strict_subset galilean_polys ps); [|discriminate]. cbn [negb].
  destruct (galilean_rates eqb d) as [o|] eqn:E; [|discriminate]. cbn [rbind]. intros [= <-]. repeat split; auto. exists o. auto.
Qed.
Lemma galilean_keeps {V} eqb (val : V -> R) b st ps d post post' m : add_galilean_correction eqb val b st ps d post = Ok post' ->
  keeps_conserved 3 (map toR ps) m post -> keeps_conserved 3 (map toR ps) m post'.
Proof.
  intros H K. destruct (galilean_form _ _ _ _ _ _ _ _ H) as (_ & _ & Hs & o & _ & E). apply strict_subset_in in Hs.
  intros rho u c C Hu Hr HC. rewrite E. destruct (gradients_defined (val (fst o)) (val (snd o)) rho c Hr) as [D ->]. cbn [undefined_if_none rbind].
  destruct (K rho u c C Hu Hr HC) as (C' & -> & L & K0 & K1). cbn [rbind]. eexists. split; [reflexivity|]. split; [now rewrite add_corrections_length|]. split.
  - intros i Hi Hc. erewrite nth_add_corrections_skip; eauto. intros t Ht. now apply gal_not_conserved.
  - intros i a Ha Hi Hc. erewrite nth_add_corrections_skip; eauto. intros t Ht. now apply gal_not_conserved.
Qed.

(* ---- fourth order ---- *)
Lemma limited_defined limiter rho omega x : 0 < limiter -> 0 < rho -> exists y, limited_rate limiter rho omega x = Some y.
Proof.
  intros Hl Hr. unfold limited_rate. pose proof (Rabs_pos x). assert (0 < rho * limiter) by (apply Rmult_lt_0_compat; auto). rewrite rdiv_ok by lra. cbn. eauto.
Qed.
Lemma fourth_form b st ps d shear bulk limiter post post' : add_fourth_order_correction b st ps d shear bulk limiter post = Ok post' ->
  b = true /\ is_D3Q27 st = true /\ strict_subset fourth_polys ps = true /\ exists s1 s2 s6 s7 s8, fourth_rates rate_symbol_eqb d = Ok (s1, s2, s6, s7, s8) /\
  forall rho u c C, post' rho u c C =
      rbind (undefined_if_none
        (obind (fourth_order_rates shear bulk limiter rho c) (fun rates =>
         let val := rate_value rates in
         obind (optimal_additional_parameters shear bulk) (fun ab =>
         obind (velocity_gradients (val s1) (val s2) rho c) (fun D =>
         obind (mixed_gradients (val s1) rho c) (fun E =>
         obind (fourth_order_terms (val s1) (val s6) (val s7) (val s8) rho (fst ab) (snd ab) D E) (fun t =>
         Some (rates, t)))))))) (fun rt =>
      rbind (post (fst rt) rho u c C) (fun C' => Ok (add_corrections ps fourth_polys (snd rt) C'))).
Proof.
  unfold add_fourth_order_correction. destruct b; [|discriminate]. destruct (is_D3Q27 st); [|discriminate]. cbn [negb orb]. destruct (strict_subset fourth_polys ps); [|discriminate]. cbn [negb].
  destruct (fourth_rates rate_symbol_eqb d) as [[[[[s1 s2] s6] s7] s8]|] eqn:E; [|discriminate]. cbn [rbind]. intros [= <-]. repeat split; auto. exists s1, s2, s6, s7, s8. split; [auto|]. reflexivity.
Qed.
Lemma rates_fourth {V} (eqb : V -> V -> bool) d s1 s2 s6 s7 s8 : fourth_rates eqb d = Ok (s1, s2, s6, s7, s8) -> rate_of d (expand (ex * ey)%expr) = Ok s1.
Proof.
  unfold fourth_rates. destruct (rate_of d (expand (ex * ey)%expr)) as [o1|] eqn:E1; [|discriminate]. cbn [rbind].
  repeat match goal with |- rbind ?r _ = _ -> _ => destruct r; cbn [rbind]; [|discriminate] | |- (if ?b then _ else _) = _ -> _ => destruct b; cbn [rbind]; [discriminate|] end.
  intros H. congruence.
Qed.
Lemma mixed_defined o rho c : 0 < rho -> exists E, mixed_gradients o rho c = Some E.
Proof. intros H. unfold mixed_gradients. rewrite rdiv_ok by lra. cbn. eauto. Qed.
Lemma terms_defined o1 o6 o7 o8 rho a b D E : o1 <> 0 -> exists t, fourth_order_terms o1 o6 o7 o8 rho a b D E = Some t /\ length t = 6%nat.
Proof. intros H. unfold fourth_order_terms. destruct D as [[? ?] ?], E as [[? ?] ?]. rewrite rdiv_ok by auto. cbn [obind]. eexists. split; reflexivity. Qed.
Lemma fourth_values shear bulk limiter rho c o ab s1 s2 s6 s7 s8 : shear <> 0 -> 0 < limiter -> 0 < rho -> optimal_rates shear bulk = Some o ->
  optimal_additional_parameters shear bulk = Some ab -> s1 = RCorr 0 ->
  exists rates D E t, fourth_order_rates shear bulk limiter rho c = Some rates /\ velocity_gradients (rate_value rates s1) (rate_value rates s2) rho c = Some D /\
  mixed_gradients (rate_value rates s1) rho c = Some E /\ length t = 6%nat /\ nth 0 rates 0 = shear /\ nth 1 rates 0 = bulk /\
  fourth_order_terms (rate_value rates s1) (rate_value rates s6) (rate_value rates s7) (rate_value rates s8) rho (fst ab) (snd ab) D E = Some t.
Proof.
  intros Hs Hl Hr Ho Hab ->. unfold fourth_order_rates. rewrite Ho. cbn [obind]. destruct o as [[o3 o4] o5].
  destruct (limited_defined limiter rho o3 (c e_xyy + c e_xzz) Hl Hr) as [l3 ->]. cbn [obind]. destruct (limited_defined limiter rho o4 (c e_xyy - c e_xzz) Hl Hr) as [l4 ->]. cbn [obind].
  destruct (limited_defined limiter rho o5 (c e_xyz) Hl Hr) as [l5 ->]. cbn [obind]. set (rates := [shear; bulk; l3; l4; l5; 1; 1; 1; 1; 1]).
  destruct (gradients_defined (rate_value rates (RCorr 0)) (rate_value rates s2) rho c Hr) as [[[dx dy] dz] HD].
  destruct (mixed_defined (rate_value rates (RCorr 0)) rho c Hr) as [[[a1 a2] a3] HE]. change (rate_value rates (RCorr 0)) with shear in *.
  destruct (terms_defined shear (rate_value rates s6) (rate_value rates s7) (rate_value rates s8) rho (fst ab) (snd ab) (dx, dy, dz) (a1, a2, a3) Hs) as (t & Ht & Lt).
  exists rates, (dx, dy, dz), (a1, a2, a3), t. repeat split; auto.
Qed.
Lemma fourth_keeps b st ps d shear bulk limiter post post' m o ab : add_fourth_order_correction b st ps d shear bulk limiter post = Ok post' ->
  rate_of d (expand (ex * ey)%expr) = Ok (RCorr 0) -> shear <> 0 -> 0 < limiter -> optimal_rates shear bulk = Some o -> optimal_additional_parameters shear bulk = Some ab ->
  (forall rates, keeps_conserved 3 (map toR ps) m (post rates)) -> keeps_conserved 3 (map toR ps) m post'.
Proof.
  intros H Hd Hsh Hl Ho Hab K. destruct (fourth_form _ _ _ _ _ _ _ _ _ H) as (_ & _ & Hs & s1 & s2 & s6 & s7 & s8 & HR & E). apply strict_subset_in in Hs.
  assert (s1 = RCorr 0) as -> by (apply rates_fourth in HR; congruence).
  intros rho u c C Hu Hr HC. rewrite E. destruct (fourth_values shear bulk limiter rho c o ab (RCorr 0) s2 s6 s7 s8 Hsh Hl Hr Ho Hab eq_refl) as (rates & D & F & t & E1 & E2 & E3 & Lt & _ & _ & E4).
  rewrite E1. cbn [obind]. cbv zeta. rewrite Hab. cbn [obind]. rewrite E2. cbn [obind]. rewrite E3. cbn [obind]. rewrite E4. cbn [obind undefined_if_none rbind fst snd].
  destruct (K rates rho u c C Hu Hr HC) as (C' & -> & L & K0 & K1). cbn [rbind]. eexists. split; [reflexivity|]. split; [now rewrite add_corrections_length|]. split.
  - intros i Hi Hc. erewrite nth_add_corrections_skip; eauto. intros t' Ht. now apply fou_not_conserved.
  - intros i a Ha Hi Hc. erewrite nth_add_corrections_skip; eauto. intros t' Ht. now apply fou_not_conserved.
Qed.

(* ---- vanishing and symmetry ---- *)
Lemma gradients_equilibrium o1 o2 rho c : 0 < rho -> c e_xx = rho / 3 -> c e_yy = rho / 3 -> c e_zz = rho / 3 -> velocity_gradients o1 o2 rho c = Some (0, 0, 0).
Proof. intros H E1 E2 E3. apply gradients_spec; auto. unfold diagonal_gradients. rewrite E1, E2, E3. repeat split; field; lra. Qed.
Lemma galilean_zero o1 o2 rho u : galilean_terms o1 o2 rho u (0, 0, 0) = [0; 0; 0].
Proof. unfold galilean_terms. apply f_equal2; [|apply f_equal2; [|apply f_equal2; [|reflexivity]]]; ring. Qed.
Lemma galilean_rest o1 o2 rho D : galilean_terms o1 o2 rho (rzero 3) D = [0; 0; 0].
Proof. destruct D as [[dx dy] dz]. unfold galilean_terms. cbn [rzero repeat nth]. apply f_equal2; [|apply f_equal2; [|apply f_equal2; [|reflexivity]]]; cbn; ring. Qed.
Lemma three (l : list R) : length l = 3%nat -> exists a b c, l = [a; b; c].
Proof. destruct l as [|a [|b [|c [|]]]]; try discriminate. eauto. Qed.
Lemma galilean_delta o rho u dx dy dz delta : second_order_changes (galilean_terms o o rho u (dx, dy, dz)) delta ->
  delta = map (fun ud => - 3 * rho * (1 - o / 2) * fst ud ^ 2 * snd ud) [(nth 0 u 0, dx); (nth 1 u 0, dy); (nth 2 u 0, dz)].
Proof.
  intros (L & H1 & H2 & H3). destruct (three _ L) as (a & b & c & ->). unfold galilean_terms in *. cbn [nth map fst snd] in *.
  apply f_equal2; [|apply f_equal2; [|apply f_equal2; [|reflexivity]]]; lra.
Qed.
Lemma galilean_swap o1 o2 rho u D D' i j delta delta' : (i < 3)%nat -> (j < 3)%nat -> triple D' = swap_triple 0 i j (triple D) ->
  second_order_changes (galilean_terms o1 o2 rho u D) delta -> second_order_changes (galilean_terms o1 o2 rho (swap_triple 0 i j u) D') delta' ->
  delta' = swap_triple 0 i j delta.
Proof.
  intros Hi Hj HD (L & H1 & H2 & H3) (L' & H1' & H2' & H3'). destruct (three _ L) as (a & b & c & ->). destruct (three _ L') as (a' & b' & c' & ->).
  destruct D as [[dx dy] dz], D' as [[dx' dy'] dz']. unfold galilean_terms in *. cbn [triple] in HD.
  axes i j; cbn [swap_triple swap_axis Nat.eqb seq map nth] in *; injection HD as -> -> ->; (apply f_equal2; [|apply f_equal2; [|apply f_equal2; [|reflexivity]]]); lra.
Qed.

Lemma fourth_zero o1 o6 o7 o8 rho a b : o1 <> 0 -> fourth_order_terms o1 o6 o7 o8 rho a b (0, 0, 0) (0, 0, 0) = Some (repeat 0 6).
Proof.
  intros H. unfold fourth_order_terms. rewrite rdiv_ok by auto. cbn [obind repeat]. f_equal. repeat (apply f_equal2; [ring|]). reflexivity.
Qed.
Lemma mixed_equilibrium o rho c : 0 < rho -> c e_xy = 0 -> c e_xz = 0 -> c e_yz = 0 -> mixed_gradients o rho c = Some (0, 0, 0).
Proof. intros H E1 E2 E3. unfold mixed_gradients. rewrite rdiv_ok by lra. cbn [obind]. rewrite E1, E2, E3, Rmult_0_r. reflexivity. Qed.
Lemma fourth_terms_eq o1 o6 o7 o8 rho a b D E t : fourth_order_terms o1 o6 o7 o8 rho a b D E = Some t -> exists s, s = / o1 /\ o1 <> 0 /\
  let '(dx, dy, dz) := D in let '(exy, exz, eyz) := E in
  t = [ 2 / 3 * (s - 1 / 2) * o6 * a * rho * (dx - 2 * dy + dz); 2 / 3 * (s - 1 / 2) * o6 * a * rho * (dx + dy - 2 * dz);
         - (4 / 3) * (s - 1 / 2) * o7 * a * rho * (dx + dy + dz); - (1 / 3) * (s - 1 / 2) * o8 * b * rho * eyz; - (1 / 3) * (s - 1 / 2) * o8 * b * rho * exz; - (1 / 3) * (s - 1 / 2) * o8 * b * rho * exy ].
Proof.
  unfold fourth_order_terms. destruct D as [[dx dy] dz], E as [[exy exz] eyz]. destruct (Req_dec o1 0) as [->|H]; [rewrite rdiv_zero; discriminate|].
  rewrite rdiv_ok by auto. cbn [obind]. intros [= <-]. exists (/ o1). split; [reflexivity|]. split; [auto|]. replace (1 / o1) with (/ o1) by (field; auto). reflexivity.
Qed.
(* the changes of yyzz, xxzz, xxyy *)
Lemma fourth_delta o1 o o8 rho a b dx dy dz E t delta : fourth_order_terms o1 o o o8 rho a b (dx, dy, dz) E = Some t -> fourth_order_changes t delta ->
  let k := 2 / 3 * (/ o1 - 1 / 2) * o * a * rho in delta = [- k * (dx + dy); - k * (dx + dz); - k * (dy + dz)].
Proof.
  intros H (L & H1 & H2 & H3) k. destruct (fourth_terms_eq _ _ _ _ _ _ _ _ _ _ H) as (s & Es & _ & Et). destruct E as [[exy exz] eyz]. destruct (three _ L) as (d0 & d1 & d2 & ->). subst t. cbn [nth] in *.
  unfold k. rewrite <- Es. apply f_equal2; [|apply f_equal2; [|apply f_equal2; [|reflexivity]]]; lra.
Qed.
Lemma fourth_swap_xz o1 o6 o7 o8 rho a b D D' E E' t t' delta delta' : triple D' = swap_triple 0 0 2 (triple D) ->
  fourth_order_terms o1 o6 o7 o8 rho a b D E = Some t -> fourth_order_terms o1 o6 o7 o8 rho a b D' E' = Some t' ->
  fourth_order_changes t delta -> fourth_order_changes t' delta' -> delta' = swap_triple 0 0 2 delta.
Proof.
  intros HD H H' (L & H1 & H2 & H3) (L' & H1' & H2' & H3'). destruct (fourth_terms_eq _ _ _ _ _ _ _ _ _ _ H) as (s & Es & _ & Et). destruct (fourth_terms_eq _ _ _ _ _ _ _ _ _ _ H') as (s' & Es' & _ & Et').
  assert (s' = s) as -> by congruence. destruct D as [[dx dy] dz], D' as [[dx' dy'] dz'], E as [[exy exz] eyz], E' as [[exy' exz'] eyz'].
  destruct (three _ L) as (d0 & d1 & d2 & ->). destruct (three _ L') as (d0' & d1' & d2' & ->). subst t t'. cbn in HD. injection HD as -> -> ->. cbn [nth] in *.
  cbn [swap_triple swap_axis Nat.eqb seq map nth] in *. apply f_equal2; [|apply f_equal2; [|apply f_equal2; [|reflexivity]]]; lra.
Qed.
Lemma mixed_swap o rho c i j E E' : (i < 3)%nat -> (j < 3)%nat -> mixed_gradients o rho c = Some E -> mixed_gradients o rho (swap_cumulants i j c) = Some E' ->
  rev (triple E') = swap_triple 0 i j (rev (triple E)).
Proof.
  intros Hi Hj. unfold mixed_gradients. destruct (Req_dec rho 0) as [->|Hr]; [rewrite rdiv_zero; discriminate|]. rewrite rdiv_ok by auto. cbn [obind]. intros [= <-] [= <-].
  axes i j; reflexivity.
Qed.
Lemma fourth_trace_mixed_swap o1 o6 o7 o8 rho a b D D' E E' t t' i j : (i < 3)%nat -> (j < 3)%nat -> triple D' = swap_triple 0 i j (triple D) ->
  rev (triple E') = swap_triple 0 i j (rev (triple E)) -> fourth_order_terms o1 o6 o7 o8 rho a b D E = Some t -> fourth_order_terms o1 o6 o7 o8 rho a b D' E' = Some t' ->
  nth 2 t' 0 = nth 2 t 0 /\ skipn 3 t' = swap_triple 0 i j (skipn 3 t).
Proof.
  intros Hi Hj HD HE H H'. destruct (fourth_terms_eq _ _ _ _ _ _ _ _ _ _ H) as (s & Es & _ & Et). destruct (fourth_terms_eq _ _ _ _ _ _ _ _ _ _ H') as (s' & Es' & _ & Et').
  assert (s' = s) as -> by congruence. destruct D as [[dx dy] dz], D' as [[dx' dy'] dz'], E as [[exy exz] eyz], E' as [[exy' exz'] eyz']. subst t t'. cbn [triple rev app] in HD, HE. cbn [nth skipn].
  axes i j; cbn [swap_triple swap_axis Nat.eqb seq map nth] in *; injection HD as -> -> ->; injection HE as -> -> ->; (split; [lra|reflexivity]).
Qed.

(* ---- rates ---- *)
Lemma limited_between limiter rho omega x y : 0 < limiter -> 0 < rho -> limited_rate limiter rho omega x = Some y ->
  Rmin omega 1 <= y <= Rmax omega 1 /\ (x = 0 -> y = omega) /\ (admissible omega -> admissible y).
Proof.
  intros Hl Hr. unfold limited_rate. pose proof (Rabs_pos x). assert (P : 0 < rho * limiter) by (apply Rmult_lt_0_compat; auto). rewrite rdiv_ok by lra. cbn [obind]. intros [= <-].
  set (q := Rabs x / (rho * limiter + Rabs x)). replace ((1 - omega) * Rabs x / (rho * limiter + Rabs x)) with ((1 - omega) * q) by (unfold q; field; lra).
  assert (Q0 : 0 <= q) by (apply Rmult_le_pos; [auto|left; apply Rinv_0_lt_compat; lra]).
  assert (Q1 : q < 1) by (apply Rmult_lt_reg_r with (rho * limiter + Rabs x); [lra|unfold q; field_simplify; lra]).
  split; [|split].
  - unfold Rmin, Rmax. destruct (Rle_dec omega 1); split; nra.
  - intros ->. unfold q. rewrite Rabs_R0. unfold Rdiv. ring.
  - unfold admissible. intros [A B]. split; nra.
Qed.
Lemma rdiv_between a b : b <> 0 -> (0 < a / b < 2) -> exists y, rdiv a b = Some y /\ 0 < y < 2.
Proof. intros H B. rewrite rdiv_ok by auto. eauto. Qed.
Lemma quot_between a b : 0 < b -> 0 < a < 2 * b -> 0 < a / b < 2.
Proof.
  intros Hb [H1 H2]. split; [apply Rdiv_lt_0_compat; auto|]. apply Rmult_lt_reg_r with b; auto. unfold Rdiv. rewrite Rmult_assoc, Rinv_l by lra. lra.
Qed.
Lemma quot_between_neg a b : b < 0 -> 2 * b < a < 0 -> 0 < a / b < 2.
Proof. intros Hb H. replace (a / b) with (- a / - b) by (field; lra). apply quot_between; lra. Qed.
Lemma rates_admissible o : 7 / 4 < o < 2 -> exists o3 o4 o5, optimal_rates o 1 = Some (o3, o4, o5) /\ admissible o3 /\ admissible o4 /\ admissible o5.
Proof.
  intros [H1 H2]. unfold optimal_rates, admissible. cbv zeta.
  assert (A1 : 0 < (o - 7 / 4) * (2 - o)) by (apply Rmult_lt_0_compat; lra).
  destruct (rdiv_between (8 * (o - 2) * (1 * (3 * o - 1) - 5 * o)) (8 * (5 - 2 * o) * o + 1 * (8 + o * (9 * o - 26)))) as (o3 & -> & B3); [nra|apply quot_between; nra|].
  destruct (rdiv_between (8 * (o - 2) * (o + 1 * (3 * o - 7))) (1 * (56 - 42 * o + 9 * (o * o)) - 8 * o)) as (o4 & -> & B4); [nra|apply quot_between_neg; nra|].
  assert (A2 : 0 < (o - 7 / 4) * (2 - o) * o) by (apply Rmult_lt_0_compat; lra).
  destruct (rdiv_between (24 * (o - 2) * (4 * (o * o) + o * 1 * (18 - 13 * o) + 1 * 1 * (2 + o * (6 * o - 11))))
              (16 * (o * o) * (o - 6) - 2 * (o * 1) * (216 + 5 * o * (9 * o - 46)) + 1 * 1 * (o * (3 * o - 10) * (15 * o - 28) - 48))) as (o5 & -> & B5).
  - nra.
  - apply quot_between_neg; [nra|split; nra].
  - cbn [obind]. exists o3, o4, o5. auto.
Qed.
Lemma parameters_defined o : 7 / 4 < o < 2 -> exists ab, optimal_additional_parameters o 1 = Some ab.
Proof.
  intros [H1 H2]. unfold optimal_additional_parameters. cbv zeta. rewrite !rdiv_ok; [cbn; eauto| |]; intros E.
  - apply Rmult_integral in E as [E|E]; [lra|]. apply Rmult_integral in E as [E|E]; lra.
  - apply Rmult_integral in E as [E|E]; lra.
Qed.
Lemma parameters_undefined o : optimal_additional_parameters o o = None.
Proof. unfold optimal_additional_parameters. cbv zeta. replace (o - o) with 0 by lra. rewrite Rmult_0_l, rdiv_zero. reflexivity. Qed.
Lemma rates_undefined : optimal_rates (14 / 9) 1 = None.
Proof.
  unfold optimal_rates. cbv zeta. rewrite rdiv_ok by lra. cbn [obind]. replace (1 * (56 - 42 * (14 / 9) + 9 * (14 / 9 * (14 / 9))) - 8 * (14 / 9)) with 0 by lra. now rewrite rdiv_zero.
Qed.
Lemma rates_negative : exists o3 o5, optimal_rates (8 / 5) 1 = Some (o3, -2, o5).
Proof.
  unfold optimal_rates. cbv zeta. rewrite !rdiv_ok by lra. cbn [obind]. eexists. eexists. repeat f_equal. lra.
Qed.
