(* Library equilibria are hydrodynamic; the stress of first order populations; orders of the expansion. *)
From Coq Require Import List ZArith Bool Arith QArith Reals Qreals Lra Lia.
From Verif Require Import StencilModel RealLib LinLib EqModel EqSpec EqProofs PropsEq StencilProofs2 StreamSpec TransModel TransSpec TransProofs CeModel CeSpec CeProofs CeProofs2 CeProofs3.
From Verif Require StabProofs2.
Import ListNotations.
Local Open Scope R_scope.

Lemma epoly_scale rho u x p : epoly_value rho u (map (eterm_scale x) p) = x * epoly_value rho u p.
Proof. unfold epoly_value. rewrite map_map, <- rsum_scal. apply rsum_ext. intros [[c k] l] _. cbn. ring. Qed.
Lemma moment_value rho u S eq idx : epoly_value rho u (equilibrium_moment S eq idx) = fsum (map (epoly_value rho u) eq) S (fun c => comp_product c idx).
Proof.
  unfold equilibrium_moment, fsum. rewrite epoly_flat. revert S. induction eq as [|p eq IH]; intros S; [reflexivity|]. destruct S as [|c S]; [reflexivity|].
  cbn [combine map fst snd]. rewrite !rsum_cons, IH, epoly_scale. ring.
Qed.
Lemma diff_scale E x v p : dexp_value E (diff_poly x (map (eterm_scale v) p)) = v * dexp_value E (diff_poly x p).
Proof.
  rewrite !diff_poly_value, map_map, <- rsum_scal. apply rsum_ext. intros [[c k] l] _. cbn [eterm_scale dterm_lim]. destruct k; ring.
Qed.
Lemma diff_app E x p q : dexp_value E (diff_poly x (p ++ q)) = dexp_value E (diff_poly x p) + dexp_value E (diff_poly x q).
Proof. unfold diff_poly. rewrite flat_map_app. apply dexp_app. Qed.
Lemma diff_moment E x S eq idx : dexp_value E (diff_poly x (equilibrium_moment S eq idx)) =
  rsum (map (fun pc => comp_product (snd pc) idx * dexp_value E (diff_poly x (fst pc))) (combine eq S)).
Proof.
  unfold equilibrium_moment. induction (combine eq S) as [|pc l IH]; [reflexivity|]. cbn [flat_map map]. rewrite diff_app, IH, diff_scale. reflexivity.
Qed.

(* ---- the equilibria of the library ---- *)
Lemma quadratic_value D c w cs2 compr rho u : cs2 <> 0 -> length c = D ->
  epoly_value rho u (quadratic_equilibrium D c w cs2 compr) = discrete_equilibrium c (map u (seq 0 D)) rho w 2 cs2 compr.
Proof.
  intros Hc Lc. unfold quadratic_equilibrium. rewrite !epoly_app, epoly_flat.
  assert (L : length (map u (seq 0 D)) = D) by now rewrite map_length, seq_length.
  assert (HN : forall a, (a < D)%nat -> nth a (map u (seq 0 D)) 0 = u a).
  { intros a Ha. rewrite (nth_indep _ 0 (u 0%nat)) by lia. rewrite map_nth, seq_nth by exact Ha. reflexivity. }
  assert (HE : e_times_u c (map u (seq 0 D)) = rsum (map (fun a => comp c a * u a) (seq 0 D))).
  { rewrite (StabProofs2.e_times_u_seq c _ D Lc L). apply rsum_ext. intros a Ha. apply in_seq in Ha. rewrite HN by lia. reflexivity. }
  assert (HU : u_times_u (map u (seq 0 D)) = rsum (map (fun a => u a * u a) (seq 0 D))).
  { unfold u_times_u. now rewrite map_map. }
  unfold discrete_equilibrium. cbn [Z.leb Z.compare Pos.compare Pos.compare_cont]. rewrite HE, HU.
  set (cu := rsum (map (fun a => comp c a * u a) (seq 0 D))). set (uu := rsum (map (fun a => u a * u a) (seq 0 D))).
  assert (H1 : epoly_value rho u (map (fun a => (w * comp c a / cs2, (if compr then 1 else 0)%nat, [a])) (seq 0 D)) = carrier compr rho * w / cs2 * cu).
  { unfold epoly_value, cu. rewrite map_map, <- rsum_scal. apply rsum_ext. intros a _. cbn. unfold carrier. destruct compr; cbn; field; exact Hc. }
  assert (H2 : rsum (map (fun a => epoly_value rho u (map (fun b => (w * comp c a * comp c b / (2 * cs2 ^ 2), (if compr then 1 else 0)%nat, [a; b])) (seq 0 D))) (seq 0 D)) =
    carrier compr rho * w / (2 * cs2 ^ 2) * cu * cu).
  { replace (carrier compr rho * w / (2 * cs2 ^ 2) * cu * cu) with (carrier compr rho * w / (2 * cs2 ^ 2) * cu * rsum (map (fun a => comp c a * u a) (seq 0 D))) by (unfold cu; ring).
    rewrite <- rsum_scal. apply rsum_ext. intros a _. unfold epoly_value. rewrite map_map.
    replace (carrier compr rho * w / (2 * cs2 ^ 2) * cu * (comp c a * u a)) with (carrier compr rho * w / (2 * cs2 ^ 2) * (comp c a * u a) * cu) by ring.
    unfold cu. rewrite <- rsum_scal. apply rsum_ext. intros b _. unfold carrier. destruct compr; cbn; field; exact Hc. }
  assert (H3 : epoly_value rho u (map (fun a => (- w / (2 * cs2), (if compr then 1 else 0)%nat, [a; a])) (seq 0 D)) = - (carrier compr rho * w / (2 * cs2)) * uu).
  { unfold epoly_value, uu. rewrite map_map, <- rsum_scal. apply rsum_ext. intros a _. unfold carrier. destruct compr; cbn; field; exact Hc. }
  rewrite H1, H2, H3. unfold epoly_value. cbn [map eterm_value fold_right rsum]. unfold carrier. destruct compr; field; exact Hc.
Qed.
Lemma library_hydro name ord S ws compr : predefined_stencils name ord = Ok S -> get_weights S = Ok ws -> sizeQ S <> 7%nat ->
  hydrodynamic (dimD S) (equilibrium_moment S (quadratic_equilibria (dimD S) S (map Q2R ws) (1 / 3) compr)) compr (1 / 3) (fun _ _ _ => []).
Proof.
  intros HS Hw H7. destruct (predefined_wf _ _ _ HS) as (HSy & _ & _).
  assert (HV : forall rho u, hydro_maxwellian S compr false (Some 2%Z) rho (map u (seq 0 (dimD S))) (1 / 3) =
    Ok (map (epoly_value rho u) (quadratic_equilibria (dimD S) S (map Q2R ws) (1 / 3) compr))).
  { intros rho u. unfold hydro_maxwellian, discrete_maxwellian_equilibrium. rewrite Hw. cbn [rbind]. f_equal. unfold quadratic_equilibria. rewrite map_map.
    rewrite firstn_all2 by (rewrite map_length, seq_length; lia). pose proof (get_weights_length _ _ Hw) as HL.
    assert (HW : forall (l : list Q) (T : stencil), (forall c, In c T -> length c = dimD S) ->
      map (fun wc => discrete_equilibrium (snd wc) (map u (seq 0 (dimD S))) rho (Q2R (fst wc)) 2 (1 / 3) compr) (combine l T) =
      map (fun x => epoly_value rho u (quadratic_equilibrium (dimD S) (snd x) (fst x) (1 / 3) compr)) (combine (map Q2R l) T)).
    { induction l as [|q l IH]; intros T HT; [reflexivity|]. destruct T as [|c T]; [reflexivity|]. cbn [combine map fst snd]. rewrite IH by (intros c' Hc'; apply HT; now right).
      f_equal. symmetry. apply quadratic_value; [lra|apply HT; now left]. }
    apply HW. intros c Hc. apply HSy. exact Hc. }
  assert (HN : forall u a, (a < dimD S)%nat -> nth a (map u (seq 0 (dimD S))) 0 = u a).
  { intros u a Ha. rewrite (nth_indep _ 0 (u 0%nat)) by (rewrite map_length, seq_length; lia). rewrite map_nth, seq_nth by exact Ha. reflexivity. }
  assert (Hfs : forall f g h, (forall c, g c = h c) -> fsum f S g = fsum f S h) by (intros f g h H; unfold fsum; apply rsum_ext; intros p _; now rewrite H).
  constructor.
  - intros rho u. rewrite moment_value. pose proof (C10_density _ _ _ _ _ _ _ _ _ HS (HV rho u)) as H. cbn iota in H. rewrite Rminus_0_r in H.
    transitivity (density (map (epoly_value rho u) (quadratic_equilibria (dimD S) S (map Q2R ws) (1 / 3) compr)) S); [apply Hfs; reflexivity|exact H].
  - intros rho u a Ha. rewrite moment_value. assert (Hord : sizeQ S <> 7%nat \/ (eq_order (Some 2%Z) <= 2)%Z) by (left; exact H7).
    pose proof (C10_momentum _ _ _ _ _ _ _ _ _ a HS (HV rho u) Ha Hord) as H. rewrite (HN u a Ha) in H. fold (carrier compr rho) in H. rewrite <- H.
    apply Hfs. intros c. unfold comp_product. cbn. ring.
  - intros rho u a b Ha Hb. rewrite moment_value. assert (Hord : (2 <= eq_order (Some 2%Z))%Z) by (cbn; lia).
    pose proof (C10_euler_stress _ _ _ _ _ _ _ _ _ a b HS (HV rho u) Ha Hb H7 Hord) as H. rewrite (HN u a Ha), (HN u b Hb) in H. fold (carrier compr rho) in H.
    transitivity (second_moment (map (epoly_value rho u) (quadratic_equilibria (dimD S) S (map Q2R ws) (1 / 3) compr)) S a b); [apply Hfs; intros c; unfold comp_product; cbn; ring|].
    rewrite H. lra.
  - intros rho u a b c Ha Hb Hc. rewrite moment_value. assert (Hord : (eq_order (Some 2%Z) <= 2)%Z) by (cbn; lia).
    pose proof (C10_third_moment _ _ _ _ _ _ _ _ _ a b c HS (HV rho u) Ha Hb Hc H7 Hord) as H. rewrite (HN u a Ha), (HN u b Hb), (HN u c Hc) in H. fold (carrier compr rho) in H.
    match type of H with ?l = _ => transitivity l; [apply Hfs; intros v; unfold comp_product; cbn; ring|] end.
    rewrite H. unfold epoly_value. cbn. unfold Rdiv. ring.
  - intros. constructor.
Qed.

(* ---- populations ---- *)
Section Populations.
  Variables (D n : nat) (S : stencil) (ps : list poly) (Minv : mat) (rates : list R).
  Let M := moment_matrix ps S (rzero D).
  Hypothesis HS : Forall (fun c => length c = D) S.
  Hypothesis Ln : length S = n.
  Hypothesis Lp : length ps = n.
  Hypothesis Lr : length rates = n.
  Hypothesis HI : is_inverse n M Minv.
  Lemma operator_length f : length (collision_operator M Minv rates f) = n.
  Proof. unfold collision_operator. rewrite mv_length. destruct HI as (_ & [L _] & _). exact L. Qed.
  Lemma operator_moments f : length f = n -> mv M (collision_operator M Minv rates f) = map Ropp (rmul rates (mv M f)).
  Proof.
    intros Lf. unfold collision_operator. destruct HI as (_ & _ & H & _). apply H. rewrite map_length, rmul_length, mv_length, Lr. unfold M, moment_matrix. rewrite map_length, Lp. lia.
  Qed.
  Lemma fsum_comb ks f g : length ks = n -> length f = n -> (forall c, In c S -> g c = rsum (map (fun kp => fst kp * peval (snd kp) (vecR c)) (combine ks ps))) ->
    fsum f S g = rsum (map (fun p => fst p * snd p) (combine ks (mv M f))).
  Proof.
    intros Lk Lf Hg. unfold M. rewrite mv_moment_matrix. unfold fsum.
    assert (H1 : rsum (map (fun fc => fst fc * g (snd fc)) (combine f S)) =
      rsum (map (fun fc => fst fc * rsum (map (fun kp => fst kp * peval (snd kp) (rsub (vecR (snd fc)) (rzero D))) (combine ks ps))) (combine f S))).
    { apply rsum_ext. intros [x c] Hin. cbn [fst snd]. apply in_combine_r in Hin. rewrite Hg by exact Hin. rewrite rsub_zero_r'; [reflexivity|].
      unfold vecR. rewrite map_length. rewrite Forall_forall in HS. apply HS. exact Hin. }
    rewrite H1. clear H1 Hg. assert (Lkp : length ks = length ps) by lia. clear Lk Lp HI. clear M. revert ps Lkp. induction ks as [|k ks IH]; intros qs Lq.
    - cbn. rewrite (rsum_ext _ (fun _ => 0)); [apply rsum_zero|intros; ring].
    - destruct qs as [|q qs]; [discriminate|]. cbn [combine map fst snd]. rewrite rsum_cons. rewrite <- IH by (cbn in Lq; lia). unfold poly_moment. rewrite <- rsum_scal, <- rsum_plus.
      apply rsum_ext. intros fc _. rewrite rsum_cons. ring.
  Qed.
  Lemma relaxed w g f : relaxes_with S ps rates w g -> length f = n -> fsum (collision_operator M Minv rates f) S g = - w * fsum f S g.
  Proof.
    intros (ks & Lk & Hg & Hw) Lf. rewrite (fsum_comb ks _ g) by (try apply operator_length; try lia; exact Hg). rewrite (fsum_comb ks f g) by (try lia; exact Hg).
    rewrite operator_moments by exact Lf. assert (Lm : length (mv M f) = n) by (rewrite mv_length; unfold M, moment_matrix; now rewrite map_length).
    assert (Hw' : forall i, (i < n)%nat -> nth i ks 0 <> 0 -> nth i rates 0 = w) by (intros i Hi; apply Hw; lia). assert (Lk' : length ks = n) by lia. clear Hw Lk Hg.
    set (m := mv M f) in *. clearbody m. clear HI Lp Ln. clear M. clear Lf. revert ks rates m Lr Lm Lk' Hw'. induction n as [|k IH]; intros ks r m Lr' Lm' Lk Hw.
    - destruct ks; [|discriminate]. cbn. ring.
    - destruct ks as [|x ks]; [discriminate|]. destruct r as [|y r]; [discriminate|]. destruct m as [|z m]; [discriminate|].
      unfold rmul in *. cbn [combine map fst snd]. rewrite !rsum_cons. cbn in Lr', Lm', Lk. rewrite (IH ks r m); [|lia|lia|lia|].
      + specialize (Hw 0%nat ltac:(lia)). cbn in Hw. cbn [fst snd]. destruct (Req_EM_T x 0) as [->|N]; [ring|]. rewrite (Hw N). ring.
      + intros i Hi Hx. apply (Hw (Datatypes.S i)); [lia|exact Hx].
  Qed.
End Populations.

Lemma fsum_ext f S g h : (forall c, In c S -> g c = h c) -> fsum f S g = fsum f S h.
Proof. intros H. unfold fsum. apply rsum_ext. intros [x c] Hin. apply in_combine_r in Hin. cbn. now rewrite H. Qed.
Lemma fsum_sum {A} f S (g : A -> vec -> R) l : fsum f S (fun c => rsum (map (fun a => g a c) l)) = rsum (map (fun a => fsum f S (g a)) l).
Proof.
  unfold fsum. induction l as [|a l IH]; [cbn; rewrite (rsum_ext _ (fun _ => 0)); [apply rsum_zero|intros; ring]|].
  cbn [map]. rewrite rsum_cons, <- IH, <- rsum_plus. apply rsum_ext. intros p _. rewrite rsum_cons. ring.
Qed.
Lemma fsum_minus f S g h : fsum f S (fun c => g c - h c) = fsum f S g - fsum f S h.
Proof. unfold fsum. rewrite <- rsum_minus. apply rsum_ext. intros p _. ring. Qed.

Section First.
  Variables (S : stencil) (eq : list epoly) (compr : bool) (cs2 : R) (rest : nat -> nat -> nat -> epoly) (E : env) (o1 : list R).
  Let D := dimD S.
  Let eqm := equilibrium_moment S eq.
  Hypothesis HY : hydrodynamic D eqm compr cs2 rest.
  Hypothesis HR : env_rho E <> 0.
  Hypothesis Leq : length eq = length S.
  Hypothesis H1 : o1 = map (fun pc => direction_transport D E (snd pc) (fst pc)) (combine eq S).
  Lemma transport_moment idx : fsum o1 S (fun c => comp_product c idx) =
    dexp_value E (diff_poly None (eqm idx)) + rsum (map (fun a => dexp_value E (diff_poly (Some a) (eqm (idx ++ [a])))) (seq 0 D)).
  Proof.
    unfold eqm. rewrite diff_moment. rewrite (rsum_ext (fun a => dexp_value E (diff_poly (Some a) (equilibrium_moment S eq (idx ++ [a]))))
      (fun a => rsum (map (fun pc => comp_product (snd pc) (idx ++ [a]) * dexp_value E (diff_poly (Some a) (fst pc))) (combine eq S)))) by (intros; apply diff_moment).
    rewrite H1. unfold fsum. clear H1 HY. unfold eqm in *. clear eqm. revert Leq. generalize D. intros d. generalize S as T. induction eq as [|p q IH]; intros T L.
    - destruct T; [|discriminate]. cbn. rewrite rsum_zero. ring.
    - destruct T as [|c T]; [discriminate|]. cbn [combine map fst snd]. rewrite !rsum_cons. rewrite IH by (cbn in L; lia).
      assert (HC : forall a, comp_product c (idx ++ [a]) = comp_product c idx * comp c a).
      { intros a. unfold comp_product. rewrite map_app, prod_app. cbn. ring. }
      rewrite (rsum_ext (fun a => rsum (comp_product c (idx ++ [a]) * dexp_value E (diff_poly (Some a) p) :: map (fun pc => comp_product (snd pc) (idx ++ [a]) * dexp_value E (diff_poly (Some a) (fst pc))) (combine q T)))
        (fun a => comp_product c idx * (comp c a * dexp_value E (diff_poly (Some a) p)) + rsum (map (fun pc => comp_product (snd pc) (idx ++ [a]) * dexp_value E (diff_poly (Some a) (fst pc))) (combine q T)))).
      + rewrite rsum_plus, rsum_scal. unfold direction_transport. ring.
      + intros a _. rewrite rsum_cons, HC. ring.
  Qed.
  Hypothesis Hmass : fsum o1 S (fun _ => 1) = 0.
  Hypothesis Hmom : forall a, (a < D)%nat -> fsum o1 S (fun c => comp c a) = 0.
  Lemma time_rho : env_tr E = dexp_value E (solved_rho D eqm).
  Proof.
    pose proof (transport_moment []) as H. rewrite (fsum_ext o1 S _ (fun _ => 1)) in H by reflexivity. rewrite Hmass in H. cbn [app] in H.
    unfold solved_rho. rewrite dneg_value, dexp_flat.
    assert (H0 : dexp_value E (diff_poly None (eqm [])) = env_tr E).
    { rewrite (diff_ext E None (eqm []) [(1, 1%nat, [])]).
      - rewrite diff_poly_value. cbn. unfold uprod. cbn. ring.
      - intros rho u. rewrite (hyd_density _ _ _ _ _ HY). unfold epoly_value. cbn. ring. }
    rewrite H0 in H. lra.
  Qed.
  Lemma carrier_nz : carrier compr (env_rho E) <> 0.
  Proof. unfold carrier. destruct compr; [exact HR|lra]. Qed.
  Lemma time_u a : (a < D)%nat -> env_tu E a = dexp_value E (solved_u D eqm compr a).
  Proof.
    intros Ha. pose proof (transport_moment [a]) as H. rewrite (fsum_ext o1 S _ (fun c => comp c a)) in H by (intros; unfold comp_product; cbn; ring). rewrite (Hmom a Ha) in H.
    rewrite (d1_value D eqm compr cs2 rest HY) in H by exact Ha. cbn [diff_rho diff_u sym_value app] in H. unfold dcar in H. cbn [diff_rho sym_value] in H.
    assert (HF : dexp_value E (momentum_flux D eqm a) = - rsum (map (fun c => dexp_value E (diff_poly (Some c) (eqm [a; c]))) (seq 0 D))).
    { unfold momentum_flux. rewrite dneg_value, dexp_flat. reflexivity. }
    pose proof carrier_nz as HC. unfold solved_u. unfold carrier in *. pose proof time_rho as HT. destruct compr.
    - rewrite dmul_value, dexp_app, dneg_value, dmul_value, <- HT, HF by exact HR.
      replace (dexp_value E [(1, (-1)%Z, [])]) with (/ env_rho E) by (unfold dexp_value; cbn; change (Pos.to_nat 1) with 1%nat; cbn [pow]; field; exact HR).
      replace (dexp_value E [(1, 0%Z, [SU a])]) with (env_u E a) by (unfold dexp_value; cbn; ring).
      apply (Rmult_eq_reg_l (env_rho E)); [|exact HR]. rewrite <- Rmult_assoc, Rinv_r, Rmult_1_l by exact HR. lra.
    - rewrite HF. lra.
  Qed.
  Lemma second_ups a b : (a < D)%nat -> (b < D)%nat -> fsum o1 S (fun c => comp c a * comp c b) = dexp_value E (upsilon D eqm compr a b).
  Proof.
    intros Ha Hb. rewrite (fsum_ext o1 S _ (fun c => comp_product c [a; b])) by (intros; unfold comp_product; cbn; ring). rewrite transport_moment.
    unfold upsilon. rewrite substitute_value by exact HR. unfold transport. rewrite dexp_app, dexp_flat.
    f_equal.
    - rewrite !(d2_value D eqm compr cs2 rest HY) by assumption. unfold dcar. cbn [diff_rho diff_u sym_value solved_env env_tr env_tu env_u env_rho].
      rewrite <- time_rho, <- (time_u a Ha), <- (time_u b Hb). reflexivity.
    - apply rsum_ext. intros c _. symmetry. apply solved_some.
  Qed.
End First.

Section Stress.
  Variables (S : stencil) (ps : list poly) (Minv : mat) (rates : list R) (wm ws wb cs2 : R) (compr : bool) (eq : list epoly) (rest : nat -> nat -> nat -> epoly) (E : env) (f1 : list R).
  Let D := dimD S.
  Let n := length S.
  Let M := moment_matrix ps S (rzero D).
  Let o1 := collision_operator M Minv rates f1.
  Let eqm := equilibrium_moment S eq.
  Hypothesis HS : Forall (fun c => length c = D) S.
  Hypothesis Lp : length ps = n.
  Hypothesis Lr : length rates = n.
  Hypothesis HI : is_inverse n M Minv.
  Hypothesis Lf : length f1 = n.
  Hypothesis HD : (0 < D)%nat.
  Hypothesis HY : hydrodynamic D eqm compr cs2 rest.
  Hypothesis HR : env_rho E <> 0.
  Hypothesis Leq : length eq = n.
  Hypothesis H1 : o1 = map (fun pc => direction_transport D E (snd pc) (fst pc)) (combine eq S).
  Hypothesis Hwm : wm <> 0.
  Hypothesis Hws : ws <> 0.
  Hypothesis Hwb : wb <> 0.
  Hypothesis R0 : exists w, relaxes_with S ps rates w (fun _ => 1).
  Hypothesis R1 : forall a, (a < D)%nat -> exists w, relaxes_with S ps rates w (fun c => comp c a).
  Hypothesis Rm : forall a b, (a < D)%nat -> (b < D)%nat -> a <> b -> relaxes_with S ps rates wm (fun c => comp c a * comp c b).
  Hypothesis Rd : forall a b, (a < D)%nat -> (b < D)%nat -> relaxes_with S ps rates ws (fun c => comp c a ^ 2 - comp c b ^ 2).
  Hypothesis Rt : relaxes_with S ps rates wb (fun c => rsum (map (fun a => comp c a ^ 2) (seq 0 D))).
  Hypothesis F0 : fsum f1 S (fun _ => 1) = 0.
  Hypothesis F1 : forall a, (a < D)%nat -> fsum f1 S (fun c => comp c a) = 0.
  Lemma rel w g : relaxes_with S ps rates w g -> fsum o1 S g = - w * fsum f1 S g.
  Proof. intros H. unfold o1, M. apply (relaxed D n S ps Minv rates HS eq_refl Lp Lr HI w g f1 H Lf). Qed.
  Lemma ups_ok a b : (a < D)%nat -> (b < D)%nat -> fsum o1 S (fun c => comp c a * comp c b) = dexp_value E (upsilon D eqm compr a b).
  Proof.
    apply (second_ups S eq compr cs2 rest E o1 HY HR Leq H1).
    - destruct R0 as (w & H). rewrite (rel w _ H), F0. ring.
    - intros c Hc. destruct (R1 c Hc) as (w & H). rewrite (rel w _ H), (F1 c Hc). ring.
  Qed.
  Lemma stress_ok a b : (a < D)%nat -> (b < D)%nat ->
    fsum f1 S (fun c => comp c a * comp c b) + 1 / 2 * fsum o1 S (fun c => comp c a * comp c b) = dexp_value E (viscous_stress D eqm (second_rate wm ws a b) wb compr a b).
  Proof.
    intros Ha Hb. unfold second_rate. unfold viscous_stress. rewrite dexp_app, dscale_value, (ups_ok a b Ha Hb). f_equal. unfold first_order_moment. destruct (Nat.eqb_spec a b) as [->|N].
    - rewrite dexp_app, !dscale_value, dexp_app, !dscale_value.
      set (X c := fsum f1 S (fun v => comp v c ^ 2)).
      assert (HU : forall c, (c < D)%nat -> dexp_value E (upsilon D eqm compr c c) = fsum o1 S (fun v => comp v c ^ 2)).
      { intros c Hc. rewrite <- (ups_ok c c Hc Hc). apply fsum_ext. intros. ring. }
      assert (HT : dexp_value E (upsilon_trace D eqm compr) = - wb * rsum (map X (seq 0 D))).
      { unfold upsilon_trace. rewrite dexp_flat. rewrite (rsum_ext _ (fun c => fsum o1 S (fun v => comp v c ^ 2))) by (intros c Hc; apply in_seq in Hc; apply HU; lia).
        rewrite <- fsum_sum. rewrite (rel wb _ Rt). rewrite fsum_sum. reflexivity. }
      assert (HDf : forall c, (c < D)%nat -> dexp_value E (upsilon D eqm compr b b) - dexp_value E (upsilon D eqm compr c c) = - ws * (X b - X c)).
      { intros c Hc. rewrite !HU by assumption. rewrite <- fsum_minus. rewrite (rel ws _ (Rd b c Hb Hc)). rewrite fsum_minus. reflexivity. }
      assert (HSum : INR D * dexp_value E (upsilon D eqm compr b b) - dexp_value E (upsilon_trace D eqm compr) = - ws * (INR D * X b - rsum (map X (seq 0 D)))).
      { assert (HK : forall v, INR D * v = rsum (map (fun _ => v) (seq 0 D))) by (intros v; rewrite rsum_const, seq_length; reflexivity).
        rewrite (HK (dexp_value E (upsilon D eqm compr b b))), (HK (X b)). unfold upsilon_trace. rewrite dexp_flat, <- !rsum_minus, <- rsum_scal. apply rsum_ext. intros c Hc. apply in_seq in Hc.
        apply HDf. lia. }
      assert (HDn : INR D <> 0) by (apply not_0_INR; lia).
      rewrite (fsum_ext f1 S _ (fun v => comp v b ^ 2)) by (intros; ring). fold (X b). rewrite HT in *. set (U := dexp_value E (upsilon D eqm compr b b)) in *. set (T := rsum (map X (seq 0 D))) in *.
      apply (Rmult_eq_reg_l (INR D * ws)); [|apply Rmult_integral_contrapositive_currified; assumption].
      replace (INR D * ws * (- (1 / ws) * (U + - (1 / INR D) * (- wb * T)) + - (1 / wb) * (1 / INR D * (- wb * T)))) with (- (INR D * U - - wb * T) + ws * T) by (field; auto).
      rewrite HSum. ring.
    - rewrite dscale_value, <- (ups_ok a b Ha Hb), (rel wm _ (Rm a b Ha Hb N)). field. exact Hwm.
  Qed.
End Stress.

(* ---- orders of the expansion ---- *)
Section Orders.
  Context {X : Type}.
  Variables (L1 T2 : (X -> R) -> (X -> R)).
  Hypothesis HL : linear_field L1.
  Hypothesis HT : linear_field T2.
  Lemma lin_add L f g x : @linear_field X L -> L (fadd f g) x = L f x + L g x. Proof. intros (H & _). apply H. Qed.
  Lemma lin_scal L a f x : @linear_field X L -> L (fscal a f) x = a * L f x. Proof. intros (_ & H & _). apply H. Qed.
  Lemma lin_sub L f g x : @linear_field X L -> L (fsub f g) x = L f x - L g x.
  Proof.
    intros HH. pose proof HH as (_ & _ & Hx). rewrite (Hx (fsub f g) (fadd f (fscal (-1) g))) by (intros; unfold fsub, fadd, fscal; ring). rewrite lin_add, lin_scal by exact HH. ring.
  Qed.
  Lemma expanded_linear eps : linear_field (expanded_operator L1 T2 eps).
  Proof.
    split; [|split].
    - intros f g x. unfold expanded_operator at 1. unfold fadd at 1, fscal. rewrite !lin_add by assumption. unfold expanded_operator, fadd, fscal. ring.
    - intros a f x. unfold expanded_operator at 1. unfold fadd at 1, fscal at 1 3. rewrite !lin_scal by assumption. unfold expanded_operator, fadd, fscal. ring.
    - intros f g H x. unfold expanded_operator, fadd, fscal. destruct HL as (_ & _ & A), HT as (_ & _ & B). rewrite (A f g H), (B f g H). reflexivity.
  Qed.
  Lemma shifted f om (L : (X -> R) -> (X -> R)) x : linear_field L -> taylor_equation true L f om x = L f x - om x + 1 / 2 * L om x.
  Proof. intros H. unfold taylor_equation, fadd, fscal. unfold fsub at 1 2. rewrite lin_sub by exact H. ring. Qed.
  Lemma orders f0 f1 f2 o1 o2 : exists r3 r4, forall eps x,
    taylor_equation true (expanded_operator L1 T2 eps) (expanded_pdf f0 f1 f2 eps) (expanded_omega o1 o2 eps) x =
    eps * order1 L1 f0 o1 x + eps ^ 2 * order2 L1 T2 f0 f1 o1 o2 x + eps ^ 3 * (r3 x + eps * r4 x).
  Proof.
    exists (fun x => T2 f1 x + L1 f2 x + 1 / 2 * (T2 o1 x + L1 o2 x)), (fun x => T2 f2 x + 1 / 2 * T2 o2 x). intros eps x.
    rewrite shifted by apply expanded_linear.
    assert (HA : expanded_operator L1 T2 eps (expanded_pdf f0 f1 f2 eps) x =
      eps * (L1 f0 x + eps * L1 f1 x + eps ^ 2 * L1 f2 x) + eps ^ 2 * (T2 f0 x + eps * T2 f1 x + eps ^ 2 * T2 f2 x)).
    { change (eps * L1 (expanded_pdf f0 f1 f2 eps) x + eps ^ 2 * T2 (expanded_pdf f0 f1 f2 eps) x = eps * (L1 f0 x + eps * L1 f1 x + eps ^ 2 * L1 f2 x) + eps ^ 2 * (T2 f0 x + eps * T2 f1 x + eps ^ 2 * T2 f2 x)).
      unfold expanded_pdf. rewrite !lin_add, !lin_scal by assumption. ring. }
    assert (HB : expanded_operator L1 T2 eps (expanded_omega o1 o2 eps) x = eps * (eps * L1 o1 x + eps ^ 2 * L1 o2 x) + eps ^ 2 * (eps * T2 o1 x + eps ^ 2 * T2 o2 x)).
    { change (eps * L1 (expanded_omega o1 o2 eps) x + eps ^ 2 * T2 (expanded_omega o1 o2 eps) x = eps * (eps * L1 o1 x + eps ^ 2 * L1 o2 x) + eps ^ 2 * (eps * T2 o1 x + eps ^ 2 * T2 o2 x)).
      unfold expanded_omega. rewrite !lin_add, !lin_scal by assumption. ring. }
    rewrite HA, HB. unfold order1, order2, expanded_omega, fadd, fsub, fscal. field.
  Qed.
End Orders.
