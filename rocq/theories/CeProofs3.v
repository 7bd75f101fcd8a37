(* The viscosities reported for hydrodynamic equilibria. *)
From Coq Require Import List ZArith Bool Arith Reals Lra Lia.
From Verif Require Import StencilModel RealLib LinLib EqSpec CeModel CeSpec CeProofs CeProofs2.
Import ListNotations.
Local Open Scope R_scope.

Lemma remove_app p q : remove_error_terms (p ++ q) = remove_error_terms p ++ remove_error_terms q.
Proof. unfold remove_error_terms. induction p as [|t p IH]; [reflexivity|]. cbn [app filter]. rewrite IH. destruct (keep t); reflexivity. Qed.
Lemma remove_scale x p : remove_error_terms (dscale x p) = dscale x (remove_error_terms p).
Proof.
  unfold remove_error_terms, dscale. induction p as [|t p IH]; [reflexivity|]. cbn [map filter].
  replace (keep (dterm_scale x t)) with (keep t) by (destruct t as [[c k] l]; reflexivity). destruct (keep t); cbn [map]; now rewrite IH.
Qed.
Lemma remove_flat {A} (f : A -> dexp) l : (forall a, In a l -> remove_error_terms (f a) = []) -> remove_error_terms (flat_map f l) = [].
Proof. induction l as [|a l IH]; intros H; [reflexivity|]. cbn [flat_map]. rewrite remove_app, (H a), IH; cbn; auto. intros b Hb. apply H. now right. Qed.
Lemma remove_none p : (forall t, In t p -> keep t = false) -> remove_error_terms p = [].
Proof. unfold remove_error_terms. induction p as [|t p IH]; intros H; [reflexivity|]. cbn [filter]. rewrite (H t) by now left. apply IH. intros t' Ht. apply H. now right. Qed.
Lemma count_SU l : count_u (map SU l) = length l.
Proof. unfold count_u. induction l as [|a l IH]; [reflexivity|]. cbn. f_equal. exact IH. Qed.
Lemma picks_length l p : In p (picks l) -> length (snd p) = pred (length l).
Proof.
  revert p. induction l as [|a l IH]; intros p H; [destruct H|]. cbn in H. destruct H as [<-|H]; [reflexivity|].
  apply in_map_iff in H. destruct H as (q & <- & Hq). cbn. rewrite (IH q Hq). destruct l; [destruct Hq|]. reflexivity.
Qed.
Lemma remove_diff c (t : eterm) : (2 <= length (snd t))%nat -> remove_error_terms (diff_term (Some c) t) = [].
Proof.
  destruct t as [[v k] l]. cbn [snd]. intros H. apply remove_none. intros t Ht. unfold diff_term in Ht. apply in_app_iff in Ht. destruct Ht as [Ht|Ht].
  - destruct k; [destruct Ht|]. destruct Ht as [<-|[]]. reflexivity.
  - apply in_map_iff in Ht. destruct Ht as (p & <- & Hp). unfold keep. apply andb_false_iff. right. apply Nat.leb_gt.
    cbn [diff_u]. unfold count_u. cbn [map fold_right counts_u]. fold (count_u (map SU (snd p))). rewrite count_SU, (picks_length l p Hp). lia.
Qed.
Lemma remove_mul_u a p : remove_error_terms p = [] -> remove_error_terms (dmul [(1, 0%Z, [SU a])] p) = [].
Proof.
  intros H. unfold dmul. cbn [flat_map]. rewrite app_nil_r. apply remove_none. intros t Ht. apply in_map_iff in Ht. destruct Ht as ([[c k] l] & <- & Ht).
  assert (HK : keep (c, k, l) = false).
  { destruct (keep (c, k, l)) eqn:EK; [|reflexivity]. exfalso. assert (HI : In (c, k, l) (remove_error_terms p)) by (apply filter_In; split; assumption). rewrite H in HI. exact HI. }
  cbn [dterm_mul]. unfold keep in *. change ([SU a] ++ l) with (SU a :: l). unfold has_rho_gradient in *. cbn [existsb orb]. unfold count_u in *. cbn [map fold_right counts_u].
  apply andb_false_iff in HK. apply andb_false_iff. destruct HK as [HK|HK]; [left; exact HK|right]. apply Nat.leb_gt in HK. apply Nat.leb_gt. lia.
Qed.

Section Hydro.
  Variables (D : nat) (eqm : list nat -> epoly) (compr : bool) (cs2 : R) (rest : nat -> nat -> nat -> epoly) (ws wb : R).
  Hypothesis HY : hydrodynamic D eqm compr cs2 rest.

  Lemma errors_removed a b : (a < D)%nat -> (b < D)%nat -> remove_error_terms (stress_errors D compr cs2 rest a b) = [].
  Proof.
    intros Ha Hb. unfold stress_errors. rewrite remove_app. rewrite remove_flat; [cbn [app]|].
    - destruct compr.
      + unfold dneg. rewrite remove_scale, remove_flat; [reflexivity|]. intros c _. unfold diff_poly. cbn [flat_map]. rewrite app_nil_r. apply remove_diff. cbn. lia.
      + assert (HF : forall i, remove_error_terms (flat_map (fun c => diff_poly (Some c) [(1, 0%nat, [i; c])]) (seq 0 D)) = []).
        { intros i. apply remove_flat. intros c _. unfold diff_poly. cbn [flat_map]. rewrite app_nil_r. apply remove_diff. cbn. lia. }
        unfold dneg. rewrite remove_scale, !remove_app. rewrite !remove_mul_u by apply HF. reflexivity.
    - intros c Hc. apply in_seq in Hc. apply remove_flat. intros t Ht. apply remove_diff.
      assert (Hc' : (c < D)%nat) by lia. pose proof (hyd_rest _ _ _ _ _ HY a b c Ha Hb Hc') as HF. rewrite Forall_forall in HF. specialize (HF t Ht). lia.
  Qed.

  Definition strain (a b : nat) : dexp := [(cs2, Z.of_nat (kc compr), [GU a b]); (cs2, Z.of_nat (kc compr), [GU b a])].
  Definition ups (a b : nat) : dexp := strain a b ++ stress_errors D compr cs2 rest a b.
  Definition vis (a b : nat) : dexp :=
    dscale (1 / 2 - 1 / ws) (ups a b) ++ if Nat.eqb a b then dscale ((1 / ws - 1 / wb) / INR D) (flat_map (fun c => ups c c) (seq 0 D)) else [].
  Lemma strain_value E a b : dexp_value E (strain a b) = cs2 * carrier compr (env_rho E) * (env_gu E a b + env_gu E b a).
  Proof. unfold strain, dexp_value. cbn [map dterm_value fold_right sym_value rsum]. rewrite <- pow_powerRZ, (carrier_pow D eqm compr cs2 rest HY). ring. Qed.
  Lemma ups_value E a b : env_rho E <> 0 -> (a < D)%nat -> (b < D)%nat -> dexp_value E (upsilon D eqm compr a b) = dexp_value E (ups a b).
  Proof. intros H Ha Hb. unfold ups. rewrite dexp_app, strain_value. apply (upsilon_value D eqm compr cs2 rest HY E H a b Ha Hb). Qed.
  Lemma trace_value E : env_rho E <> 0 -> dexp_value E (upsilon_trace D eqm compr) = dexp_value E (flat_map (fun c => ups c c) (seq 0 D)).
  Proof. intros H. unfold upsilon_trace. rewrite !dexp_flat. apply rsum_ext. intros c Hc. apply in_seq in Hc. apply ups_value; [exact H|lia|lia]. Qed.
  Lemma stress_same a b : (a < D)%nat -> (b < D)%nat -> same (viscous_stress D eqm ws wb compr a b) (vis a b).
  Proof.
    intros Ha Hb E HE. unfold viscous_stress, vis, first_order_moment. rewrite !dexp_app. destruct (Nat.eqb_spec a b) as [->|N].
    - rewrite !dexp_app, !dscale_value, !dexp_app, !dscale_value, trace_value, ups_value by assumption. unfold Rdiv. ring.
    - rewrite !dscale_value, ups_value by assumption. change (dexp_value E []) with 0. unfold Rdiv. ring.
  Qed.
  Lemma kept_ups E a b : (a < D)%nat -> (b < D)%nat -> dexp_value E (remove_error_terms (ups a b)) = cs2 * carrier compr (env_rho E) * (env_gu E a b + env_gu E b a).
  Proof. intros Ha Hb. unfold ups. rewrite remove_app, errors_removed, app_nil_r by assumption. rewrite <- strain_value. reflexivity. Qed.
  Lemma remove_flat_map {A} (f : A -> dexp) l : remove_error_terms (flat_map f l) = flat_map (fun a => remove_error_terms (f a)) l.
  Proof. induction l as [|a l IH]; [reflexivity|]. cbn [flat_map]. now rewrite remove_app, IH. Qed.
  Lemma kept_vis E a b : (a < D)%nat -> (b < D)%nat -> dexp_value E (remove_error_terms (vis a b)) =
    (1 / 2 - 1 / ws) * (cs2 * carrier compr (env_rho E) * (env_gu E a b + env_gu E b a)) +
    delta a b * ((1 / ws - 1 / wb) / INR D) * (2 * cs2 * carrier compr (env_rho E) * divergence D E).
  Proof.
    intros Ha Hb. unfold vis. rewrite remove_app, dexp_app, remove_scale, dscale_value, kept_ups by assumption. f_equal.
    unfold delta. destruct (Nat.eqb a b); [|cbn; ring]. rewrite remove_scale, dscale_value, remove_flat_map, dexp_flat.
    rewrite (rsum_ext _ (fun c => (2 * cs2 * carrier compr (env_rho E)) * env_gu E c c)); [rewrite rsum_scal; unfold divergence; ring|].
    intros c Hc. apply in_seq in Hc. rewrite kept_ups by lia. ring.
  Qed.

  (* ---- compressibility ---- *)
  Definition probe (s : R) : env :=
    {| env_rho := 0; env_u := fun a => if Nat.eqb a 0 then s else 0; env_gu := fun _ _ => 0; env_gr := fun b => if Nat.eqb b 0 then 1 else 0;
       env_tu := fun _ => 0; env_tr := 0 |}.
  Definition pick (t : dterm) : R := let '(c, k, l) := t in if Z.eqb k 0 then if list_eq_dec sym_eq_dec l [GR 0; SU 0] then c else 0 else 0.
  Lemma probe_prod s l : exists K, uprod (probe s) l = K * s ^ length l /\ (l = [0%nat] -> K = 1) /\ (length l = 1%nat -> l <> [0%nat] -> K = 0) /\
    (forall s', uprod (probe s') l = K * s' ^ length l).
  Proof.
    exists (if forallb (Nat.eqb 0) l then 1 else 0).
    assert (H : forall s', uprod (probe s') l = (if forallb (Nat.eqb 0) l then 1 else 0) * s' ^ length l).
    { intros s'. induction l as [|a l IH]; [cbn; unfold uprod; cbn; ring|]. unfold uprod in *. cbn [map fold_right]. rewrite IH. cbn [probe env_u forallb length pow].
      rewrite Nat.eqb_sym. destruct (Nat.eqb 0 a); cbn [andb]; [|ring]. destruct (forallb (Nat.eqb 0) l); ring. }
    split; [apply H|]. split; [intros ->; reflexivity|]. split; [|exact H]. intros L N. destruct l as [|a [|b l]]; try discriminate. cbn.
    destruct a; [congruence|reflexivity].
  Qed.
  Lemma probe_lim b t : derivable_pt_lim (fun s => dexp_value (probe s) (diff_term (Some b) t)) 0 (rsum (map pick (diff_term (Some b) t))).
  Proof.
    destruct t as [[c k] l]. destruct (probe_prod 0 l) as (K & _ & K1 & K2 & K3).
    assert (HP : rsum (map pick (diff_term (Some b) (c, k, l))) = if (b =? 0)%nat && (k =? 1)%nat && (length l =? 1)%nat then c * K else 0).
    { unfold diff_term. rewrite map_app, rsum_app.
      assert (H0 : rsum (map pick (map (fun p => (c, Z.of_nat k, diff_u (Some b) (fst p) :: map SU (snd p))) (picks l))) = 0).
      { rewrite map_map. rewrite <- (rsum_zero (picks l)). apply rsum_ext. intros p _. cbn [pick]. destruct (Z.eqb _ 0); [|reflexivity]. dl; [discriminate|reflexivity]. }
      unfold dterm in H0. rewrite H0.
      rewrite Rplus_0_r. destruct k as [|[|k]]; [rewrite andb_false_r; reflexivity| |].
      - cbn [map rsum fold_right pick Z.of_nat Z.eqb Nat.eqb]. dl.
        + injection e as -> El. destruct l as [|a [|a' l]]; try discriminate. cbn in El. injection El as ->. cbn [Nat.eqb andb length]. rewrite K1 by reflexivity. cbn. ring.
        + destruct (Nat.eqb_spec b 0) as [->|N]; cbn [andb]; [|ring]. destruct (Nat.eqb_spec (length l) 1) as [L|L]; [|ring]. rewrite K2; [ring|exact L|].
          intros ->. apply e. reflexivity.
      - cbn [map rsum fold_right pick]. replace (Z.eqb (Z.of_nat (Datatypes.S k)) 0) with false by (symmetry; apply Z.eqb_neq; lia). cbn [Nat.eqb]. rewrite andb_false_r. cbn. ring. }
    rewrite HP.
    assert (HV : forall s, dexp_value (probe s) (diff_term (Some b) (c, k, l)) = (if (b =? 0)%nat && (k =? 1)%nat then c * K else 0) * s ^ length l).
    { intros s. rewrite diff_term_value. unfold dterm_lim. cbn [diff_rho sym_value probe env_gr env_rho].
      assert (HD : dprod (probe s) (Some b) l = 0) by (clear; induction l as [|a l IH]; [reflexivity|]; cbn [dprod]; rewrite IH; cbn; ring).
      rewrite HD, K3. destruct k as [|[|k]]; [rewrite andb_false_r; ring| |].
      - cbn [Nat.eqb]. rewrite andb_true_r. destruct (b =? 0)%nat; cbn; ring.
      - cbn [Nat.eqb]. rewrite andb_false_r. rewrite pow_i by lia. ring. }
    intros eps Heps.
    destruct (derivable_pt_lim_scal (fun s => s ^ length l) (if (b =? 0)%nat && (k =? 1)%nat then c * K else 0) 0 _ (pow_lim0 (length l)) eps Heps) as (d & Hd).
    exists d. intros h H1 H2. specialize (Hd h H1 H2). unfold mult_real_fct in Hd. rewrite !HV.
    replace (if (b =? 0)%nat && (k =? 1)%nat && (length l =? 1)%nat then c * K else 0) with ((if (b =? 0)%nat && (k =? 1)%nat then c * K else 0) * (if (length l =? 1)%nat then 1 else 0)); [exact Hd|].
    destruct ((b =? 0)%nat && (k =? 1)%nat), (length l =? 1)%nat; cbn [andb]; ring.
  Qed.
  Lemma lim_sum {A} (F : A -> R -> R) (v : A -> R) l : (forall a, In a l -> derivable_pt_lim (F a) 0 (v a)) ->
    derivable_pt_lim (fun s => rsum (map (fun a => F a s) l)) 0 (rsum (map v l)).
  Proof.
    induction l as [|a l IH]; intros H; [apply derivable_pt_lim_const|].
    apply (derivable_pt_lim_plus (F a) (fun s => rsum (map (fun a => F a s) l))); [apply H; now left|apply IH; intros b Hb; apply H; now right].
  Qed.
  Lemma pick_flat {A} (f : A -> dexp) l : rsum (map pick (flat_map f l)) = rsum (map (fun a => rsum (map pick (f a))) l).
  Proof. induction l as [|a l IH]; [reflexivity|]. cbn [flat_map map]. rewrite map_app, rsum_app, IH. reflexivity. Qed.
  Lemma compressible_ok : (0 < D)%nat -> is_compressible D eqm = compr.
  Proof.
    intros HD.
    set (v := rsum (map pick (flat_map (fun c => diff_poly (Some c) (eqm [c])) (seq 0 D)))).
    assert (HL : derivable_pt_lim (fun s => rsum (map (fun c => dexp_value (probe s) (diff_poly (Some c) (eqm [c]))) (seq 0 D))) 0 v).
    { unfold v. rewrite pick_flat. apply (lim_sum (fun c s => dexp_value (probe s) (diff_poly (Some c) (eqm [c])))). intros c _.
      unfold diff_poly. rewrite pick_flat.
      intros eps Heps. destruct (lim_sum (fun t s => dexp_value (probe s) (diff_term (Some c) t)) (fun t => rsum (map pick (diff_term (Some c) t))) (eqm [c]) (fun t _ => probe_lim c t) eps Heps) as (d & Hd).
      exists d. intros h H1 H2. rewrite !dexp_flat. apply Hd; assumption. }
    assert (HV : forall s, rsum (map (fun c => dexp_value (probe s) (diff_poly (Some c) (eqm [c]))) (seq 0 D)) = (if compr then 1 else 0) * s).
    { intros s. rewrite (rsum_ext _ (fun c => delta 0 c * ((if compr then 1 else 0) * s))).
      - rewrite (delta_sum D 0 (fun _ => (if compr then 1 else 0) * s) HD). reflexivity.
      - intros c Hc. apply in_seq in Hc. rewrite (d1_value D eqm compr cs2 rest HY) by lia. unfold dcar. cbn [diff_rho diff_u sym_value probe env_gr env_gu env_u]. unfold delta.
        rewrite (Nat.eqb_sym 0 c). destruct (Nat.eqb c 0); destruct compr; ring. }
    assert (Hv : v = if compr then 1 else 0).
    { eapply uniqueness_limite; [exact HL|]. intros eps Heps. destruct (line_lim 0 (if compr then 1 else 0) eps Heps) as (d & Hd). exists d. intros h H1 H2. rewrite !HV.
      specialize (Hd h H1 H2). cbn beta in Hd.
      match goal with |- Rabs ?x < _ => match type of Hd with Rabs ?y < _ => replace x with y by (field; exact H1) end end. exact Hd. }
    change ((if Req_EM_T v 1 then true else false) = compr). rewrite Hv. destruct compr.
    - destruct (Req_EM_T 1 1) as [e|e]; [reflexivity|contradiction].
    - destruct (Req_EM_T 0 1) as [e|e]; [lra|reflexivity].
  Qed.

  (* ---- viscosities ---- *)
  Hypothesis HD : (2 <= D)%nat.
  Lemma stress_value E a b : env_rho E <> 0 -> (a < D)%nat -> (b < D)%nat ->
    dexp_value E (stress_without_errors D eqm ws wb a b) =
    (1 / 2 - 1 / ws) * (cs2 * carrier compr (env_rho E) * (env_gu E a b + env_gu E b a)) +
    delta a b * ((1 / ws - 1 / wb) / INR D) * (2 * cs2 * carrier compr (env_rho E) * divergence D E).
  Proof.
    intros HE Ha Hb. unfold stress_without_errors. rewrite compressible_ok by lia. rewrite (kept_ext E _ (vis a b) (stress_same a b Ha Hb) HE). apply kept_vis; assumption.
  Qed.
  Definition is_at (i j k l : nat) : R := if (i =? k)%nat && (j =? l)%nat then 1 else 0.
  Lemma coeff_stress a b k l rho : rho <> 0 -> (a < D)%nat -> (b < D)%nat -> (k < D)%nat ->
    coeff (GU k l) (stress_without_errors D eqm ws wb a b) rho =
    (1 / 2 - 1 / ws) * (cs2 * carrier compr rho * (is_at a b k l + is_at b a k l)) + delta a b * ((1 / ws - 1 / wb) / INR D) * (2 * cs2 * carrier compr rho * delta k l).
  Proof.
    intros HR Ha Hb Hk. unfold stress_without_errors. rewrite coeff_value.
    pose proof (stress_value (only rho 1 k l) a b HR Ha Hb) as V1. pose proof (stress_value (only rho 0 k l) a b HR Ha Hb) as V0.
    unfold stress_without_errors in V1, V0. rewrite V1, V0. cbn [only env_rho env_gu].
    assert (HDV : forall v, divergence D (only rho v k l) = delta k l * v).
    { intros v. unfold divergence. cbn [only env_gu]. rewrite (rsum_ext _ (fun c => delta k c * (delta k l * v))).
      - apply (delta_sum D k (fun _ => delta k l * v) Hk).
      - intros c _. unfold delta. rewrite (Nat.eqb_sym k c). destruct (Nat.eqb_spec c k) as [->|N]; cbn [andb]; [|ring]. destruct (Nat.eqb k l); ring. }
    rewrite !HDV. unfold is_at. destruct ((a =? k)%nat && (b =? l)%nat), ((b =? k)%nat && (a =? l)%nat); ring.
  Qed.
  Lemma shear_ok a b rho : rho <> 0 -> (a < D)%nat -> (b < D)%nat -> a <> b ->
    shear_candidate D eqm ws wb a b rho = cs2 * carrier compr rho * (1 / ws - 1 / 2).
  Proof.
    intros HR Ha Hb N. unfold shear_candidate. rewrite coeff_stress by assumption. unfold is_at, delta. rewrite !Nat.eqb_refl.
    replace (b =? a)%nat with false by (symmetry; apply Nat.eqb_neq; congruence). replace (a =? b)%nat with false by (symmetry; apply Nat.eqb_neq; congruence).
    cbn [andb]. ring.
  Qed.
  Lemma dynamic_ok rho : rho <> 0 -> dynamic_viscosity D eqm ws wb rho = cs2 * carrier compr rho * (1 / ws - 1 / 2).
  Proof. intros HR. apply shear_ok; [exact HR|lia|lia|lia]. Qed.
  Lemma bulk_candidate_ok i k l rho : rho <> 0 -> (i < D)%nat -> (k < D)%nat -> (l < D)%nat ->
    bulk_candidate D eqm ws wb i k l rho = delta k l * (2 * cs2 * carrier compr rho / INR D * (1 / ws - 1 / wb)).
  Proof.
    intros HR Hi Hk Hl. unfold bulk_candidate. rewrite dynamic_ok, coeff_stress by assumption. unfold is_at, delta. rewrite Nat.eqb_refl.
    rewrite (Nat.eqb_sym i k), (Nat.eqb_sym i l). destruct (Nat.eqb_spec k i) as [->|N1], (Nat.eqb_spec l i) as [->|N2]; cbn [andb]; rewrite ?Nat.eqb_refl; unfold Rdiv; try ring;
    destruct (Nat.eqb k l), (Nat.eqb l k); ring.
  Qed.
End Hydro.
