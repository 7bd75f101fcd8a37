From Coq Require Import List ZArith Bool Arith Reals Lra Lia.
From Verif Require Import StencilModel RealLib LinLib EqModel EqSpec EqProofs TransModel TransSpec TransProofs CeModel CeSpec CeProofs CeProofs2 CeProofs3 CeProofs4 CeProofs5 StrainModel StrainSpec.
Import ListNotations.
Local Open Scope R_scope.

Lemma tensor_fsum f S a b : second_order_moment_tensor f S a b = second_moment f S a b.
Proof. unfold second_order_moment_tensor, second_moment, fsum. apply rsum_ext. intros [x c] _. cbn. ring. Qed.
Lemma fsum_sub f eq S rho u g : length f = length eq -> fsum (map (fun fe => fst fe - epoly_value rho u (snd fe)) (combine f eq)) S g = fsum f S g - fsum (map (epoly_value rho u) eq) S g.
Proof.
  unfold fsum. revert eq S. induction f as [|x f IH]; intros eq S L; destruct eq as [|e eq]; try discriminate; [cbn; ring|]. destruct S as [|c S]; [cbn; ring|].
  cbn [combine map fst snd]. rewrite !rsum_cons, IH by (cbn in L; lia). cbn [fst snd]. ring.
Qed.
Lemma fsum_add2 f h S g : length f = length h -> fsum (add2 f h) S g = fsum f S g + fsum h S g.
Proof.
  unfold fsum, add2. revert h S. induction f as [|x f IH]; intros h S L; destruct h as [|e h]; try discriminate; [cbn; ring|]. destruct S as [|c S]; [cbn; ring|].
  cbn [combine map fst snd]. rewrite !rsum_cons, IH by (cbn in L; lia). cbn [fst snd]. ring.
Qed.
Lemma add2_length f h : length f = length h -> length (add2 f h) = length f.
Proof. intros L. unfold add2. rewrite map_length, combine_length, <- L. lia. Qed.
Lemma grid_unique D i j i' j' : (j < D)%nat -> (j' < D)%nat -> (i * D + j = i' * D + j')%nat -> i = i' /\ j = j'.
Proof.
  intros H H' E. assert (N : D <> 0%nat) by lia. pose proof (Nat.div_add_l i D j N) as A. pose proof (Nat.div_add_l i' D j' N) as B. rewrite (Nat.div_small j D) in A by lia. rewrite (Nat.div_small j' D) in B by lia. rewrite E in A. assert (i = i') by lia. subst. lia.
Qed.

Lemma add_seq s z n : map (fun j => (s + j)%nat) (seq z n) = seq (s + z) n.
Proof. revert z. induction n as [|n IH]; intros z; [reflexivity|]. cbn [seq map]. rewrite IH. do 2 f_equal. lia. Qed.

Section Getter.
  Variables (S : stencil) (eq : list epoly) (compr : bool) (ws rho : R) (u : nat -> R) (f : list R).
  Hypothesis Hr : carrier compr rho <> 0.
  Let D := dimD S.
  Let v a b := - (3 / 2) * (ws / carrier compr rho) * (second_moment f S a b - epoly_value rho u (equilibrium_moment S eq [a; b])).
  Lemma getter_is : length f = length eq -> strain_rate_tensor_getter S eq compr ws rho u f = Some (flat_map (fun i => map (fun j => ((i * D + j)%nat, v i j)) (seq 0 D)) (seq 0 D)).
  Proof.
    intros L. unfold strain_rate_tensor_getter. fold (carrier compr rho). rewrite rdiv_ok by exact Hr. cbn [obind]. f_equal. rewrite !flat_map_concat_map. f_equal. apply map_ext. intros i. apply map_ext. intros j. f_equal. unfold v.
    rewrite tensor_fsum. unfold second_moment. rewrite fsum_sub by exact L. rewrite moment_value. rewrite (fsum_ext _ S (fun c => comp_product c [i; j]) (fun c => comp c i * comp c j)) by (intros; unfold comp_product; cbn; ring). reflexivity.
  Qed.
  Lemma getter_stored l a b w : length f = length eq -> (a < D)%nat -> (b < D)%nat -> strain_rate_tensor_getter S eq compr ws rho u f = Some l -> stored D l a b w <-> w = v a b.
  Proof.
    intros L Ha Hb. rewrite (getter_is L). intros [= <-]. unfold stored. split.
    - intros H. apply in_flat_map in H. destruct H as (i & Hi & H). apply in_map_iff in H. destruct H as (j & E & Hj). apply in_seq in Hi. apply in_seq in Hj. injection E as E1 E2.
      destruct (grid_unique D i j a b ltac:(lia) ltac:(lia) E1). subst. reflexivity.
    - intros ->. apply in_flat_map. exists a. split; [apply in_seq; lia|]. apply in_map_iff. exists b. split; [reflexivity|apply in_seq; lia].
  Qed.
  Lemma getter_indices l : length f = length eq -> strain_rate_tensor_getter S eq compr ws rho u f = Some l -> map fst l = seq 0 (D * D).
  Proof.
    intros L. rewrite (getter_is L). intros [= <-].
    assert (G : forall m, map fst (flat_map (fun i => map (fun j => ((i * D + j)%nat, v i j)) (seq 0 D)) (seq 0 m)) = seq 0 (m * D)); [|apply G].
    intros m. induction m as [|m IH]; [reflexivity|].
    rewrite seq_S, flat_map_app, map_app, IH. cbn [flat_map Nat.add]. rewrite app_nil_r, map_map. cbn [fst]. replace (Datatypes.S m * D)%nat with (m * D + D)%nat by lia. rewrite seq_app. f_equal. cbn [Nat.add].
    etransitivity; [apply (add_seq (m * D) 0 D)|]. rewrite Nat.add_0_r. reflexivity.
  Qed.
End Getter.

Section Strain.
  Variables (S : stencil) (ps : list poly) (Minv : mat) (rates : list R) (ws wb cs2 : R) (compr : bool) (eq : list epoly) (rest : nat -> nat -> nat -> epoly) (E : env) (f1 : list R).
  Hypothesis H : first_order S ps Minv rates ws wb cs2 compr eq rest E f1.
  Let D := dimD S.
  Let o1 := collision_operator (moment_matrix ps S (rzero D)) Minv rates f1.
  Let sg a b := cs2 * carrier compr (env_rho E) * (env_gu E a b + env_gu E b a) + dexp_value E (stress_errors D compr cs2 rest a b).
  Lemma o1_length : length o1 = length S.
  Proof. unfold o1, D. rewrite (fo_equation _ _ _ _ _ _ _ _ _ _ _ _ H). rewrite map_length, combine_length, (fo_eq _ _ _ _ _ _ _ _ _ _ _ _ H). lia. Qed.
  Lemma o1_moment a b : (a < D)%nat -> (b < D)%nat -> second_moment o1 S a b = sg a b.
  Proof.
    intros Ha Hb. destruct H as [A1 A2 A3 A4 A5 A6 A7 A8 A9 A10 A11 A12 A13 A14 A15 A16 A17 A18 A19].
    etransitivity; [exact (ups_ok S ps Minv rates cs2 compr eq rest E f1 A1 A2 A3 A4 A5 A7 A8 A9 A10 A13 A14 A18 A19 a b Ha Hb)|]. exact (upsilon_value D _ compr cs2 rest A7 E A8 a b Ha Hb).
  Qed.
  Lemma f1_moment a b : (a < D)%nat -> (b < D)%nat -> second_moment f1 S a b = - (1 / ws) * sg a b + delta a b * (1 / ws - 1 / wb) / INR D * rsum (map (fun c => sg c c) (seq 0 D)).
  Proof.
    intros Ha Hb. pose proof (o1_moment a b Ha Hb) as O. destruct H as [A1 A2 A3 A4 A5 A6 A7 A8 A9 A10 A11 A12 A13 A14 A15 A16 A17 A18 A19].
    assert (X : second_moment f1 S a b + 1 / 2 * second_moment o1 S a b = dexp_value E (viscous_stress D (equilibrium_moment S eq) (second_rate ws ws a b) wb compr a b)) by exact (stress_ok S ps Minv rates ws ws wb cs2 compr eq rest E f1 A1 A2 A3 A4 A5 A6 A7 A8 A9 A10 A11 A11 A12 A13 A14 A15 A16 A17 A18 A19 a b Ha Hb).
    replace (second_rate ws ws a b) with ws in X by (unfold second_rate; destruct (Nat.eqb a b); reflexivity).
    assert (Y : dexp_value E (viscous_stress D (equilibrium_moment S eq) ws wb compr a b) = - (1 / ws - 1 / 2) * sg a b + delta a b * (1 / ws - 1 / wb) / INR D * rsum (map (fun c => sg c c) (seq 0 D))) by exact (exact_stress D _ compr cs2 rest ws wb A7 E a b A8 Ha Hb).
    rewrite Y, O in X. clear Y O. generalize dependent (delta a b * (1 / ws - 1 / wb) / INR D * rsum (map (fun c => sg c c) (seq 0 D))). generalize (sg a b). intros y z X. lra.
  Qed.
  Definition strain_value (pre : bool) (a b : nat) : R :=
    3 / (2 * carrier compr (env_rho E)) * ((1 - if pre then 0 else ws) * sg a b - delta a b * (1 - ws / wb) / INR D * rsum (map (fun c => sg c c) (seq 0 D))).
  Lemma car_ne : carrier compr (env_rho E) <> 0.
  Proof. unfold carrier. destruct compr; [exact (fo_rho _ _ _ _ _ _ _ _ _ _ _ _ H)|lra]. Qed.
  Lemma getter_value pre : exists l, strain_rate_tensor_getter S eq compr ws (env_rho E) (env_u E) (getter_pdfs pre (pre_collision eq E f1) (post_collision S ps Minv rates eq E f1)) = Some l /\
    forall a b w, (a < D)%nat -> (b < D)%nat -> stored D l a b w <-> w = strain_value pre a b.
  Proof.
    set (f := getter_pdfs pre _ _).
    assert (L0 : length (equilibrium_values eq E) = length f1) by (unfold equilibrium_values; rewrite map_length, (fo_eq _ _ _ _ _ _ _ _ _ _ _ _ H), (fo_length _ _ _ _ _ _ _ _ _ _ _ _ H); reflexivity).
    assert (L1 : length (pre_collision eq E f1) = length S) by (unfold pre_collision; rewrite add2_length by exact L0; unfold equilibrium_values; rewrite map_length; exact (fo_eq _ _ _ _ _ _ _ _ _ _ _ _ H)).
    assert (L2 : length (post_collision S ps Minv rates eq E f1) = length S) by (unfold post_collision; rewrite add2_length; [exact L1|rewrite L1; symmetry; exact o1_length]).
    assert (L : length f = length eq) by (unfold f, getter_pdfs; destruct pre; rewrite (fo_eq _ _ _ _ _ _ _ _ _ _ _ _ H); assumption).
    eexists. split; [apply (getter_is S eq compr ws (env_rho E) (env_u E) f car_ne L)|]. intros a b w Ha Hb.
    refine (iff_trans (getter_stored S eq compr ws (env_rho E) (env_u E) f car_ne _ a b w L Ha Hb (getter_is S eq compr ws (env_rho E) (env_u E) f car_ne L)) _).
    assert (Q : second_moment f S a b - epoly_value (env_rho E) (env_u E) (equilibrium_moment S eq [a; b]) = second_moment f1 S a b + (if pre then 0 else second_moment o1 S a b)).
    { rewrite moment_value. replace (fsum (map (epoly_value (env_rho E) (env_u E)) eq) S (fun c => comp_product c [a; b])) with (second_moment (equilibrium_values eq E) S a b) by (unfold second_moment, equilibrium_values; apply fsum_ext; intros; unfold comp_product; cbn; ring).
      unfold f, getter_pdfs, post_collision, pre_collision, second_moment. fold D. fold o1. destruct pre.
      - rewrite fsum_add2 by exact L0. ring.
      - rewrite fsum_add2 by (rewrite add2_length by exact L0; unfold equilibrium_values; rewrite map_length, (fo_eq _ _ _ _ _ _ _ _ _ _ _ _ H); symmetry; exact o1_length). rewrite fsum_add2 by exact L0. ring. }
    rewrite Q, f1_moment, o1_moment by assumption. unfold strain_value.
    pose proof car_ne as N1. pose proof (fo_ws _ _ _ _ _ _ _ _ _ _ _ _ H) as N2. pose proof (fo_wb _ _ _ _ _ _ _ _ _ _ _ _ H) as N3. assert (N4 : INR D <> 0) by (apply not_0_INR; pose proof (fo_pos _ _ _ _ _ _ _ _ _ _ _ _ H); unfold D; lia).
    match goal with |- w = ?x <-> w = ?y => replace x with y; [reflexivity|] end. generalize (sg a b) (delta a b) (rsum (map (fun c => sg c c) (seq 0 D))). intros s d t. destruct pre; field; auto.
  Qed.
End Strain.

(* ---- states with given gradients exist ---- *)
Section Exists.
  Variables (S : stencil) (ps : list poly) (Minv : mat) (rates : list R) (ws wb cs2 : R) (compr : bool) (eq : list epoly) (rest : nat -> nat -> nat -> epoly) (E0 : env).
  Let D := dimD S.
  Hypothesis HS : Forall (fun c => length c = D) S.
  Hypothesis Lp : length ps = length S.
  Hypothesis Lr : length rates = length S.
  Hypothesis HI : is_inverse (length S) (moment_matrix ps S (rzero D)) Minv.
  Hypothesis HD : (0 < D)%nat.
  Hypothesis HY : hydrodynamic D (equilibrium_moment S eq) compr cs2 rest.
  Hypothesis HR : env_rho E0 <> 0.
  Hypothesis Leq : length eq = length S.
  Hypothesis Hx : forall x, In x rates -> x <> 0.
  Hypothesis Hws : ws <> 0.
  Hypothesis Hwb : wb <> 0.
  Hypothesis R0 : exists w, w <> 0 /\ relaxes_with S ps rates w (fun _ => 1).
  Hypothesis R1 : forall a, (a < D)%nat -> exists w, w <> 0 /\ relaxes_with S ps rates w (fun c => comp c a).
  Hypothesis Rm : forall a b, (a < D)%nat -> (b < D)%nat -> a <> b -> relaxes_with S ps rates ws (fun c => comp c a * comp c b).
  Hypothesis Rd : forall a b, (a < D)%nat -> (b < D)%nat -> relaxes_with S ps rates ws (fun c => comp c a ^ 2 - comp c b ^ 2).
  Hypothesis Rt : relaxes_with S ps rates wb (fun c => rsum (map (fun a => comp c a ^ 2) (seq 0 D))).
  Let eqm := equilibrium_moment S eq.
  Let E := solved_env D eqm compr E0.
  Let T := map (fun pc => direction_transport D E (snd pc) (fst pc)) (combine eq S).
  Lemma T_mass : fsum T S (fun _ => 1) = 0.
  Proof.
    transitivity (fsum T S (fun c => comp_product c [])); [apply fsum_ext; reflexivity|]. rewrite (transport_moment S eq E T Leq eq_refl []). cbn [app]. fold D eqm.
    assert (A : dexp_value E (diff_poly None (eqm [])) = env_tr E).
    { rewrite (diff_ext E None (eqm []) [(1, 1%nat, [])]); [rewrite diff_poly_value; cbn; unfold uprod; cbn; ring|]. intros rho u. unfold eqm. rewrite (hyd_density _ _ _ _ _ HY). unfold epoly_value. cbn. ring. }
    rewrite A. rewrite (rsum_ext (fun c => dexp_value E (diff_poly (Some c) (eqm [c]))) (fun c => dexp_value E0 (diff_poly (Some c) (eqm [c])))) by (intros c _; apply solved_some). unfold E. cbn [solved_env env_tr]. unfold solved_rho. rewrite dneg_value, dexp_flat. ring.
  Qed.
  Lemma T_momentum a : (a < D)%nat -> fsum T S (fun c => comp c a) = 0.
  Proof.
    intros Ha. transitivity (fsum T S (fun c => comp_product c [a])); [apply fsum_ext; intros; unfold comp_product; cbn; ring|]. rewrite (transport_moment S eq E T Leq eq_refl [a]). cbn [app]. fold D eqm.
    rewrite (d1_value D eqm compr cs2 rest HY E None a Ha). unfold dcar. cbn [diff_rho diff_u sym_value].
    rewrite (rsum_ext (fun c => dexp_value E (diff_poly (Some c) (eqm [a; c]))) (fun c => dexp_value E0 (diff_poly (Some c) (eqm [a; c])))) by (intros c _; apply solved_some).
    assert (HF : dexp_value E0 (momentum_flux D eqm a) = - rsum (map (fun c => dexp_value E0 (diff_poly (Some c) (eqm [a; c]))) (seq 0 D))) by (unfold momentum_flux; rewrite dneg_value, dexp_flat; reflexivity).
    unfold E. cbn [solved_env env_tr env_tu env_u env_rho]. unfold solved_u. unfold carrier. destruct compr.
    - rewrite dmul_value, dexp_app, dneg_value, dmul_value, HF by exact HR.
      replace (dexp_value E0 [(1, (-1)%Z, [])]) with (/ env_rho E0) by (unfold dexp_value; cbn; change (Pos.to_nat 1) with 1%nat; cbn [pow]; field; exact HR).
      replace (dexp_value E0 [(1, 0%Z, [SU a])]) with (env_u E0 a) by (unfold dexp_value; cbn; ring). field. exact HR.
    - rewrite HF. ring.
  Qed.
  Lemma states : exists f1, first_order S ps Minv rates ws wb cs2 compr eq rest E f1.
  Proof.
    assert (LT : length T = length S) by (unfold T; rewrite map_length, combine_length, Leq; lia).
    destruct (first_order_exists (length S) _ Minv rates T HI Lr LT Hx) as (f1 & L1 & O1). exists f1.
    assert (Z : forall w g, w <> 0 -> relaxes_with S ps rates w g -> fsum T S g = 0 -> fsum f1 S g = 0).
    { intros w g Hw Hr HT. pose proof (relaxed D (length S) S ps Minv rates HS eq_refl Lp Lr HI w g f1 Hr L1) as Q. rewrite O1, HT in Q. symmetry in Q. apply Rmult_integral in Q. destruct Q; [lra|assumption]. }
    constructor; try assumption.
    - destruct R0 as (w & _ & Q). exists w. exact Q.
    - intros a Ha. destruct (R1 a Ha) as (w & _ & Q). exists w. exact Q.
    - destruct R0 as (w & Hw & Q). exact (Z w _ Hw Q T_mass).
    - intros a Ha. destruct (R1 a Ha) as (w & Hw & Q). exact (Z w _ Hw Q (T_momentum a Ha)).
  Qed.
End Exists.

(* ---- the error terms vanish where the fluid is at rest ---- *)
Lemma errors_at_rest D compr cs2 E a b : (forall i, env_u E i = 0) -> dexp_value E (stress_errors D compr cs2 (fun _ _ _ => []) a b) = 0.
Proof.
  intros U. unfold stress_errors. rewrite dexp_app, dexp_flat. rewrite (rsum_ext _ (fun _ => 0)) by reflexivity. rewrite rsum_zero, Rplus_0_l.
  destruct compr.
  - rewrite dneg_value, dexp_flat. rewrite (rsum_ext _ (fun _ => 0)); [rewrite rsum_zero; ring|]. intros c _. rewrite diff_poly_value. cbn. unfold uprod. cbn. rewrite !U. ring.
  - unfold dneg, dscale. unfold dexp_value. rewrite map_map. match goal with |- rsum (map ?g ?l) = 0 => assert (Z : forall t, In t l -> g t = 0) end.
    + intros t Ht. apply in_app_or in Ht. destruct Ht as [Ht|Ht]; [|apply in_app_or in Ht; destruct Ht as [Ht|[<-|[<-|[]]]]; [|cbn; rewrite !U; ring|cbn; rewrite !U; ring]];
        (unfold dmul in Ht; cbn [flat_map] in Ht; rewrite app_nil_r in Ht; apply in_map_iff in Ht; destruct Ht as ([[c k] l] & <- & _); cbn; rewrite !U; ring).
    + etransitivity; [apply rsum_ext; exact Z|apply rsum_zero].
Qed.
