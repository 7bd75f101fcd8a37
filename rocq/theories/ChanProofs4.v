(* Weights of the predefined stencils; moment collisions in a flow parallel to walls. *)
From Coq Require Import String List ZArith Bool Arith QArith Qreals Reals Lra Lia.
From Verif Require Import StencilModel StencilProofs StencilProofs2 RealLib LinLib TransSpec TransModel TransProofs MomModel EqModel EqSpec EqProofs PropsEq CollSpec CollModel CollProofs CollProofs2 CollProofs3 CollProofs4
  CollProofs5 CollProofs7 ModeProofs2 ChanSpec ChanProofs3 PropsTrans PropsColl.
Import ListNotations.
Local Open Scope R_scope.

(* ---- the weights of the predefined stencils ---- *)
Definition exps_of (D : nat) (l : list nat) : list nat := fold_right (fun a e => tuple_add (CollModel.unit_tuple D a) e) (zero_tuple D) l.
Lemma exps_of_length D l : length (exps_of D l) = D.
Proof. induction l as [|a l IH]; cbn [exps_of fold_right]; [apply zero_tuple_length|]. fold (exps_of D l). rewrite tuple_add_length; rewrite unit_tuple_length; auto. Qed.
Lemma nth_exps_of D l i : (i < D)%nat -> nth i (exps_of D l) 0%nat = count_occ Nat.eq_dec l i.
Proof.
  intros Hi. induction l as [|a l IH]; cbn [exps_of fold_right count_occ]; [apply nth_zero_tuple|]. fold (exps_of D l).
  rewrite nth_tuple_add, nth_unit, IH by (rewrite ?unit_tuple_length, ?exps_of_length; auto). destruct (Nat.eqb_spec i a), (Nat.eq_dec a i); congruence || reflexivity || lia.
Qed.
Lemma monomial_rmono c e : monomial c e = rmono (vecR c) e.
Proof. revert e; induction c as [|x c IH]; intros [|n e]; cbn; auto. now rewrite IH. Qed.
Lemma raw_exps_of D S f l : Forall (fun c => length c = D) S -> Forall (fun a => (a < D)%nat) l -> raw_moment f S (exps_of D l) = fsum f S (fun c => fold_right (fun a r => comp c a * r) 1 l).
Proof.
  intros HD Hl. apply fsum_ext. intros c Hc. rewrite monomial_rmono. induction Hl as [|a l Ha Hl IH]; cbn [exps_of fold_right]; [apply rmono_zero|]. fold (exps_of D l).
  rewrite rmono_add by (rewrite ?unit_tuple_length, ?exps_of_length; auto). now rewrite (rmono_unit_c D S HD), IH.
Qed.
Lemma exists_odd e : Nat.odd (nsum e) = true -> Exists (fun n => Nat.odd n = true) e.
Proof.
  induction e as [|x e IH]; [discriminate|]. change (nsum (x :: e)) with (x + nsum e)%nat. rewrite Nat.odd_add. intros H.
  destruct (Nat.odd x) eqn:E; [now constructor|]. apply Exists_cons_tl, IH. rewrite <- H. now destruct (Nat.odd (nsum e)).
Qed.
Lemma nsum_tuple_add a b : length a = length b -> nsum (tuple_add a b) = (nsum a + nsum b)%nat.
Proof.
  revert b; induction a as [|x a IH]; intros [|y b] H; try discriminate; [reflexivity|]. change (nsum (tuple_add (x :: a) (y :: b))) with ((x + y) + nsum (tuple_add a b))%nat.
  rewrite IH by (cbn in H; lia). change (nsum (x :: a)) with (x + nsum a)%nat. change (nsum (y :: b)) with (y + nsum b)%nat. lia.
Qed.
Lemma nsum_zero D : nsum (zero_tuple D) = 0%nat.
Proof. induction D as [|D IH]; [reflexivity|]. exact IH. Qed.
Lemma nsum_unit D : forall a, (a < D)%nat -> nsum (CollModel.unit_tuple D a) = 1%nat.
Proof.
  induction D as [|D IH]; intros a Ha; [lia|]. destruct a as [|a].
  - rewrite unit_tuple_0. change (nsum (1%nat :: zero_tuple D)) with (1 + nsum (zero_tuple D))%nat. now rewrite nsum_zero.
  - rewrite unit_tuple_S. change (nsum (0%nat :: CollModel.unit_tuple D a)) with (nsum (CollModel.unit_tuple D a)). apply IH. lia.
Qed.
Lemma nsum_exps_of D l : Forall (fun a => (a < D)%nat) l -> nsum (exps_of D l) = length l.
Proof.
  induction 1 as [|a l Ha Hl IH]; cbn [exps_of fold_right]; [apply nsum_zero|]. fold (exps_of D l).
  rewrite nsum_tuple_add, IH, nsum_unit by (rewrite ?unit_tuple_length, ?exps_of_length; auto). reflexivity.
Qed.
Lemma predefined_wall name ord S ws b : predefined_stencils name ord = Ok S -> get_weights S = Ok ws -> sizeQ S <> 7%nat -> (b < dimD S)%nat -> wall_weights (dimD S) b S (map Q2R ws).
Proof.
  intros HS Hw H7 Hb. destruct (weights_isotropic _ _ _ _ HS Hw) as (Hdim & HI).
  assert (M : forall l, Forall (fun a => (a < dimD S)%nat) l -> fsum (map Q2R ws) S (fun c => fold_right (fun a r => comp c a * r) 1 l) = raw_moment (map Q2R ws) S (exps_of (dimD S) l))
    by (intros l Hl; symmetry; apply raw_exps_of; assumption).
  assert (O : forall l i, Forall (fun a => (a < dimD S)%nat) l -> (i < dimD S)%nat -> Nat.odd (count_occ Nat.eq_dec l i) = true -> fsum (map Q2R ws) S (fun c => fold_right (fun a r => comp c a * r) 1 l) = 0).
  { intros l i Hl Hi Hodd. rewrite M by exact Hl. apply (C09_all_moments name ord S ws _ HS Hw (exps_of_length _ _)). apply Exists_exists.
    exists (nth i (exps_of (dimD S) l) 0%nat). split; [apply nth_In; rewrite exps_of_length; exact Hi|]. rewrite nth_exps_of by exact Hi. exact Hodd. }
  split.
  - exact HI.
  - intros a d Ha Hd Hab Hdb.
    rewrite (fsum_ext _ _ _ (fun c => fold_right (fun a r => comp c a * r) 1 [a; d; b; b])) by (intros; cbn [fold_right]; ring).
    assert (Hl : Forall (fun x => (x < dimD S)%nat) [a; d; b; b]) by (repeat constructor; assumption).
    destruct (Nat.eq_dec a d) as [<-|N].
    + rewrite M by exact Hl. destruct (C09_all_moments name ord S ws _ HS Hw (exps_of_length (dimD S) [a; a; b; b])) as [_ HE].
      assert (HEv : Forall (fun n => Nat.odd n = false) (exps_of (dimD S) [a; a; b; b])).
      { apply Forall_forall. intros n Hn. apply (In_nth _ _ 0%nat) in Hn as (i & Hi & <-). rewrite exps_of_length in Hi. rewrite nth_exps_of by exact Hi. cbn [count_occ].
        destruct (Nat.eq_dec a i), (Nat.eq_dec b i); reflexivity. }
      specialize (HE HEv).
      assert (C : length (filter (fun n => negb (Nat.eqb n 0)) (exps_of (dimD S) [a; a; b; b])) = 2%nat).
      { assert (HD : dimD S = 2%nat \/ dimD S = 3%nat) by (destruct (iso_facts name ord S HS (has_weights_of _ _ _ _ HS Hw)) as (_ & _ & HD & _); exact HD). clear - HD Ha Hb Hab.
        destruct HD as [E|E]; rewrite E in *; destruct a as [|[|[|a]]], b as [|[|[|b]]]; try lia; reflexivity. }
      rewrite C in HE. rewrite HE. destruct (Nat.eqb_spec (sizeQ S) 7); [contradiction|]. unfold delta. rewrite Nat.eqb_refl. field.
    + rewrite (O _ a Hl Ha).
      * unfold delta. destruct (Nat.eqb_spec a d); [contradiction|field].
      * cbn [count_occ]. destruct (Nat.eq_dec a a), (Nat.eq_dec d a), (Nat.eq_dec b a); try congruence; reflexivity.
  - intros a d e Ha Hd He Hab Hdb Heb.
    rewrite (fsum_ext _ _ _ (fun c => fold_right (fun a r => comp c a * r) 1 [a; b; d; e])) by (intros; cbn [fold_right]; ring).
    apply (O _ b); [repeat constructor; assumption|exact Hb|]. cbn [count_occ]. destruct (Nat.eq_dec a b), (Nat.eq_dec b b), (Nat.eq_dec d b), (Nat.eq_dec e b); try congruence; reflexivity.
  - intros a d e Ha Hd He.
    rewrite (fsum_ext _ _ _ (fun c => fold_right (fun a r => comp c a * r) 1 [a; b; b; d; e])) by (intros; cbn [fold_right]; ring).
    assert (Hl : Forall (fun x => (x < dimD S)%nat) [a; b; b; d; e]) by (repeat constructor; assumption).
    rewrite M by exact Hl. apply (C09_all_moments name ord S ws _ HS Hw (exps_of_length _ _)). apply exists_odd. rewrite nsum_exps_of by exact Hl. reflexivity.
Qed.

(* ---- one rate per exponent ---- *)
Section Rates.
  Context (ps : list poly) (d : list R) (r : list nat -> R).
  Hypothesis HR : rates_by_exponent ps d r.
  Lemma nth_values' g i : (i < length ps)%nat -> exists p, nth_error ps i = Some p /\ nth i (equilibrium_values ps g) 0 = poly_value g p.
  Proof. intros Hi. destruct (nth_error ps i) as [p|] eqn:E; [|apply nth_error_None in E; lia]. exists p. split; [reflexivity|]. now apply nth_values. Qed.
  Lemma values_rates (F : R -> R) g : rmul (map F d) (equilibrium_values ps g) = equilibrium_values ps (fun e => F (r e) * g e).
  Proof.
    destruct HR as [HL HE]. apply list_ext; [rewrite rmul_length, map_length, !values_length; lia|]. rewrite rmul_length, map_length, values_length. intros i Hi.
    rewrite nth_rmul by (rewrite map_length, values_length; lia). destruct (nth_values' g i ltac:(lia)) as (p & Ep & ->). rewrite (nth_values ps _ i p Ep).
    rewrite (nth_indep _ 0 (F 0)) by (rewrite map_length; lia). rewrite map_nth. unfold poly_value. rewrite <- rsum_scal. apply rsum_ext. intros t Ht. rewrite (HE i p t Ep Ht). ring.
  Qed.
  Lemma values_plus g h : radd (equilibrium_values ps g) (equilibrium_values ps h) = equilibrium_values ps (fun e => g e + h e).
  Proof.
    apply list_ext; [rewrite radd_length, !values_length; lia|]. rewrite radd_length, !values_length. intros i Hi. rewrite nth_radd by (rewrite !values_length; lia).
    destruct (nth_values' g i ltac:(lia)) as (p & Ep & ->). rewrite !(nth_values ps _ i p Ep). unfold poly_value. rewrite <- rsum_plus. apply rsum_ext. intros; ring.
  Qed.
  Lemma values_minus g h : rsub (equilibrium_values ps g) (equilibrium_values ps h) = equilibrium_values ps (fun e => g e - h e).
  Proof.
    apply list_ext; [rewrite rsub_length, !values_length; lia|]. rewrite rsub_length, !values_length. intros i Hi. rewrite nth_rsub by (rewrite !values_length; lia).
    destruct (nth_values' g i ltac:(lia)) as (p & Ep & ->). rewrite !(nth_values ps _ i p Ep). unfold poly_value. rewrite <- rsum_minus. apply rsum_ext. intros; ring.
  Qed.
  Lemma values_moments f S u : map (poly_moment f S u) ps = equilibrium_values ps (central_moment f S u).
  Proof. apply map_ext. intros p. apply poly_moment_value. Qed.
  Lemma values_zero : rzero (length ps) = equilibrium_values ps (fun _ => 0).
  Proof.
    apply list_ext; [now rewrite rzero_length, values_length|]. rewrite rzero_length. intros i Hi. rewrite nth_rzero. destruct (nth_values' (fun _ => 0) i Hi) as (p & Ep & ->).
    unfold poly_value. rewrite (rsum_ext _ (fun _ => 0)), rsum_zero; [reflexivity|]. intros; ring.
  Qed.
  Lemma relax_values eq h : relax d (equilibrium_values ps eq) (equilibrium_values ps h) = equilibrium_values ps (fun e => h e + r e * (eq e - h e)).
  Proof. unfold relax. rewrite values_minus. rewrite <- (map_id d) at 1. rewrite (values_rates (fun x => x)), values_plus. reflexivity. Qed.
  Lemma values_ext g h : (forall e, g e = h e) -> equilibrium_values ps g = equilibrium_values ps h.
  Proof. intros E. apply map_ext. intros p. unfold poly_value. apply rsum_ext. intros; now rewrite E. Qed.
End Rates.

Section Collision.
  Context (name ord : string) (S : stencil) (ws : list Q) (exps : list (list nat)) (ps : list poly) (P Minv Pinv Mpinv : mat).
  Context (zc dev compr : bool) (eqm : R -> list R -> list nat -> R) (fwd bwd : list R -> res (list R)) (d : list R) (r : list nat -> R) (b : nat).
  Notation D := (dimD S).
  Notation n := (sizeQ S).
  Notation w := (background S ws zc dev).
  Hypothesis HS : method_setup name ord S ws exps ps P Minv Pinv Mpinv.
  Hypothesis HT : raw_transform S exps ps P Minv Pinv Mpinv w fwd bwd.
  Hypothesis HR : rates_by_exponent ps d r.
  Hypothesis Hdz : dev = true -> zc = true.
  Hypothesis H7 : n <> 7%nat.
  Hypothesis Hb : (b < D)%nat.
  Hypothesis HE : shear_equilibrium D b compr dev eqm.

  Let Hps : length ps = n. Proof. apply (setup_facts _ _ _ _ _ _ _ _ _ _ HS). Qed.
  Let Hdim : Forall (fun c => length c = D) S. Proof. apply (setup_facts _ _ _ _ _ _ _ _ _ _ HS). Qed.
  Let HW : wall_weights D b S (map Q2R ws).
  Proof. destruct HS. eapply predefined_wall; eauto. Qed.
  Let HTr : moment_transform n S ps w (rzero D) fwd bwd.
  Proof. eapply raw_transform_ok; eauto. destruct HS. eapply background_length; eauto. Qed.
  Let Hw : length w = n. Proof. destruct HS. eapply background_length; eauto. Qed.
  Let Hd : length d = n. Proof. destruct HR. congruence. Qed.

  Lemma determined f h e : length f = n -> map (poly_moment f S (rzero D)) ps = equilibrium_values ps h -> In e exps -> central_moment f S (rzero D) e = h e.
  Proof.
    intros Hf E He. destruct HS as [Hpre _ [M1 M2 M3 M4 M5 M6 M7] _ HPi _ _]. rewrite values_moments in E.
    destruct (mono_to_poly_spec exps ps P (central_moment f S (rzero D)) M5 M6 M7) as [WP E1]. destruct (mono_to_poly_spec exps ps P h M5 M6 M7) as [_ E2].
    assert (EP : mv P (map (central_moment f S (rzero D)) exps) = mv P (map h exps)) by (rewrite E1, E2; exact E).
    destruct HPi as (W1 & W2 & I1 & I2).
    assert (Ln : length exps = n).
    { destruct WP as [L1 L2], W1 as [L3 L4]. destruct P as [|row P'].
      - exfalso. cbn in L3. destruct (predefined_wf _ _ _ Hpre) as ((HN & _) & _). apply HN. apply length_zero_iff_nil. symmetry. exact L3.
      - apply Forall_inv in L2, L4. cbn beta in *. congruence. }
    apply (f_equal (mv Pinv)) in EP. rewrite !I2 in EP by (rewrite map_length; exact Ln).
    apply (In_nth _ _ []) in He as (i & Hi & <-). assert (En : nth i (map (central_moment f S (rzero D)) exps) 0 = nth i (map h exps) 0) by now rewrite EP.
    rewrite (nth_indep _ 0 (central_moment f S (rzero D) [])) in En by (rewrite map_length; exact Hi). rewrite map_nth in En.
    rewrite (nth_indep (map h exps) 0 (h [])) in En by (rewrite map_length; exact Hi). rewrite map_nth in En. exact En.
  Qed.

  Definition shift_of (force : option (force_model * list R)) : R := match force with Some (fm, _) => if shifts_equilibrium fm then 1 / 2 else 0 | None => 0 end.
  Lemma half_values G : half_relaxed d (equilibrium_values ps G) = equilibrium_values ps (fun e => (1 - 1 / 2 * r e) * G e).
  Proof. unfold half_relaxed. apply (values_rates ps d r HR (fun x => 1 - 1 / 2 * x)). Qed.
  Lemma factor_values G : rmul (shan_chen_factor d) (equilibrium_values ps G) = equilibrium_values ps (fun e => / (1 / 3) * (1 - 1 / 2 * r e) * G e).
  Proof. unfold shan_chen_factor. apply (values_rates ps d r HR (fun x => / (1 / 3) * (1 - 1 / 2 * x))). Qed.
  Lemma factor_square : rmul (shan_chen_factor d) (shan_chen_factor d) = map (fun x => (/ (1 / 3) * (1 - 1 / 2 * x)) * (/ (1 / 3) * (1 - 1 / 2 * x))) d.
  Proof. unfold shan_chen_factor, rmul. clear. induction d as [|x l IH]; [reflexivity|]. cbn [map combine]. f_equal. apply IH. Qed.
  Lemma M_values phi : mv (moment_matrix ps S (rzero D)) phi = equilibrium_values ps (central_moment phi S (rzero D)).
  Proof. rewrite mv_moment_matrix. apply values_moments. Qed.
  Lemma eq_terms rho u : length u = D -> exists p, raw_equilibrium_populations ps eqm bwd rho u = Ok p /\ length p = n /\ map (poly_moment (radd p w) S (rzero D)) ps = equilibrium_values ps (eqm rho u).
  Proof. intros Hu. unfold raw_equilibrium_populations. destruct HTr as (_ & HB & _). apply HB. rewrite values_length. exact Hps. Qed.

  Lemma forcing fm F rho u : length F = D -> nth b F 0 = 0 -> fm <> CentralMoment -> length u = D -> nth b u 0 = 0 -> reference_density compr rho <> 0 ->
    exists G, space_forcing fm D S ps (moment_matrix ps S (rzero D)) (fun m => m) (map Q2R ws) d (raw_equilibrium_populations ps eqm bwd rho) compr rho u F = Ok (equilibrium_values ps G) /\
      shear_source D b F (fun e => 1 - (if shifts_equilibrium fm then 1 / 2 else 0) * r e) G.
  Proof.
    intros HF HFb Hfm Hu Hub Href. pose proof (simple_source D b S (map Q2R ws) F u Hdim Hb HW HF HFb Hu) as Ss. pose proof (luo_source D b S (map Q2R ws) F u Hdim Hb HW HF HFb Hu Hub) as Sl.
    assert (Sh : forall G, shear_source D b F (fun _ => 1) G -> shear_source D b F (fun e => 1 - 1 / 2 * r e) (fun e => (1 - 1 / 2 * r e) * G e)).
    { intros G HG. eapply shear_ext; [|apply (shear_scale D b F _ (fun e => 1 - 1 / 2 * r e) G HG)]. intros; cbv beta; ring. }
    assert (Sn : forall G, shear_source D b F (fun _ => 1) G -> shear_source D b F (fun e => 1 - 0 * r e) G).
    { intros G HG. eapply shear_ext; [|exact HG]. intros; cbv beta; ring. }
    destruct fm; cbn [space_forcing shifts_equilibrium]; rewrite ?HF, ?Nat.eqb_refl; try contradiction.
    - eexists. split; [rewrite M_values; reflexivity|auto].
    - eexists. split; [rewrite M_values; reflexivity|auto].
    - eexists. split; [rewrite M_values, half_values; reflexivity|auto].
    - eexists. split; [rewrite half_values; reflexivity|]. apply Sh. rewrite <- Hu. apply he_source; rewrite ?Hu; auto.
    - eexists. split; [rewrite M_values, half_values; reflexivity|auto].
    - unfold edm_terms. set (u' := radd u _).
      assert (Hu' : length u' = D) by (unfold u'; rewrite radd_length, map_length; lia).
      assert (Nu' : forall a, (a < D)%nat -> nth a u' 0 = nth a u 0 + nth a F 0 / reference_density compr rho).
      { intros a Ha. unfold u'. rewrite nth_radd by (rewrite map_length; lia). f_equal. replace 0 with (0 / reference_density compr rho) at 1 by (field; exact Href). apply (map_nth (fun x => x / reference_density compr rho)). }
      destruct (eq_terms rho u' Hu') as (p' & E1 & L1 & M1). destruct (eq_terms rho u Hu) as (p & E2 & L2 & M2). rewrite E1. cbn [rbind]. rewrite E2. cbn [rbind].
      exists (fun e => eqm rho u' e - eqm rho u e). split.
      + f_equal. rewrite mv_moment_matrix, <- values_minus, <- M1, <- M2. apply list_ext; [rewrite rsub_length, !map_length; lia|]. rewrite map_length. intros i Hi.
        rewrite nth_rsub by (rewrite !map_length; lia). destruct (nth_error ps i) as [q|] eqn:E; [|apply nth_error_None in E; lia].
        rewrite !(nth_error_nth _ _ _ (map_nth_error _ _ _ E)), !(poly_fsum D) by exact Hdim. rewrite fsum_rsub, !fsum_radd by lia. ring.
      + apply Sn. destruct HE as [HH HS2]. destruct (HH rho u Hu) as [Z1 U1]. destruct (HH rho u' Hu') as [Z2 U2].
        assert (Hub' : nth b u' 0 = 0) by (rewrite Nu', Hub, HFb by exact Hb; field; exact Href).
        destruct (HS2 rho u Hu Hub) as [B1 A1]. destruct (HS2 rho u' Hu' Hub') as [B2 A2]. unfold shear_source.
        change (zero_tuple D) with (zero_exponents D). change (CollModel.unit_tuple D b) with (unit_exponents D b).
        split; [rewrite Z1, Z2; ring|]. split; [rewrite U1, U2, Hub, Hub' by exact Hb; ring|]. split; [rewrite B1, B2; ring|].
        intros a Ha Hab. destruct (A1 a Ha Hab) as [A11 A12]. destruct (A2 a Ha Hab) as [A21 A22]. change (CollModel.unit_tuple D a) with (unit_exponents D a).
        rewrite U1, U2, A11, A12, A21, A22, Nu' by exact Ha. unfold reference_density in *. repeat split; try (destruct compr; field; exact Href).
    - eexists. split; [rewrite !M_values, factor_square, factor_values, (values_rates ps d r HR (fun x => (/ (1 / 3) * (1 - 1 / 2 * x)) * (/ (1 / 3) * (1 - 1 / 2 * x)))), values_plus; reflexivity|].
      eapply shear_ext; [|apply shear_plus; apply shear_scale; [apply linear_source|apply (nonlinear_source _ _ _ _ _ u)]; auto]. intros e. cbv beta. field.
  Qed.

  Lemma background_moments : density w S = (if zc then 1 else 0) - (if dev then 1 else 0) /\ momentum w S b = 0 /\ second_moment w S b b = ((if zc then 1 else 0) - (if dev then 1 else 0)) / 3 /\
    forall a, (a < D)%nat -> a <> b -> momentum w S a = 0 /\ second_moment w S a b = 0 /\ third_moment w S a b = 0.
  Proof.
    unfold background. destruct HW as [(IL & I0 & I1 & I2 & I3) _ _ _]. destruct (zc && negb dev)%bool eqn:E.
    - apply andb_true_iff in E as [-> E]. destruct dev; [discriminate|]. split; [rewrite I0; ring|]. split; [apply I1; exact Hb|].
      split; [rewrite I2 by exact Hb; unfold delta; rewrite Nat.eqb_refl; field|]. intros a Ha Hab. split; [apply I1; exact Ha|].
      split; [rewrite I2 by auto; unfold delta; destruct (Nat.eqb_spec a b); [contradiction|field]|]. unfold third_moment. apply I3; auto.
    - assert (Z : (if zc then 1 else 0) - (if dev then 1 else 0) = 0).
      { destruct zc, dev; try discriminate E; try ring. specialize (Hdz eq_refl). discriminate. }
      rewrite Z. unfold density, momentum, second_moment, third_moment. rewrite !fsum_rzero. split; [reflexivity|]. split; [reflexivity|]. split; [field|].
      intros. rewrite !fsum_rzero. auto.
  Qed.

  Lemma moment_shear force q f :
    (forall fm F, force = Some (fm, F) -> fm <> CentralMoment /\ length F = D /\ nth b F 0 = 0) ->
    In (zero_tuple D) exps -> (forall a, (a < D)%nat -> In (CollModel.unit_tuple D a) exps) -> In (exp_ab D b b) exps ->
    (forall a, (a < D)%nat -> a <> b -> In (exp_ab D a b) exps /\ In (exp_abb D a b) exps) ->
    (compr = true -> (if zc then 1 else 0) + q <> 0) -> at_rest_across S b q f ->
    exists f', moment_collision D S ps zc compr eqm (map Q2R ws) (moment_matrix ps S (rzero D)) fwd bwd d force f = Ok f' /\ at_rest_across S b q f' /\
      forall a, (a < D)%nat -> a <> b ->
        momentum f' S a = momentum f S a + nth a (force_vector D force) 0 /\
        second_moment f' S a b = (1 - r (exp_ab D a b)) * second_moment f S a b /\
        third_moment f' S a b = third_moment f S a b + r (exp_abb D a b) * (momentum f S a / 3 - third_moment f S a b) + nth a (force_vector D force) 0 / 3.
  Proof.
    intros Hfo Xz Xu Xbb Xab Hq (Lf & Q0 & Qb & Qbb). unfold moment_collision. set (rho := pdf_density zc f). set (u := equilibrium_velocity D S zc compr force f).
    assert (HFl : forall fm F, force = Some (fm, F) -> length F = D) by (intros fm F E; apply (Hfo fm F E)).
    assert (Er : rho = (if zc then 1 else 0) + q) by (unfold rho, pdf_density; rewrite <- (density_rsum S f Lf), Q0; reflexivity).
    assert (Href : reference_density compr rho <> 0) by (apply reference_nonzero; rewrite Er; exact Hq).
    assert (Hu : length u = D) by (apply velocity_length; exact HFl).
    assert (Nu : forall a, (a < D)%nat -> reference_density compr rho * nth a u 0 = momentum f S a + shift_of force * nth a (force_vector D force) 0).
    { intros a Ha. unfold u, rho. rewrite velocity_nth by auto. unfold shift_of, force_vector. destruct force as [[fm F]|]; [destruct (shifts_equilibrium fm); field|rewrite nth_rzero; ring]. }
    assert (Fb : nth b (force_vector D force) 0 = 0) by (unfold force_vector; destruct force as [[fm F]|]; [apply (Hfo fm F eq_refl)|apply nth_rzero]).
    assert (Hub : nth b u 0 = 0).
    { pose proof (Nu b Hb) as E. rewrite Qb, Fb in E. apply (Rmult_eq_reg_l (reference_density compr rho)); [lra|exact Href]. }
    assert (HG : exists G, match force with None => Ok (rzero (length S)) | Some (fm, F) => space_forcing fm D S ps (moment_matrix ps S (rzero D)) (fun m => m) (map Q2R ws) d (raw_equilibrium_populations ps eqm bwd rho) compr rho u F end
        = Ok (equilibrium_values ps G) /\ shear_source D b (force_vector D force) (fun e => 1 - shift_of force * r e) G).
    { destruct force as [[fm F]|].
      - destruct (Hfo fm F eq_refl) as (N1 & N2 & N3). apply forcing; auto.
      - exists (fun _ => 0). split; [f_equal; rewrite <- values_zero, Hps; reflexivity|]. unfold shear_source, force_vector. repeat split; rewrite ?nth_rzero; field. }
    destruct HG as (G & EG & (G0 & Gb & Gbb & GA)). rewrite EG. cbn [rbind]. unfold collide. destruct HTr as (HF & HB & _). rewrite HF by exact Lf. cbn [rbind].
    rewrite values_moments, (relax_values ps d r HR), values_plus. set (h := fun e => _ + G e).
    destruct (HB (equilibrium_values ps h)) as (f' & E1 & E2 & E3); [rewrite values_length; exact Hps|]. exists f'. split; [exact E1|].
    assert (Lfw : length (radd f' w) = n) by (rewrite radd_length; lia).
    assert (V : forall e, In e exps -> central_moment (radd f' w) S (rzero D) e = h e) by (intros e He; apply determined; auto).
    assert (Q : forall e, central_moment (radd f w) S (rzero D) e = central_moment f S (rzero D) e + central_moment w S (rzero D) e).
    { intros e. rewrite !(raw_fsum D S Hdim). apply fsum_radd. rewrite Lf, Hw. reflexivity. }
    assert (Q' : forall e, In e exps -> central_moment f' S (rzero D) e = h e - central_moment w S (rzero D) e).
    { intros e He. rewrite <- (V e He). rewrite !(raw_fsum D S Hdim). rewrite fsum_radd by (rewrite E2, Hw; reflexivity). ring. }
    destruct background_moments as (B0 & Bb & Bbb & BA). destruct HE as [HH HS2]. destruct (HH rho u Hu) as [Z1 U1]. destruct (HS2 rho u Hu Hub) as [S1 SA].
    assert (Nu' : forall a, (a < D)%nat -> (if compr then rho else 1) * nth a u 0 = momentum f S a + shift_of force * nth a (force_vector D force) 0) by exact Nu.
    split.
    - split; [exact E2|]. rewrite <- raw_zero with (D := D), <- (raw_one D S Hdim f' b Hb), <- (raw_two D S Hdim f' b b Hb Hb). rewrite !Q' by auto. unfold h. rewrite !Q.
      rewrite !raw_zero, !(raw_one D S Hdim) by exact Hb. rewrite !(raw_two D S Hdim) by exact Hb. rewrite B0, Bb, Bbb, G0, Gb, Gbb, S1, Q0, Qb, Qbb.
      change (eqm rho u (zero_tuple D)) with (eqm rho u (zero_exponents D)). change (eqm rho u (CollModel.unit_tuple D b)) with (eqm rho u (unit_exponents D b)).
      rewrite Z1, (U1 b Hb), Hub, Er. repeat split; destruct zc, dev; field.
    - intros a Ha Hab. destruct (Xab a Ha Hab) as (X1 & X2). destruct (BA a Ha Hab) as (C1 & C2 & C3). destruct (SA a Ha Hab) as [S2 S3]. destruct (GA a Ha Hab) as (K1 & K2 & K3).
      rewrite <- (raw_one D S Hdim f' a Ha), <- (raw_two D S Hdim f' a b Ha Hb), <- (raw_three D S Hdim f' a b Ha Hb). rewrite !Q' by auto. unfold h. rewrite !Q.
      rewrite !(raw_one D S Hdim), !(raw_two D S Hdim), !(raw_three D S Hdim) by auto. rewrite C1, C2, C3, K1, K2, K3, S2, S3.
      change (eqm rho u (CollModel.unit_tuple D a)) with (eqm rho u (unit_exponents D a)). rewrite (U1 a Ha), (Nu' a Ha). repeat split; field.
  Qed.
End Collision.
