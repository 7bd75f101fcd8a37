(* Moments of orders up to three in a flow parallel to walls: weights, Gaussians, source terms of the force models. *)
From Coq Require Import String List ZArith Bool Arith QArith Qreals Reals Lra Lia.
From Verif Require Import StencilModel StencilProofs StencilProofs2 RealLib LinLib TransSpec TransModel TransProofs MomModel EqModel EqSpec EqProofs PropsEq CollSpec CollModel CollProofs CollProofs2 CollProofs3 CollProofs4
  CollProofs5 CollProofs7 ModeProofs2 ChanSpec.
Import ListNotations.
Local Open Scope R_scope.

Lemma tuple_add_length a b : length a = length b -> length (tuple_add a b) = length a.
Proof. intros H. unfold tuple_add. rewrite map_length, combine_length. lia. Qed.
Lemma exp_ab_length D a b : length (exp_ab D a b) = D.
Proof. unfold exp_ab. rewrite tuple_add_length; rewrite ?unit_tuple_length; auto. Qed.
Lemma exp_abb_length D a b : length (exp_abb D a b) = D.
Proof. unfold exp_abb. rewrite tuple_add_length; rewrite ?unit_tuple_length, ?exp_ab_length; auto. Qed.
Lemma nth_tuple_add a b i : length a = length b -> nth i (tuple_add a b) 0%nat = (nth i a 0 + nth i b 0)%nat.
Proof.
  revert b i; induction a as [|x a IH]; intros [|y b] [|i] Hl; try discriminate; try reflexivity. cbn. apply IH. cbn in Hl. lia.
Qed.
Lemma nth_unit D a i : (i < D)%nat -> nth i (CollModel.unit_tuple D a) 0%nat = if Nat.eqb i a then 1%nat else 0%nat.
Proof.
  intros Hi. unfold CollModel.unit_tuple. set (g := fun j => _). rewrite (nth_indep _ 0%nat (g 0%nat)) by (rewrite map_length, seq_length; exact Hi). rewrite (map_nth g), seq_nth by exact Hi. reflexivity.
Qed.

Section Raw.
  Context (D : nat) (S : stencil).
  Hypothesis HD : Forall (fun c => length c = D) S.
  Lemma raw_fsum f e : central_moment f S (rzero D) e = fsum f S (fun c => rmono (vecR c) e).
  Proof.
    unfold central_moment, fsum. apply rsum_ext. intros [x c] Hin. cbn [fst snd]. do 2 f_equal. apply in_combine_r in Hin. rewrite Forall_forall in HD.
    apply rsub_zero_r'. unfold vecR. rewrite map_length. auto.
  Qed.
  Lemma rmono_unit_c c a : In c S -> (a < D)%nat -> rmono (vecR c) (CollModel.unit_tuple D a) = comp c a.
  Proof.
    intros Hc Ha. rewrite Forall_forall in HD. assert (E : length (vecR c) = D) by (unfold vecR; rewrite map_length; auto). rewrite <- E. rewrite rmono_unit by lia. apply nth_vecR.
  Qed.
  Lemma raw_zero f : central_moment f S (rzero D) (zero_tuple D) = density f S.
  Proof. apply central_zero. Qed.
  Lemma raw_one f a : (a < D)%nat -> central_moment f S (rzero D) (CollModel.unit_tuple D a) = momentum f S a.
  Proof. intros Ha. rewrite raw_fsum. apply fsum_ext. intros c Hc. now apply rmono_unit_c. Qed.
  Lemma raw_two f a b : (a < D)%nat -> (b < D)%nat -> central_moment f S (rzero D) (exp_ab D a b) = second_moment f S a b.
  Proof. intros Ha Hb. rewrite raw_fsum. apply fsum_ext. intros c Hc. unfold exp_ab. rewrite rmono_add by (rewrite !unit_tuple_length; auto). now rewrite !rmono_unit_c. Qed.
  Lemma raw_three f a b : (a < D)%nat -> (b < D)%nat -> central_moment f S (rzero D) (exp_abb D a b) = third_moment f S a b.
  Proof.
    intros Ha Hb. rewrite raw_fsum. apply fsum_ext. intros c Hc. unfold exp_abb, exp_ab. rewrite !rmono_add by (rewrite ?tuple_add_length, ?unit_tuple_length; auto; rewrite unit_tuple_length; auto).
    rewrite !rmono_unit_c by auto. ring.
  Qed.
End Raw.

(* what the moments of a source term, as a function of the exponents, are in a flow along the walls *)
Definition shear_source (D b : nat) (F : list R) (k : list nat -> R) (G : list nat -> R) : Prop :=
  G (zero_tuple D) = 0 /\ G (CollModel.unit_tuple D b) = 0 /\ G (exp_ab D b b) = 0 /\
  forall a, (a < D)%nat -> a <> b ->
    G (CollModel.unit_tuple D a) = k (CollModel.unit_tuple D a) * nth a F 0 /\ G (exp_ab D a b) = 0 /\ G (exp_abb D a b) = k (exp_abb D a b) * nth a F 0 / 3.
Lemma shear_scale D b F k l G : shear_source D b F k G -> shear_source D b F (fun e => l e * k e) (fun e => l e * G e).
Proof.
  intros (H1 & H2 & H3 & H4). split; [rewrite H1; ring|]. split; [rewrite H2; ring|]. split; [rewrite H3; ring|].
  intros a Ha Hab. destruct (H4 a Ha Hab) as (E1 & E2 & E3). rewrite E1, E2, E3. repeat split; field.
Qed.
Lemma shear_plus D b F k k' G G' : shear_source D b F k G -> shear_source D b F k' G' -> shear_source D b F (fun e => k e + k' e) (fun e => G e + G' e).
Proof.
  intros (H1 & H2 & H3 & H4) (H1' & H2' & H3' & H4'). split; [lra|]. split; [lra|]. split; [lra|].
  intros a Ha Hab. destruct (H4 a Ha Hab) as (E1 & E2 & E3). destruct (H4' a Ha Hab) as (E1' & E2' & E3'). rewrite E1, E2, E3, E1', E2', E3'. repeat split; field.
Qed.
Lemma shear_ext D b F k k' G : (forall e, k e = k' e) -> shear_source D b F k G -> shear_source D b F k' G.
Proof. intros E (H1 & H2 & H3 & H4). split; [auto|]. split; [auto|]. split; [auto|]. intros a Ha Hab. rewrite <- !E. auto. Qed.

(* ---- weights ---- *)
Record wall_weights (D b : nat) (S : stencil) (ws : list R) : Prop := {
  ww_iso : isotropic_weights D S ws;
  ww_4 : wall_isotropic D S b ws;
  ww_4' : forall a d e, (a < D)%nat -> (d < D)%nat -> (e < D)%nat -> a <> b -> d <> b -> e <> b -> fsum ws S (fun c => comp c a * comp c b * (comp c d * comp c e)) = 0;
  ww_5 : forall a d e, (a < D)%nat -> (d < D)%nat -> (e < D)%nat -> fsum ws S (fun c => comp c a * comp c b * comp c b * (comp c d * comp c e)) = 0 }.

Section Terms.
  Context (D b : nat) (S : stencil) (ws F u : list R).
  Hypothesis HD : Forall (fun c => length c = D) S.
  Hypothesis Hb : (b < D)%nat.
  Hypothesis HW : wall_weights D b S ws.
  Hypothesis HF : length F = D.
  Hypothesis HFb : nth b F 0 = 0.

  (* first factor: F.c *)
  Lemma dot1 g : fsum ws S (fun c => dot F (vecR c) * g c) = rsum (map (fun d => nth d F 0 * fsum ws S (fun c => comp c d * g c)) (seq 0 D)).
  Proof. apply fsum_dot; assumption. Qed.
  Lemma pick g v a : (a < D)%nat -> (forall d, (d < D)%nat -> d <> b -> g d = v * delta d a) -> a <> b -> rsum (map (fun d => nth d F 0 * g d) (seq 0 D)) = nth a F 0 * v.
  Proof.
    intros Ha Hg Hab. rewrite <- (rsum_delta (fun d => nth d F 0 * v) D a Ha). apply rsum_ext. intros d Hd. apply in_seq in Hd.
    destruct (Nat.eq_dec d b) as [->|N]; [rewrite HFb; ring|]. rewrite Hg by lia. ring.
  Qed.
  Lemma none (g : nat -> R) : (forall d, (d < D)%nat -> d <> b -> g d = 0) -> rsum (map (fun d => nth d F 0 * g d) (seq 0 D)) = 0.
  Proof.
    intros Hg. rewrite (rsum_ext _ (fun _ => 0)), rsum_zero; [reflexivity|]. intros d Hd. apply in_seq in Hd.
    destruct (Nat.eq_dec d b) as [->|N]; [rewrite HFb; ring|]. rewrite Hg by lia. ring.
  Qed.
  Ltac iso := destruct HW as [(IL & I0 & I1 & I2 & I3) I4 I4' I5].
  Lemma delta_ne a d : a <> d -> delta a d = 0. Proof. intros. unfold delta. destruct (Nat.eqb_spec a d); [contradiction|reflexivity]. Qed.
  Lemma delta_sym a d : delta a d = delta d a. Proof. unfold delta. rewrite Nat.eqb_sym. reflexivity. Qed.
  Ltac shape t := rewrite (fsum_ext ws S _ t) by (intros; ring).
  Lemma d1_one : fsum ws S (fun c => dot F (vecR c) * 1) = 0.
  Proof. iso. rewrite dot1. apply none. intros d Hd _. shape (fun c => comp c d). apply I1; auto. Qed.
  Lemma d1_b : fsum ws S (fun c => dot F (vecR c) * comp c b) = 0.
  Proof. iso. rewrite dot1. apply none. intros d Hd N. change (second_moment ws S d b = 0). rewrite I2, delta_ne by auto. field. Qed.
  Lemma d1_bb : fsum ws S (fun c => dot F (vecR c) * (comp c b * comp c b)) = 0.
  Proof. iso. rewrite dot1. apply none. intros d Hd N. shape (fun c => comp c d * comp c b * comp c b). apply I3; auto. Qed.
  Lemma d1_a a : (a < D)%nat -> a <> b -> fsum ws S (fun c => dot F (vecR c) * comp c a) = nth a F 0 / 3.
  Proof. iso. intros Ha Hab. rewrite dot1. rewrite (pick _ (1 / 3) a Ha); [field| |exact Hab]. intros d Hd N. change (second_moment ws S d a = 1 / 3 * delta d a). rewrite I2 by auto. field. Qed.
  Lemma d1_ab a : (a < D)%nat -> a <> b -> fsum ws S (fun c => dot F (vecR c) * (comp c a * comp c b)) = 0.
  Proof. iso. intros Ha Hab. rewrite dot1. apply none. intros d Hd N. shape (fun c => comp c d * comp c a * comp c b). apply I3; auto. Qed.
  Lemma d1_abb a : (a < D)%nat -> a <> b -> fsum ws S (fun c => dot F (vecR c) * (comp c a * comp c b * comp c b)) = nth a F 0 / 9.
  Proof.
    iso. intros Ha Hab. rewrite dot1. rewrite (pick _ (1 / 9) a Ha); [field| |exact Hab]. intros d Hd N. shape (fun c => comp c d * comp c a * (comp c b * comp c b)). rewrite I4 by auto. field.
  Qed.
  Lemma d0_bb : fsum ws S (fun c => comp c b * comp c b) = 1 / 3.
  Proof. iso. change (second_moment ws S b b = 1 / 3). rewrite I2 by auto. unfold delta. rewrite Nat.eqb_refl. field. Qed.
  Lemma d0_ab a : (a < D)%nat -> a <> b -> fsum ws S (fun c => comp c a * comp c b) = 0.
  Proof. iso. intros. change (second_moment ws S a b = 0). rewrite I2, delta_ne by auto. field. Qed.
  Lemma d0_abb a : (a < D)%nat -> a <> b -> fsum ws S (fun c => comp c a * comp c b * comp c b) = 0.
  Proof. iso. intros. apply I3; auto. Qed.

  Hypothesis Hu : length u = D.
  Hypothesis Hub : nth b u 0 = 0.
  Lemma dot2 (v : list R) g : length v = D -> nth b v 0 = 0 -> fsum ws S (fun c => dot F (vecR c) * (dot v (vecR c) * g c)) =
    rsum (map (fun d => nth d F 0 * rsum (map (fun e => nth e v 0 * fsum ws S (fun c => comp c e * (comp c d * g c))) (seq 0 D))) (seq 0 D)).
  Proof.
    intros Hv Hvb. rewrite (fsum_dot D S ws HD) by auto. apply rsum_ext. intros d _. f_equal.
    rewrite <- (fsum_dot D S ws HD v) by auto. apply fsum_ext. intros; ring.
  Qed.
  Lemma pick2 (v : list R) (g : nat -> nat -> R) k : length v = D -> nth b v 0 = 0 -> (forall d e, (d < D)%nat -> (e < D)%nat -> d <> b -> e <> b -> g d e = k * delta e d) ->
    rsum (map (fun d => nth d F 0 * rsum (map (fun e => nth e v 0 * g d e) (seq 0 D))) (seq 0 D)) = k * dot F v.
  Proof.
    intros Hv Hvb Hg. rewrite (dot_nth D) by auto. rewrite <- rsum_scal. apply rsum_ext. intros d Hd. apply in_seq in Hd.
    destruct (Nat.eq_dec d b) as [->|N]; [rewrite HFb; ring|].
    transitivity (nth d F 0 * (nth d v 0 * k)); [|ring]. f_equal. rewrite <- (rsum_delta (fun e => nth e v 0 * k) D d) by lia. apply rsum_ext. intros e He. apply in_seq in He.
    destruct (Nat.eq_dec e b) as [->|N']; [rewrite Hvb; ring|]. rewrite Hg by (auto; lia). ring.
  Qed.
  Lemma d2_one (v : list R) : length v = D -> nth b v 0 = 0 -> fsum ws S (fun c => dot F (vecR c) * (dot v (vecR c) * 1)) = dot F v / 3.
  Proof. iso. intros Hv Hvb. rewrite dot2 by auto. rewrite (pick2 v _ (1 / 3)) by (auto; intros d e Hd He N N'; shape (fun c => comp c e * comp c d); change (second_moment ws S e d = 1 / 3 * delta e d); rewrite I2 by auto; field). field. Qed.
  Lemma d2_zero (v : list R) g : length v = D -> nth b v 0 = 0 -> (forall d e, (d < D)%nat -> (e < D)%nat -> d <> b -> e <> b -> fsum ws S (fun c => comp c e * (comp c d * g c)) = 0) ->
    fsum ws S (fun c => dot F (vecR c) * (dot v (vecR c) * g c)) = 0.
  Proof. intros Hv Hvb Hg. rewrite dot2 by auto. rewrite (pick2 v _ 0) by (auto; intros; rewrite Hg by auto; ring). ring. Qed.
  Lemma d2_b (v : list R) : length v = D -> nth b v 0 = 0 -> fsum ws S (fun c => dot F (vecR c) * (dot v (vecR c) * comp c b)) = 0.
  Proof. iso. intros. apply d2_zero; auto. intros. shape (fun c => comp c e * comp c d * comp c b). apply I3; auto. Qed.
  Lemma d2_bb (v : list R) : length v = D -> nth b v 0 = 0 -> fsum ws S (fun c => dot F (vecR c) * (dot v (vecR c) * (comp c b * comp c b))) = dot F v / 9.
  Proof. iso. intros Hv Hvb. rewrite dot2 by auto. rewrite (pick2 v _ (1 / 9)) by (auto; intros d e Hd He N N'; shape (fun c => comp c e * comp c d * (comp c b * comp c b)); rewrite I4 by auto; field). field. Qed.
  Lemma d2_a (v : list R) a : length v = D -> nth b v 0 = 0 -> (a < D)%nat -> a <> b -> fsum ws S (fun c => dot F (vecR c) * (dot v (vecR c) * comp c a)) = 0.
  Proof. iso. intros. apply d2_zero; auto. intros. shape (fun c => comp c e * comp c d * comp c a). apply I3; auto. Qed.
  Lemma d2_ab (v : list R) a : length v = D -> nth b v 0 = 0 -> (a < D)%nat -> a <> b -> fsum ws S (fun c => dot F (vecR c) * (dot v (vecR c) * (comp c a * comp c b))) = 0.
  Proof. iso. intros. apply d2_zero; auto. intros. shape (fun c => comp c a * comp c b * (comp c d * comp c e)). apply I4'; auto. Qed.
  Lemma d2_abb (v : list R) a : length v = D -> nth b v 0 = 0 -> (a < D)%nat -> a <> b -> fsum ws S (fun c => dot F (vecR c) * (dot v (vecR c) * (comp c a * comp c b * comp c b))) = 0.
  Proof. iso. intros. apply d2_zero; auto. intros. shape (fun c => comp c a * comp c b * comp c b * (comp c d * comp c e)). apply I5; auto. Qed.

  (* a combination  x F.c + y (F.c)(v.c) + z  with  y v.F / 3 + z = 0 *)
  Lemma combined_source (phi : list R) x y z v : length v = D -> nth b v 0 = 0 -> y * dot F v / 3 + z = 0 ->
    (forall h, fsum phi S h = fsum ws S (fun c => x * (dot F (vecR c) * h c) + y * (dot F (vecR c) * (dot v (vecR c) * h c)) + z * h c)) ->
    shear_source D b F (fun _ => x / 3) (central_moment phi S (rzero D)).
  Proof.
    intros Hv Hvb Hyz Hphi.
    assert (E : forall h, fsum phi S h = x * fsum ws S (fun c => dot F (vecR c) * h c) + y * fsum ws S (fun c => dot F (vecR c) * (dot v (vecR c) * h c)) + z * fsum ws S h).
    { intros h. rewrite Hphi, !fsum_plus, !fsum_scal. reflexivity. }
    pose proof HW as [(IL & I0 & I1 & I2 & I3) I4 I4' I5]. unfold shear_source.
    split; [rewrite raw_zero; unfold density; rewrite E, d1_one, d2_one by auto; change (fsum ws S (fun _ => 1)) with (density ws S); rewrite I0; lra|].
    split; [rewrite raw_one by auto; unfold momentum; rewrite E, d1_b, d2_b by auto; change (fsum ws S (fun c => comp c b)) with (momentum ws S b); rewrite I1 by auto; ring|].
    split; [rewrite raw_two by auto; unfold second_moment; rewrite E, d1_bb, d2_bb, d0_bb by auto; lra|].
    intros a Ha Hab. split; [|split].
    - rewrite raw_one by auto. unfold momentum. rewrite E, d1_a, d2_a by auto. change (fsum ws S (fun c => comp c a)) with (momentum ws S a). rewrite I1 by auto. field.
    - rewrite raw_two by auto. unfold second_moment. rewrite E, d1_ab, d2_ab, d0_ab by auto. ring.
    - rewrite raw_three by auto. unfold third_moment. rewrite E, d1_abb, d2_abb, d0_abb by auto. field.
  Qed.
  Lemma ws_length : length ws = length S. Proof. apply HW. Qed.
  Lemma simple_source : shear_source D b F (fun _ => 1) (central_moment (simple_terms S ws F) S (rzero D)).
  Proof.
    eapply shear_ext; [|apply (combined_source _ 3 0 0 (rzero D))]; [intros; cbv beta; field|apply rzero_length|apply nth_rzero|lra|].
    intros h. unfold simple_terms. rewrite (fsum_terms' _ (fun c => 3 * dot F (vecR c))) by (try apply ws_length; intros; cbn [fst snd]; field).
    apply fsum_ext. intros. ring.
  Qed.
  Lemma dot_luo c : In c S -> dot F (radd (rscal (/ (1 / 3)) (rsub (vecR c) u)) (rscal (dot (vecR c) u / (1 / 3) ^ 2) (vecR c))) =
    3 * dot F (vecR c) + 9 * (dot F (vecR c) * dot u (vecR c)) - 3 * dot F u.
  Proof.
    intros Hc. rewrite Forall_forall in HD. assert (L : length (vecR c) = D) by (unfold vecR; rewrite map_length; auto).
    rewrite (dot_comm (vecR c) u). set (U := dot u (vecR c)). clearbody U.
    rewrite !(dot_nth D) by (rewrite ?radd_length, ?rscal_length, ?rsub_length; lia).
    rewrite (rsum_ext _ (fun a => 3 * (nth a F 0 * nth a (vecR c) 0) + (9 * U * (nth a F 0 * nth a (vecR c) 0) + (-3) * (nth a F 0 * nth a u 0)))).
    - rewrite !rsum_plus, !rsum_scal. ring.
    - intros a _. rewrite nth_radd, !nth_rscal, nth_rsub by (rewrite ?rscal_length, ?rsub_length; lia). field.
  Qed.
  Lemma luo_source : shear_source D b F (fun _ => 1) (central_moment (luo_terms S ws u F) S (rzero D)).
  Proof.
    eapply shear_ext; [|apply (combined_source _ 3 9 (-3 * dot F u) u)]; [intros; cbv beta; field|assumption|assumption|lra|].
    intros h. unfold luo_terms. rewrite (fsum_terms' _ (fun c => 3 * dot F (vecR c) + 9 * (dot F (vecR c) * dot u (vecR c)) - 3 * dot F u))
      by (try apply ws_length; intros c x Hc; cbn [fst snd]; rewrite dot_luo by exact Hc; ring).
    apply fsum_ext. intros. ring.
  Qed.
  Lemma linear_source : shear_source D b F (fun _ => 1 / 3) (central_moment (shan_chen_linear S ws u F) S (rzero D)).
  Proof.
    eapply shear_ext; [|apply (combined_source _ 1 3 (- dot F u) u)]; [intros; cbv beta; field|assumption|assumption|lra|].
    intros h. unfold shan_chen_linear. rewrite (fsum_terms' _ (fun c => dot F (vecR c) + 3 * (dot F (vecR c) * dot u (vecR c)) - dot F u)).
    - apply fsum_ext. intros. ring.
    - apply ws_length.
    - intros c x Hc. cbn [fst snd]. rewrite !(dot_comm (vecR c)), (dot_comm u F). ring.
  Qed.
  Lemma nonlinear_source compr rho : reference_density compr rho <> 0 -> shear_source D b F (fun _ => 0) (central_moment (shan_chen_nonlinear S ws compr rho F) S (rzero D)).
  Proof.
    intros Hr. set (k := / (2 * reference_density compr rho)).
    eapply shear_ext; [|apply (combined_source _ 0 (3 * k) (- k * dot F F) F)]; [intros; cbv beta; field|assumption|assumption|lra|].
    intros h. unfold shan_chen_nonlinear. rewrite (fsum_terms' _ (fun c => k * (3 * (dot F (vecR c) * dot F (vecR c)) - dot F F))).
    - apply fsum_ext. intros. ring.
    - apply ws_length.
    - intros c x Hc. cbn [fst snd]. rewrite !(dot_comm (vecR c)). unfold k. field. exact Hr.
  Qed.
End Terms.

(* ---- Gaussian moments ---- *)
Fixpoint clear_at (b : nat) (e : list nat) : list nat :=
  match e, b with [], _ => [] | _ :: e', O => 0%nat :: e' | x :: e', Datatypes.S b' => x :: clear_at b' e' end.
Lemma psi_factor rho cs2 : forall u b e, (b < length u)%nat -> length e = length u ->
  psi_moment rho u cs2 e = normal_moment (nth b e 0%nat) (nth b u 0) cs2 * psi_moment rho u cs2 (clear_at b e).
Proof.
  induction u as [|x u IH]; intros b [|n e] Hb He; try discriminate; cbn [length] in *; try lia. destruct b as [|b]; cbn [clear_at nth].
  - rewrite !psi_cons. cbn [normal_moment]. ring.
  - rewrite !psi_cons, (IH b e) by lia. ring.
Qed.
Lemma clear_at_length b e : length (clear_at b e) = length e.
Proof. revert b; induction e as [|x e IH]; intros [|b]; cbn; auto. Qed.
Lemma nth_clear b e i : nth i (clear_at b e) 0%nat = if Nat.eqb i b then 0%nat else nth i e 0%nat.
Proof. revert b i; induction e as [|x e IH]; intros [|b] [|i]; cbn; auto. destruct (Nat.eqb i b); reflexivity. Qed.
Lemma exp_eq (e e' : list nat) : length e = length e' -> (forall i, (i < length e)%nat -> nth i e 0%nat = nth i e' 0%nat) -> e = e'.
Proof. intros H1 H2. apply (nth_ext _ _ 0%nat 0%nat H1 H2). Qed.
Lemma exp_bb_nth D b i : (i < D)%nat -> nth i (exp_ab D b b) 0%nat = if Nat.eqb i b then 2%nat else 0%nat.
Proof. intros Hi. unfold exp_ab. rewrite nth_tuple_add, nth_unit by (rewrite ?unit_tuple_length; auto). destruct (Nat.eqb i b); reflexivity. Qed.
Lemma clear_bb D b e : length e = D -> nth b e 0%nat = 0%nat -> clear_at b (tuple_add e (exp_ab D b b)) = e.
Proof.
  intros He Hb. assert (L : length (tuple_add e (exp_ab D b b)) = D) by (rewrite tuple_add_length; rewrite ?exp_ab_length; auto).
  apply exp_eq; rewrite clear_at_length, L; [auto|]. intros i Hi. rewrite nth_clear, nth_tuple_add, exp_bb_nth by (rewrite ?exp_ab_length; auto).
  destruct (Nat.eqb_spec i b) as [->|]; lia.
Qed.
Lemma psi_bb rho u cs2 b e : (b < length u)%nat -> length e = length u -> nth b u 0 = 0 -> nth b e 0%nat = 0%nat ->
  psi_moment rho u cs2 (tuple_add e (exp_ab (length u) b b)) = cs2 * psi_moment rho u cs2 e.
Proof.
  intros Hb He Hu H0. rewrite (psi_factor rho cs2 u b) by (auto; rewrite tuple_add_length; rewrite ?exp_ab_length; auto). rewrite clear_bb by auto.
  rewrite nth_tuple_add, H0, exp_bb_nth, Nat.eqb_refl, Hu by (rewrite ?exp_ab_length; auto). cbn. ring.
Qed.
Lemma psi_odd rho u cs2 b e : (b < length u)%nat -> length e = length u -> nth b u 0 = 0 -> nth b e 0%nat = 1%nat -> psi_moment rho u cs2 e = 0.
Proof. intros Hb He Hu H0. rewrite (psi_factor rho cs2 u b) by auto. rewrite H0, Hu. cbn. ring. Qed.
Lemma tuple_add_comm a b : tuple_add a b = tuple_add b a.
Proof. revert b; induction a as [|x a IH]; intros [|y b]; try reflexivity. unfold tuple_add in *. cbn. f_equal; [lia|apply IH]. Qed.
Lemma tuple_add_assoc a b c : length a = length b -> length b = length c -> tuple_add (tuple_add a b) c = tuple_add a (tuple_add b c).
Proof.
  revert b c; induction a as [|x a IH]; intros [|y b] [|z c] H1 H2; try discriminate; [reflexivity|]. unfold tuple_add in *. cbn in *. f_equal; [lia|apply IH; lia].
Qed.

Section He.
  Context (b : nat) (u F : list R).
  Notation D := (length u).
  Hypothesis Hb : (b < D)%nat.
  Hypothesis HF : length F = D.
  Hypothesis HFb : nth b F 0 = 0.
  Hypothesis Hub : nth b u 0 = 0.
  Lemma he_bb e : length e = D -> nth b e 0%nat = 0%nat -> he_moment D u F (tuple_add e (exp_ab D b b)) = he_moment D u F e / 3.
  Proof.
    intros He H0. unfold he_moment, he_moment_with. rewrite (psi_bb 1 u (1 / 3) b e) by auto.
    rewrite (rsum_ext _ (fun a => 1 / 3 * (nth a F 0 * psi_moment 1 u (1 / 3) (tuple_add e (CollModel.unit_tuple D a))))); [rewrite rsum_scal; field|].
    intros a Ha. apply in_seq in Ha. destruct (Nat.eq_dec a b) as [->|N]; [rewrite HFb; ring|].
    rewrite tuple_add_assoc, (tuple_add_comm (exp_ab D b b)), <- tuple_add_assoc by (rewrite ?exp_ab_length, ?unit_tuple_length; auto).
    rewrite psi_bb; auto; [ring|rewrite tuple_add_length; rewrite ?unit_tuple_length; auto|].
    rewrite nth_tuple_add, nth_unit, H0 by (rewrite ?unit_tuple_length; auto). destruct (Nat.eqb_spec b a); [congruence|reflexivity].
  Qed.
  Lemma he_ab a : (a < D)%nat -> a <> b -> he_moment D u F (exp_ab D a b) = 0.
  Proof.
    intros Ha Hab. unfold he_moment, he_moment_with.
    assert (O : nth b (exp_ab D a b) 0%nat = 1%nat).
    { unfold exp_ab. rewrite nth_tuple_add, !nth_unit, Nat.eqb_refl by (rewrite ?unit_tuple_length; auto). destruct (Nat.eqb_spec b a); [congruence|reflexivity]. }
    rewrite (psi_odd 1 u (1 / 3) b (exp_ab D a b)) by (auto; apply exp_ab_length).
    rewrite (rsum_ext _ (fun _ => 0)), rsum_zero; [field|].
    intros d Hd. apply in_seq in Hd. destruct (Nat.eq_dec d b) as [->|N]; [rewrite HFb; ring|].
    rewrite (psi_odd 1 u (1 / 3) b); auto; [ring|rewrite tuple_add_length; rewrite ?exp_ab_length, ?unit_tuple_length; auto|].
    rewrite nth_tuple_add, nth_unit, O by (rewrite ?exp_ab_length, ?unit_tuple_length; auto). destruct (Nat.eqb_spec b d); [congruence|reflexivity].
  Qed.
  Lemma nth_zero_tuple n i : nth i (zero_tuple n) 0%nat = 0%nat. Proof. unfold zero_tuple. revert i; induction n; intros [|i]; cbn; auto. Qed.
  Lemma he_source : shear_source D b F (fun _ => 1) (he_moment D u F).
  Proof.
    unfold shear_source. split; [apply he_zero; exact HF|]. split; [rewrite he_unit by auto; exact HFb|]. split.
    - rewrite <- (tuple_add_zero (exp_ab D b b) D) by apply exp_ab_length. rewrite he_bb by (rewrite ?zero_tuple_length, ?nth_zero_tuple; auto). rewrite he_zero by exact HF. field.
    - intros a Ha Hab. split; [rewrite he_unit by auto; ring|]. split; [apply he_ab; auto|]. unfold exp_abb. rewrite he_bb; [rewrite he_unit by auto; field|apply unit_tuple_length|].
      rewrite nth_unit by auto. destruct (Nat.eqb_spec b a); [congruence|reflexivity].
  Qed.
End He.

(* ---- equilibria ---- *)
Lemma continuous_shear D b compr dev : (b < D)%nat -> shear_equilibrium D b compr dev (fun rho u => continuous_maxwellian_moment D compr dev rho u (1 / 3)).
Proof.
  intros Hb. split; [apply continuous_hydro|]. intros rho u Hu Hub. unfold continuous_maxwellian_moment. assert (E : firstn D u = u) by (rewrite <- Hu; apply firstn_all). rewrite E.
  assert (Z : forall i, nth i (repeat 0 D) 0 = 0) by (intros i; apply nth_repeat).
  assert (L0 : length (repeat 0 D) = D) by apply repeat_length.
  assert (BB : forall r v e, length v = D -> nth b v 0 = 0 -> length e = D -> nth b e 0%nat = 0%nat -> psi_moment r v (1 / 3) (tuple_add e (exp_ab D b b)) = psi_moment r v (1 / 3) e / 3).
  { intros r v e Lv Hv Le He. rewrite <- Lv. rewrite psi_bb by (rewrite ?Lv; auto). rewrite ?Lv. field. }
  split.
  - rewrite <- (tuple_add_zero (exp_ab D b b) D) by apply exp_ab_length. rewrite !BB by (rewrite ?zero_tuple_length, ?nth_zero_tuple; auto).
    rewrite !(normal_zero _ _ _ _ D) by (rewrite ?repeat_length; auto; lia). destruct compr, dev; field.
  - intros a Ha Hab.
    assert (O : nth b (exp_ab D a b) 0%nat = 1%nat).
    { unfold exp_ab. rewrite nth_tuple_add, !nth_unit, Nat.eqb_refl by (rewrite ?unit_tuple_length; auto). destruct (Nat.eqb_spec b a); [congruence|reflexivity]. }
    assert (O' : nth b (CollModel.unit_tuple D a) 0%nat = 0%nat) by (rewrite nth_unit by auto; destruct (Nat.eqb_spec b a); [congruence|reflexivity]).
    split.
    + rewrite !(psi_odd _ _ _ b) by (rewrite ?exp_ab_length, ?L0; auto; lia). destruct compr, dev; ring.
    + unfold exp_abb. rewrite !BB by (rewrite ?unit_tuple_length; auto). rewrite !normal_unit by (rewrite ?repeat_length; auto). rewrite Z. destruct compr, dev; field.
Qed.
Lemma discrete_shear name ord S ws b compr dev order : predefined_stencils name ord = Ok S -> get_weights S = Ok ws -> sizeQ S <> 7%nat -> (eq_order order <= 2)%Z -> (b < dimD S)%nat ->
  shear_equilibrium (dimD S) b compr dev (discrete_raw_moments S compr dev order).
Proof.
  intros HS Hw H7 Ho Hb. split; [eapply discrete_hydro; eauto|]. intros rho u Hu Hub. unfold discrete_raw_moments.
  destruct (discrete_populations name ord S ws compr dev order HS Hw (or_introl H7) rho u) as (p & E & L & H0 & H1). rewrite E.
  destruct (weights_isotropic _ _ _ _ HS Hw) as (Hdim & _).
  assert (St : forall a, (a < dimD S)%nat -> second_moment p S a b = (rho - if dev then 1 else 0) * delta a b / 3).
  { intros a Ha. destruct (Z_le_gt_dec 2 (eq_order order)) as [G|G].
    - rewrite (C10_euler_stress _ _ _ _ _ _ _ _ _ a b HS E Ha Hb H7 G), Hub. ring.
    - apply (C10_linear_stress _ _ _ _ _ _ _ _ _ a b HS E Ha Hb). lia. }
  split.
  - rewrite raw_two, St by auto. unfold delta. rewrite Nat.eqb_refl. field.
  - intros a Ha Hab. rewrite raw_two, raw_three, St by auto. rewrite (delta_ne a b) by auto. split; [field|].
    unfold third_moment. rewrite (C10_third_moment _ _ _ _ _ _ _ _ _ a b b HS E Ha Hb Hb H7 Ho), Hub, (delta_ne a b) by auto. unfold delta. rewrite Nat.eqb_refl. field.
Qed.
