(* Mass and momentum of the source terms of the force models. *)
From Coq Require Import List ZArith Bool Arith Reals Lra Lia.
From Verif Require Import StencilModel RealLib LinLib TransSpec TransModel MomModel EqModel EqSpec CollSpec CollModel TransProofs TransProofs2 TransProofs3 CollProofs.
Import ListNotations.
Local Open Scope R_scope.

Lemma fsum_ext f S g h : (forall c, In c S -> g c = h c) -> fsum f S g = fsum f S h.
Proof. intros H. unfold fsum. apply rsum_ext. intros [x c] Hin. cbn. rewrite (H c); auto. eapply in_combine_r; eauto. Qed.
Lemma fsum_plus f S g h : fsum f S (fun c => g c + h c) = fsum f S g + fsum f S h.
Proof. unfold fsum. rewrite <- rsum_plus. apply rsum_ext. intros. lra. Qed.
Lemma fsum_minus f S g h : fsum f S (fun c => g c - h c) = fsum f S g - fsum f S h.
Proof. unfold fsum. rewrite <- rsum_minus. apply rsum_ext. intros. lra. Qed.
Lemma fsum_scal f S k g : fsum f S (fun c => k * g c) = k * fsum f S g.
Proof. unfold fsum. rewrite <- rsum_scal. apply rsum_ext. intros. lra. Qed.
Lemma fsum_sum {A} f S (h : A -> vec -> R) l : fsum f S (fun c => rsum (map (fun a => h a c) l)) = rsum (map (fun a => fsum f S (h a)) l).
Proof. unfold fsum. rewrite rsum_swap. apply rsum_ext. intros [x c] _. cbn. rewrite <- rsum_scal. reflexivity. Qed.
Lemma fsum_terms t h : forall S ws, length ws = length S ->
  fsum (map (fun cw => snd cw * t (fst cw)) (combine S ws)) S h = fsum ws S (fun c => t c * h c).
Proof.
  unfold fsum. induction S as [|c S IH]; intros [|x ws] H; try discriminate; [reflexivity|].
  cbn [combine map]. rewrite !rsum_cons, IH by (cbn in H; lia). cbn. lra.
Qed.
Lemma fsum_terms' (t : vec * R -> R) t' h S ws : length ws = length S -> (forall c x, In c S -> t (c, x) = x * t' c) ->
  fsum (map t (combine S ws)) S h = fsum ws S (fun c => t' c * h c).
Proof.
  intros H E. rewrite <- fsum_terms by auto. f_equal. apply map_ext_in. intros [c x] Hin. apply E. eapply in_combine_l; eauto.
Qed.
Lemma rsum_delta (g : nat -> R) D b : (b < D)%nat -> rsum (map (fun a => g a * delta a b) (seq 0 D)) = g b.
Proof.
  intros H. replace D with (b + (1 + (D - b - 1)))%nat by lia. rewrite !seq_app, !map_app, !rsum_app. cbn [seq map].
  rewrite (rsum_ext _ (fun _ => 0)), rsum_zero.
  2:{ intros a Ha. apply in_seq in Ha. unfold delta. destruct (Nat.eqb_spec a b); [lia|lra]. }
  rewrite (rsum_ext _ (fun _ => 0) (seq (0 + b + 1) _)), rsum_zero.
  2:{ intros a Ha. apply in_seq in Ha. unfold delta. destruct (Nat.eqb_spec a b); [lia|lra]. }
  rewrite rsum_cons. unfold delta. rewrite Nat.add_0_l, Nat.eqb_refl. cbn. lra.
Qed.

Section Weights.
  Variables (D : nat) (S : stencil) (ws : list R).
  Hypothesis Hdim : Forall (fun c => length c = D) S.
  Hypothesis Hw : isotropic_weights D S ws.

  Lemma dot_comp F c : length F = D -> In c S -> dot F (vecR c) = rsum (map (fun a => nth a F 0 * comp c a) (seq 0 D)).
  Proof.
    intros HF Hc. rewrite Forall_forall in Hdim. specialize (Hdim c Hc).
    rewrite dot_seq by (unfold vecR; rewrite map_length; congruence). unfold vecR at 2. rewrite map_length, Hdim.
    apply rsum_ext. intros a _. now rewrite nth_vecR.
  Qed.
  Lemma dot_nth F G : length F = D -> length G = D -> dot F G = rsum (map (fun a => nth a F 0 * nth a G 0) (seq 0 D)).
  Proof. intros HF HG. rewrite dot_seq by congruence. now rewrite HG. Qed.
  (* sum_q w_q (F.c_q) g(c_q) *)
  Lemma fsum_dot F g : length F = D -> fsum ws S (fun c => dot F (vecR c) * g c) =
    rsum (map (fun a => nth a F 0 * fsum ws S (fun c => comp c a * g c)) (seq 0 D)).
  Proof.
    intros HF. rewrite (fsum_ext _ _ _ (fun c => rsum (map (fun a => nth a F 0 * (comp c a * g c)) (seq 0 D)))).
    - rewrite fsum_sum. apply rsum_ext. intros a _. now rewrite fsum_scal.
    - intros c Hc. rewrite dot_comp, <- rsum_scal_r by auto. apply rsum_ext. intros. lra.
  Qed.
  Lemma w_dot F : length F = D -> fsum ws S (fun c => dot F (vecR c)) = 0.
  Proof.
    destruct Hw as (_ & _ & H1 & _). intros HF.
    rewrite (fsum_ext _ _ _ (fun c => dot F (vecR c) * 1)) by (intros; lra). rewrite fsum_dot by auto.
    rewrite (rsum_ext _ (fun _ => 0)); [apply rsum_zero|]. intros a Ha. apply in_seq in Ha.
    rewrite (fsum_ext _ _ _ (fun c => comp c a)) by (intros; lra). unfold momentum in H1. rewrite H1 by lia. lra.
  Qed.
  Lemma w_dot_comp F a : length F = D -> (a < D)%nat -> fsum ws S (fun c => dot F (vecR c) * comp c a) = nth a F 0 / 3.
  Proof.
    destruct Hw as (_ & _ & _ & H2 & _). intros HF Ha. rewrite fsum_dot by auto.
    rewrite (rsum_ext _ (fun b => (nth b F 0 / 3) * delta b a)).
    - now rewrite rsum_delta.
    - intros b Hb. apply in_seq in Hb. unfold second_moment in H2. rewrite H2 by lia. lra.
  Qed.
  Lemma w_dot_dot F G : length F = D -> length G = D -> fsum ws S (fun c => dot F (vecR c) * dot G (vecR c)) = dot F G / 3.
  Proof.
    intros HF HG. rewrite fsum_dot by auto. rewrite dot_nth by auto. unfold Rdiv. rewrite <- rsum_scal_r. apply rsum_ext.
    intros a Ha. apply in_seq in Ha. rewrite (fsum_ext _ _ _ (fun c => dot G (vecR c) * comp c a)) by (intros; lra).
    rewrite w_dot_comp by (auto; lia). lra.
  Qed.
  Lemma w_dot_dot_comp F G a : length F = D -> length G = D -> (a < D)%nat ->
    fsum ws S (fun c => dot F (vecR c) * (dot G (vecR c) * comp c a)) = 0.
  Proof.
    destruct Hw as (_ & _ & _ & _ & H3). intros HF HG Ha. rewrite fsum_dot by auto.
    rewrite (rsum_ext _ (fun _ => 0)); [apply rsum_zero|]. intros b Hb. apply in_seq in Hb.
    rewrite (fsum_ext _ _ _ (fun c => dot G (vecR c) * (comp c b * comp c a))) by (intros; lra).
    rewrite fsum_dot by auto. rewrite (rsum_ext _ (fun _ => 0)); [rewrite rsum_zero; lra|]. intros k Hk. apply in_seq in Hk.
    rewrite (fsum_ext _ _ _ (fun c => comp c k * comp c b * comp c a)) by (intros; lra). rewrite H3 by lia. lra.
  Qed.

  Definition pulse (phi : list R) (k : R) (F : list R) : Prop :=
    length phi = length S /\ density phi S = 0 /\ forall a, (a < D)%nat -> momentum phi S a = k * nth a F 0.
  Lemma terms_length (t : vec * R -> R) : length (map t (combine S ws)) = length S.
  Proof. destruct Hw as (H & _). rewrite map_length, combine_length. lia. Qed.

  Lemma simple_pulse F : length F = D -> pulse (simple_terms S ws F) 1 F.
  Proof.
    intros HF. pose proof Hw as (HL & _). split; [apply terms_length|]. unfold simple_terms, density, momentum. split.
    - rewrite (fsum_terms' _ (fun c => 3 * dot F (vecR c))) by (auto; intros; cbn [fst snd]; field).
      rewrite (fsum_ext _ _ _ (fun c => 3 * dot F (vecR c))) by (intros; lra). rewrite fsum_scal, w_dot by auto. lra.
    - intros a Ha. rewrite (fsum_terms' _ (fun c => 3 * dot F (vecR c))) by (auto; intros; cbn [fst snd]; field).
      rewrite (fsum_ext _ _ _ (fun c => 3 * (dot F (vecR c) * comp c a))) by (intros; lra). rewrite fsum_scal, w_dot_comp by auto. lra.
  Qed.
  Lemma luo_value u F c x : length u = D -> length F = D -> In c S ->
    x * dot F (radd (rscal (/ (1 / 3)) (rsub (vecR c) u)) (rscal (dot (vecR c) u / (1 / 3) ^ 2) (vecR c))) =
    x * (3 * dot F (vecR c) - 3 * dot F u + 9 * (dot F (vecR c) * dot u (vecR c))).
  Proof.
    intros Hu HF Hc. pose proof Hdim as HD. rewrite Forall_forall in HD. specialize (HD c Hc).
    assert (L : length (vecR c) = D) by (unfold vecR; now rewrite map_length).
    rewrite dot_radd_r by (rewrite !rscal_length, rsub_length; lia). rewrite !dot_scal_r, dot_rsub_r by congruence.
    rewrite (dot_comm (vecR c) u). field.
  Qed.
  Lemma luo_pulse u F : length u = D -> length F = D -> pulse (luo_terms S ws u F) 1 F.
  Proof.
    intros Hu HF. pose proof Hw as (HL & H0 & H1 & _). unfold density in H0. split; [apply terms_length|]. unfold luo_terms, density, momentum. split.
    - rewrite (fsum_terms' _ (fun c => 3 * dot F (vecR c) - 3 * dot F u + 9 * (dot F (vecR c) * dot u (vecR c)))) by (auto; intros; now apply luo_value).
      rewrite (fsum_ext _ _ _ (fun c => (3 * dot F (vecR c) - 3 * dot F u * 1) + 9 * (dot F (vecR c) * dot u (vecR c)))) by (intros; lra).
      rewrite fsum_plus, fsum_minus, !fsum_scal, w_dot, w_dot_dot, H0 by auto. lra.
    - intros a Ha. specialize (H1 a Ha). unfold momentum in H1.
      rewrite (fsum_terms' _ (fun c => 3 * dot F (vecR c) - 3 * dot F u + 9 * (dot F (vecR c) * dot u (vecR c)))) by (auto; intros; now apply luo_value).
      rewrite (fsum_ext _ _ _ (fun c => (3 * (dot F (vecR c) * comp c a) - 3 * dot F u * comp c a) + 9 * (dot F (vecR c) * (dot u (vecR c) * comp c a)))) by (intros; lra).
      rewrite fsum_plus, fsum_minus, !fsum_scal, w_dot_comp, w_dot_dot_comp, H1 by auto. lra.
  Qed.
  Lemma shan_linear_pulse u F : length u = D -> length F = D -> pulse (shan_chen_linear S ws u F) (1 / 3) F.
  Proof.
    intros Hu HF. pose proof Hw as (HL & H0 & H1 & _). unfold density in H0. split; [apply terms_length|]. unfold shan_chen_linear, density, momentum.
    assert (E : forall c x, In c S -> x * (dot (vecR c) F + 3 * dot (vecR c) u * dot (vecR c) F - dot u F) =
      x * (dot F (vecR c) + 3 * (dot F (vecR c) * dot u (vecR c)) - dot u F)).
    { intros c x _. rewrite (dot_comm (vecR c) F), (dot_comm (vecR c) u). lra. }
    split.
    - rewrite (fsum_terms' _ (fun c => dot F (vecR c) + 3 * (dot F (vecR c) * dot u (vecR c)) - dot u F)) by (auto; intros; now apply E).
      rewrite (fsum_ext _ _ _ (fun c => (dot F (vecR c) + 3 * (dot F (vecR c) * dot u (vecR c))) - dot u F * 1)) by (intros; lra).
      rewrite fsum_minus, fsum_plus, !fsum_scal, w_dot, w_dot_dot, H0, (dot_comm u F) by auto. lra.
    - intros a Ha. specialize (H1 a Ha). unfold momentum in H1.
      rewrite (fsum_terms' _ (fun c => dot F (vecR c) + 3 * (dot F (vecR c) * dot u (vecR c)) - dot u F)) by (auto; intros; now apply E).
      rewrite (fsum_ext _ _ _ (fun c => (dot F (vecR c) * comp c a + 3 * (dot F (vecR c) * (dot u (vecR c) * comp c a))) - dot u F * comp c a)) by (intros; lra).
      rewrite fsum_minus, fsum_plus, !fsum_scal, w_dot_comp, w_dot_dot_comp, H1 by auto. lra.
  Qed.
  Lemma shan_nonlinear_pulse compr rho F : length F = D -> reference_density compr rho <> 0 ->
    pulse (shan_chen_nonlinear S ws compr rho F) 0 F.
  Proof.
    intros HF Hr. pose proof Hw as (HL & H0 & H1 & _). unfold density in H0. split; [apply terms_length|]. unfold shan_chen_nonlinear, density, momentum.
    set (k := / (2 * reference_density compr rho)).
    assert (E : forall c x, In c S -> x / (2 * reference_density compr rho) * (3 * dot (vecR c) F ^ 2 - dot F F) =
      x * (k * (3 * (dot F (vecR c) * dot F (vecR c)) - dot F F))).
    { intros c x _. rewrite (dot_comm (vecR c) F). unfold k, Rdiv. ring. }
    split.
    - rewrite (fsum_terms' _ (fun c => k * (3 * (dot F (vecR c) * dot F (vecR c)) - dot F F))) by (auto; intros; now apply E).
      rewrite (fsum_ext _ _ _ (fun c => k * (3 * (dot F (vecR c) * dot F (vecR c)) - dot F F * 1))) by (intros; lra).
      rewrite fsum_scal, fsum_minus, !fsum_scal, w_dot_dot, H0 by auto. lra.
    - intros a Ha. specialize (H1 a Ha). unfold momentum in H1.
      rewrite (fsum_terms' _ (fun c => k * (3 * (dot F (vecR c) * dot F (vecR c)) - dot F F))) by (auto; intros; now apply E).
      rewrite (fsum_ext _ _ _ (fun c => k * (3 * (dot F (vecR c) * (dot F (vecR c) * comp c a)) - dot F F * comp c a))) by (intros; lra).
      rewrite fsum_scal, fsum_minus, !fsum_scal, w_dot_dot_comp, H1 by auto. lra.
  Qed.
End Weights.

(* ---- Gaussian moments of low order ---- *)
Lemma tuple_add_zero e : forall D, length e = D -> tuple_add (zero_tuple D) e = e.
Proof. induction e as [|x e IH]; intros [|D] H; try discriminate; [reflexivity|]. cbn. f_equal. apply IH. cbn in H. lia. Qed.
Lemma tuple_add_zero_r e : forall D, length e = D -> tuple_add e (zero_tuple D) = e.
Proof. induction e as [|x e IH]; intros [|D] H; try discriminate; [reflexivity|]. cbn. rewrite Nat.add_0_r. f_equal. apply IH. cbn in H. lia. Qed.
Lemma psi_cons rho a u cs2 m e : psi_moment rho (a :: u) cs2 (m :: e) = normal_moment m a cs2 * psi_moment rho u cs2 e.
Proof. unfold psi_moment. cbn [combine map fold_right fst snd]. ring. Qed.
Lemma psi_zero rho u cs2 : psi_moment rho u cs2 (zero_tuple (length u)) = rho.
Proof. induction u as [|a u IH]; [unfold psi_moment; cbn; lra|]. cbn [length]. change (zero_tuple (Datatypes.S (length u))) with (0%nat :: zero_tuple (length u)). rewrite psi_cons, IH. cbn. lra. Qed.
Lemma psi_unit rho cs2 u : forall a, (a < length u)%nat -> psi_moment rho u cs2 (unit_tuple (length u) a) = rho * nth a u 0.
Proof.
  induction u as [|x u IH]; intros a Ha; [cbn in Ha; lia|]. cbn [length]. destruct a as [|a].
  - rewrite unit_tuple_0, psi_cons, psi_zero. cbn. lra.
  - rewrite unit_tuple_S, psi_cons, IH by (cbn in Ha; lia). cbn. lra.
Qed.
Lemma psi_two rho cs2 u : forall a b, (a < length u)%nat -> (b < length u)%nat ->
  psi_moment rho u cs2 (tuple_add (unit_tuple (length u) a) (unit_tuple (length u) b)) = rho * (nth a u 0 * nth b u 0 + cs2 * delta a b).
Proof.
  induction u as [|x u IH]; intros a b Ha Hb; [cbn in Ha; lia|]. cbn [length]. destruct a as [|a], b as [|b].
  - rewrite unit_tuple_0. change (tuple_add (1%nat :: zero_tuple (length u)) (1%nat :: zero_tuple (length u))) with (2%nat :: tuple_add (zero_tuple (length u)) (zero_tuple (length u))).
    rewrite tuple_add_zero by apply zero_tuple_length. rewrite psi_cons, psi_zero. unfold delta. cbn. lra.
  - rewrite unit_tuple_0, unit_tuple_S. change (tuple_add (1%nat :: zero_tuple (length u)) (0%nat :: unit_tuple (length u) b)) with (1%nat :: tuple_add (zero_tuple (length u)) (unit_tuple (length u) b)).
    rewrite tuple_add_zero by apply unit_tuple_length. rewrite psi_cons, psi_unit by (cbn in Hb; lia). unfold delta. cbn. lra.
  - rewrite unit_tuple_0, unit_tuple_S. change (tuple_add (0%nat :: unit_tuple (length u) a) (1%nat :: zero_tuple (length u))) with (1%nat :: tuple_add (unit_tuple (length u) a) (zero_tuple (length u))).
    rewrite tuple_add_zero_r by apply unit_tuple_length. rewrite psi_cons, psi_unit by (cbn in Ha; lia). unfold delta. cbn. lra.
  - rewrite !unit_tuple_S. change (tuple_add (0%nat :: unit_tuple (length u) a) (0%nat :: unit_tuple (length u) b)) with (0%nat :: tuple_add (unit_tuple (length u) a) (unit_tuple (length u) b)).
    rewrite psi_cons, IH by (cbn in Ha, Hb; lia). unfold delta. cbn [Nat.eqb nth normal_moment]. lra.
Qed.
Lemma psi_scale rho u cs2 e : psi_moment rho u cs2 e = rho * psi_moment 1 u cs2 e.
Proof. unfold psi_moment. lra. Qed.
Lemma he_density_free D rho u F e : rho <> 0 -> he_moment_with D rho u F e = he_moment D u F e.
Proof.
  intros H. unfold he_moment, he_moment_with. rewrite (psi_scale rho).
  rewrite (rsum_ext _ (fun a => rho * (nth a F 0 * psi_moment 1 u (1 / 3) (tuple_add e (unit_tuple D a))))).
  - rewrite rsum_scal. field. exact H.
  - intros a _. rewrite (psi_scale rho). lra.
Qed.
Lemma he_zero u F : length F = length u -> he_moment (length u) u F (zero_tuple (length u)) = 0.
Proof.
  intros HF. unfold he_moment, he_moment_with. rewrite psi_zero.
  rewrite (rsum_ext _ (fun a => nth a F 0 * nth a u 0)).
  - rewrite <- (dot_nth (length u)) by auto. lra.
  - intros a Ha. apply in_seq in Ha. rewrite tuple_add_zero by apply unit_tuple_length. rewrite psi_unit by lia. lra.
Qed.
Lemma he_unit u F a : length F = length u -> (a < length u)%nat -> he_moment (length u) u F (unit_tuple (length u) a) = nth a F 0.
Proof.
  intros HF Ha. unfold he_moment, he_moment_with. rewrite psi_unit by auto.
  rewrite (rsum_ext _ (fun b => nth a u 0 * (nth b F 0 * nth b u 0) + (1 / 3) * (nth b F 0 * delta b a))).
  - rewrite rsum_plus, !rsum_scal, rsum_delta by auto. rewrite <- (dot_nth (length u)) by auto. field.
  - intros b Hb. apply in_seq in Hb. rewrite psi_two by lia. unfold delta. rewrite Nat.eqb_sym. destruct (Nat.eqb b a); lra.
Qed.
