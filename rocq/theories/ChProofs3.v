(* Diffusion in a quadratic chemical potential. *)
From Coq Require Import String List ZArith Bool Arith QArith Reals Qreals Lra Lia.
From Verif Require Import StencilModel StencilProofs StencilProofs2 RealLib LinLib EqModel EqSpec EqProofs CollModel ChModel ChSpec ChProofs ChProofs2.
Import ListNotations.
Local Open Scope R_scope.

(* ---- a polynomial times a geometric sequence tends to zero ---- *)
Lemma Un_cv_squeeze u w : (forall t, Rabs (u t) <= w t) -> Un_cv w 0 -> Un_cv u 0.
Proof.
  intros H Hw eps He. destruct (Hw eps He) as [N HN]. exists N. intros t Ht. specialize (HN t Ht). unfold R_dist in *. rewrite Rminus_0_r in *. pose proof (H t). pose proof (Rle_abs (w t)). lra.
Qed.
Lemma Un_cv_zero : Un_cv (fun _ => 0) 0.
Proof. intros eps He. exists 0%nat. intros. unfold R_dist. rewrite Rminus_0_r, Rabs_R0. exact He. Qed.
Lemma Un_cv_const c : Un_cv (fun _ => c) c.
Proof. intros eps He. exists 0%nat. intros. unfold R_dist. rewrite Rminus_diag_eq, Rabs_R0 by reflexivity. exact He. Qed.
Lemma geometric r : 0 <= r < 1 -> Un_cv (fun t => r ^ t) 0.
Proof.
  intros Hr eps He. destruct (pow_lt_1_zero r ltac:(rewrite Rabs_pos_eq; lra) eps He) as [N HN]. exists N. intros t Ht. unfold R_dist. rewrite Rminus_0_r. apply HN. exact Ht.
Qed.
Lemma square_geometric r A K : 0 <= r < 1 -> 0 <= A -> 0 <= K -> Un_cv (fun t => r ^ t * (A + K * INR t) ^ 2) 0.
Proof.
  intros Hr HA HK. destruct (Req_dec r 0) as [Z|NZ].
  { subst r. intros eps He. exists 1%nat. intros [|t] Ht; [lia|]. unfold R_dist. cbn [pow]. rewrite !Rmult_0_l, Rminus_0_r, Rabs_R0. exact He. }
  set (q := sqrt (sqrt r)). assert (Hq : 0 < q < 1).
  { unfold q. split; [apply sqrt_lt_R0, sqrt_lt_R0; lra|]. rewrite <- sqrt_1. apply sqrt_lt_1; [apply sqrt_pos|lra|]. rewrite <- sqrt_1. apply sqrt_lt_1; lra. }
  assert (Hr4 : r = q * q * (q * q)) by (unfold q; rewrite !sqrt_sqrt by (try apply sqrt_pos; lra); reflexivity).
  set (y := / q - 1). assert (Hiq : 1 < / q) by (rewrite <- Rinv_1; apply Rinv_lt_contravar; lra). assert (Hy : 0 < y) by (unfold y; lra).
  set (C := A + K / y). assert (HC : 0 <= C) by (unfold C; apply Rplus_le_le_0_compat; [lra|]; apply Rmult_le_pos; [lra|]; left; apply Rinv_0_lt_compat; lra).
  apply (Un_cv_squeeze _ (fun t => C ^ 2 * (q * q) ^ t)).
  - intros t. pose proof (poly t y Hy) as P. replace (1 + y) with (/ q) in P by (unfold y; ring). 
    assert (B1 : INR t <= (/ q) ^ t / y). { apply Rmult_le_reg_r with y; [lra|]. unfold Rdiv. rewrite Rmult_assoc, Rinv_l by lra. lra. }
    assert (Hp : 1 <= (/ q) ^ t). { rewrite <- (pow1 t) at 1. apply pow_incr. lra. }
    assert (B2 : A + K * INR t <= C * (/ q) ^ t). { unfold C. rewrite Rmult_plus_distr_r. apply Rplus_le_compat; [rewrite <- (Rmult_1_r A) at 1; apply Rmult_le_compat_l; lra|]. replace (K / y * (/ q) ^ t) with (K * ((/ q) ^ t / y)) by (unfold Rdiv; ring). apply Rmult_le_compat_l; lra. }
    assert (B0 : 0 <= A + K * INR t) by (pose proof (pos_INR t); apply Rplus_le_le_0_compat; [lra|apply Rmult_le_pos; lra]).
    rewrite Rabs_pos_eq by (apply Rmult_le_pos; [apply pow_le; lra|apply pow2_ge_0]).
    apply Rle_trans with (r ^ t * (C * (/ q) ^ t) ^ 2).
    + apply Rmult_le_compat_l; [apply pow_le; lra|]. apply pow_incr. lra.
    + right. rewrite Hr4. assert (U : (q * q) ^ t * ((/ q) ^ t * (/ q) ^ t) = 1) by (rewrite <- !Rpow_mult_distr; replace (q * q * (/ q * / q)) with 1 by (field; lra); apply pow1).
      rewrite (Rpow_mult_distr (q * q) (q * q)). transitivity (C ^ 2 * (q * q) ^ t * ((q * q) ^ t * ((/ q) ^ t * (/ q) ^ t))); [ring|rewrite U; ring].
  - replace 0 with (C ^ 2 * 0) by ring. apply CV_mult; [apply Un_cv_const|]. apply geometric. nra.
Qed.
Lemma Un_cv_rsum {A} (l : list A) (u : A -> nat -> R) : (forall a, In a l -> Un_cv (u a) 0) -> Un_cv (fun t => rsum (map (fun a => u a t) l)) 0.
Proof.
  induction l as [|a l IH]; intros H; [exact Un_cv_zero|]. intros eps He. 
  assert (P : Un_cv (fun t => u a t + rsum (map (fun a => u a t) l)) (0 + 0)) by (apply CV_plus; [apply H; left; reflexivity|apply IH; intros b Hb; apply H; right; exact Hb]).
  rewrite Rplus_0_r in P. exact (P eps He).
Qed.

(* ---- functions of at most quadratic growth ---- *)
Section Growth.
  Variable D : nat.
  Definition quadratic_growth (phi : vec -> R) : Prop := exists B, 0 <= B /\ forall x, Rabs (phi x) <= B * (1 + size D x) ^ 2.
  Lemma size_nonneg x : 0 <= size D x.
  Proof. apply rsum_nonneg. intros; apply Rabs_pos. Qed.
  Lemma comp_size x a : (a < D)%nat -> Rabs (comp x a) <= size D x.
  Proof.
    intros Ha. unfold size. assert (Hin : In a (seq 0 D)) by (apply in_seq; lia). revert Hin. generalize (seq 0 D). induction l as [|b l IH]; intros H; [destruct H|].
    cbn [map]. rewrite rsum_cons. pose proof (rsum_nonneg (fun a => Rabs (comp x a)) l (fun a _ => Rabs_pos _)) as P. pose proof (Rabs_pos (comp x b)). destruct H as [-> | H]; [lra|]. specialize (IH H). lra.
  Qed.
  Lemma growth_plus f g : quadratic_growth f -> quadratic_growth g -> quadratic_growth (fun x => f x + g x).
  Proof. intros (B & HB & Hf) (C & HC & Hg). exists (B + C). split; [lra|]. intros x. pose proof (Rabs_triang (f x) (g x)). specialize (Hf x). specialize (Hg x). lra. Qed.
  Lemma growth_scal k f : quadratic_growth f -> quadratic_growth (fun x => k * f x).
  Proof. intros (B & HB & Hf). exists (Rabs k * B). split; [apply Rmult_le_pos; [apply Rabs_pos|lra]|]. intros x. rewrite Rabs_mult, Rmult_assoc. apply Rmult_le_compat_l; [apply Rabs_pos|apply Hf]. Qed.
  Lemma growth_ext f g : (forall x, f x = g x) -> quadratic_growth f -> quadratic_growth g.
  Proof. intros E (B & HB & Hf). exists B. split; [exact HB|]. intros x. rewrite <- E. apply Hf. Qed.
  Lemma growth_const k : quadratic_growth (fun _ => k).
  Proof. exists (Rabs k). split; [apply Rabs_pos|]. intros x. pose proof (size_nonneg x). pose proof (Rabs_pos k). rewrite <- (Rmult_1_r (Rabs k)) at 1. apply Rmult_le_compat_l; [lra|]. nra. Qed.
  Lemma growth_comp a : (a < D)%nat -> quadratic_growth (fun x => comp x a).
  Proof. intros Ha. exists 1. split; [lra|]. intros x. pose proof (comp_size x a Ha). pose proof (size_nonneg x). nra. Qed.
  Lemma growth_comp2 a b : (a < D)%nat -> (b < D)%nat -> quadratic_growth (fun x => comp x a * comp x b).
  Proof. intros Ha Hb. exists 1. split; [lra|]. intros x. rewrite Rabs_mult. pose proof (comp_size x a Ha). pose proof (comp_size x b Hb). pose proof (Rabs_pos (comp x a)). pose proof (Rabs_pos (comp x b)). nra. Qed.
  Lemma growth_rsum (l : list nat) (f : nat -> vec -> R) : (forall a, In a l -> quadratic_growth (f a)) -> quadratic_growth (fun x => rsum (map (fun a => f a x) l)).
  Proof.
    induction l as [|a l IH]; intros H; [exact (growth_const 0)|]. cbn [map]. apply (growth_ext (fun x => f a x + rsum (map (fun a => f a x) l))); [reflexivity|].
    apply growth_plus; [apply H; left; reflexivity|apply IH; intros b Hb; apply H; right; exact Hb].
  Qed.
  Lemma growth_quadratic c g h : quadratic_growth (quadratic_field D c g h).
  Proof.
    unfold quadratic_field, affine_field. apply growth_plus; [apply growth_plus; [apply growth_const|]|].
    - apply growth_rsum. intros a Ha. apply in_seq in Ha. apply growth_scal, growth_comp. lia.
    - apply growth_scal. apply growth_rsum. intros a Ha. apply in_seq in Ha. apply growth_rsum. intros b Hb. apply in_seq in Hb. apply growth_scal, growth_comp2; lia.
  Qed.
End Growth.

Lemma comp_vsub x c a : length x = length c -> comp (vadd x (vneg c)) a = comp x a - comp c a.
Proof.
  unfold comp, vadd, vneg. intros H. rewrite <- minus_IZR. f_equal. revert c a H; induction x as [|y x IH]; intros [|z c] [|a] H; try discriminate; cbn [map combine nth fst snd]; try lia. apply IH. injection H; auto.
Qed.
Lemma vsub_zero x D : length x = D -> vadd x (vneg (vzero D)) = x.
Proof. intros <-. induction x as [|y x IH]; [reflexivity|]. unfold vadd, vneg, vzero in *. cbn. rewrite IH. f_equal. lia. Qed.
Lemma vsub_length x c D : length x = D -> length c = D -> length (vadd x (vneg c)) = D.
Proof. intros Hx Hc. unfold vadd, vneg. rewrite map_length, combine_length, map_length. lia. Qed.
Lemma size_vsub D x c : length x = length c -> size D (vadd x (vneg c)) <= size D x + size D c.
Proof.
  intros H. unfold size. rewrite <- rsum_plus. apply rsum_le. intros a _. rewrite comp_vsub by exact H. unfold Rminus. eapply Rle_trans; [apply Rabs_triang|]. rewrite Rabs_Ropp. lra.
Qed.

Section Diffusion.
  Variables (name ord : string) (S : stencil).
  Hypothesis HS : predefined_stencils name ord = Ok S.
  Hypothesis HW : has_weights S = true.
  Variables (M Minv : mat).
  Hypothesis HM : is_inverse (sizeQ S) M Minv.
  Variables (omega gamma : R).
  Notation D := (dimD S).
  Notation n := (sizeQ S).
  Variables (c0 : R) (g : nat -> R) (h : nat -> nat -> R).
  Notation mu := (quadratic_field D c0 g h).
  Variable ws : list Q.
  Hypothesis Hw : get_weights S = Ok ws.
  Definition wq (q : nat) : R := nth q (map Q2R ws) 0.
  Notation cq q := (nth q S []).
  Definition d1 (x c : vec) : R := rsum (map (fun a => g a * comp c a) (seq 0 D)) + 1 / 2 * rsum (map (fun a => rsum (map (fun b => h a b * (comp x a * comp c b + comp c a * comp x b)) (seq 0 D))) (seq 0 D)).
  Definition d2 (c : vec) : R := rsum (map (fun a => rsum (map (fun b => h a b * (comp c a * comp c b)) (seq 0 D))) (seq 0 D)).
  Lemma mu_back x c : length x = length c -> mu (vadd x (vneg c)) = mu x - d1 x c + 1 / 2 * d2 c.
  Proof.
    intros H. unfold quadratic_field, affine_field, d1, d2.
    rewrite (rsum_ext (fun a => g a * comp (vadd x (vneg c)) a) (fun a => g a * comp x a - g a * comp c a)) by (intros; rewrite comp_vsub by exact H; ring).
    rewrite (rsum_ext (fun a => rsum (map (fun b => h a b * (comp (vadd x (vneg c)) a * comp (vadd x (vneg c)) b)) (seq 0 D)))
      (fun a => rsum (map (fun b => h a b * (comp x a * comp x b)) (seq 0 D)) - rsum (map (fun b => h a b * (comp x a * comp c b + comp c a * comp x b)) (seq 0 D)) + rsum (map (fun b => h a b * (comp c a * comp c b)) (seq 0 D)))).
    2:{ intros a _. rewrite <- rsum_minus, <- rsum_plus. apply rsum_ext. intros b _. rewrite !comp_vsub by exact H. ring. }
    rewrite rsum_minus, rsum_plus, rsum_minus. field.
  Qed.
  Lemma d1_back x c : length x = length c -> d1 (vadd x (vneg c)) c = d1 x c - d2 c.
  Proof.
    intros H. unfold d1, d2.
    rewrite (rsum_ext (fun a => rsum (map (fun b => h a b * (comp (vadd x (vneg c)) a * comp c b + comp c a * comp (vadd x (vneg c)) b)) (seq 0 D)))
      (fun a => rsum (map (fun b => h a b * (comp x a * comp c b + comp c a * comp x b)) (seq 0 D)) - 2 * rsum (map (fun b => h a b * (comp c a * comp c b)) (seq 0 D)))).
    2:{ intros a _. rewrite <- rsum_scal, <- rsum_minus. apply rsum_ext. intros b _. rewrite !comp_vsub by exact H. ring. }
    rewrite rsum_minus, rsum_scal. field.
  Qed.
  Notation E := (fsum (map Q2R ws) S).
  Lemma E_d1 x : E (d1 x) = 0.
  Proof.
    unfold d1. rewrite fsum_plus, fsum_rsum, fsum_scal.
    rewrite (rsum_ext (fun a => g a * E (fun c => comp c a)) (fun _ => 0)) by (intros a Ha; apply in_seq in Ha; rewrite (Ea name ord S HS HW ws Hw) by lia; ring). rewrite rsum_zero.
    rewrite (fsum_ext _ S _ (fun c => rsum (map (fun a => 1 * rsum (map (fun b => h a b * (comp x a * comp c b + comp c a * comp x b)) (seq 0 D))) (seq 0 D)))) by (intros; apply rsum_ext; intros; ring).
    rewrite fsum_rsum. rewrite (rsum_ext _ (fun _ => 0)); [rewrite rsum_zero; ring|]. intros a Ha. apply in_seq in Ha. rewrite fsum_rsum. rewrite (rsum_ext _ (fun _ => 0)); [rewrite rsum_zero; ring|].
    intros b Hb. apply in_seq in Hb. rewrite (fsum_ext _ S _ (fun c => comp x a * comp c b + comp x b * comp c a)) by (intros; ring). rewrite fsum_plus, !fsum_scal, !(Ea name ord S HS HW ws Hw) by lia. ring.
  Qed.
  Lemma E_d2 : E d2 = trace D h / 3.
  Proof.
    unfold d2. rewrite (fsum_ext _ S _ (fun c => rsum (map (fun a => 1 * rsum (map (fun b => h a b * (comp c a * comp c b)) (seq 0 D))) (seq 0 D)))) by (intros; apply rsum_ext; intros; ring).
    rewrite fsum_rsum. unfold trace, Rdiv. rewrite <- rsum_scal_r. apply rsum_ext. intros a Ha. apply in_seq in Ha. rewrite fsum_rsum.
    rewrite (rsum_ext _ (fun b => (h a b / 3) * delta b a)). { rewrite (rsum_delta D a (fun b => h a b / 3)) by lia. field. }
    intros b Hb. apply in_seq in Hb. rewrite (Eab name ord S HS HW ws Hw) by lia. replace (delta b a) with (delta a b) by (unfold delta; rewrite Nat.eqb_sym; reflexivity). field.
  Qed.
  Lemma E_moving k : k (vzero D) = 0 -> rsum (map (fun q => wq q * k (cq q)) (seq 1 (n - 1))) = E k.
  Proof.
    intros Hk. rewrite fsum_index by (rewrite map_length; apply (get_weights_length _ _ Hw)). pose proof (n_pos name ord S HS) as Hn. change (length S) with n. destruct n as [|m] eqn:En; [lia|].
    replace (Datatypes.S m - 1)%nat with m by lia. cbn [seq map]. rewrite rsum_cons, (dir_zero name ord S HS), Hk. unfold wq. ring.
  Qed.
  Lemma d1_zero x : d1 x (vzero D) = 0.
  Proof.
    unfold d1. rewrite (rsum_ext _ (fun _ => 0)) by (intros; rewrite comp_vzero; ring). rewrite rsum_zero.
    rewrite (rsum_ext _ (fun _ => 0)); [rewrite rsum_zero; ring|]. intros a _. rewrite (rsum_ext _ (fun _ => 0)); [apply rsum_zero|]. intros b _. rewrite !comp_vzero. ring.
  Qed.
  Lemma d2_zero : d2 (vzero D) = 0.
  Proof. unfold d2. rewrite (rsum_ext _ (fun _ => 0)); [apply rsum_zero|]. intros a _. rewrite (rsum_ext _ (fun _ => 0)); [apply rsum_zero|]. intros b _. rewrite !comp_vzero. ring. Qed.

  Lemma eq_pop_moving m rho q : (1 <= q < n)%nat -> eq_pop S gamma m rho (rzero D) q = 3 * gamma * m * wq q.
  Proof.
    intros Hq. destruct (ch_equilibrium_form name ord S HS HW m gamma rho (rzero D)) as (ws' & S' & Hw' & ES & HL & w0 & wr & Ew & He). rewrite Hw in Hw'. injection Hw' as <-. cbv zeta in He.
    unfold eq_pop. rewrite He. unfold wq. destruct q as [|q]; [lia|]. cbn [nth]. assert (HlS : n = Datatypes.S (length S')) by (unfold sizeQ; rewrite ES; reflexivity).
    rewrite (nth_combine_map _ wr S' q 0%Q []). 2:{ rewrite Ew in HL. cbn [length] in HL. change (length S) with n in HL. lia. } 2:{ lia. }
    cbn [fst snd]. rewrite Ew. cbn [map nth]. replace (nth q (map Q2R wr) 0) with (Q2R (nth q wr 0%Q)) by (rewrite <- (map_nth Q2R wr 0%Q), RMicromega.Q2R_0; reflexivity). unfold ch_term.
    rewrite (rsum_ext _ (fun _ => 0) (seq 0 D)) by (intros; rewrite nth_rzero; ring). rewrite rsum_zero.
    rewrite (rsum_ext _ (fun _ => 0) (seq 0 D)). 2:{ intros a _. rewrite (rsum_ext _ (fun _ => 0)); [apply rsum_zero|]. intros b _. rewrite nth_rzero. ring. }
    rewrite rsum_zero. field.
  Qed.

  Hypothesis Hom : omega <> 0.
  Variable f : nat -> vec -> list R.
  Hypothesis H0 : forall x, length x = D -> length (f 0%nat x) = n.
  Hypothesis Hstep : forall t x, length x = D -> ch_step S M Minv omega gamma mu (fun _ => rzero D) (f t) x = Ok (f (Datatypes.S t) x).
  Lemma f_length t x : length x = D -> length (f t x) = n.
  Proof.
    revert x. induction t as [|t IH]; intros x Hx; [now apply H0|]. pose proof (Hstep t x Hx) as H. rewrite (step_value name ord S HS HW M Minv HM omega gamma) in H by assumption. injection H as <-. rewrite map_length, seq_length. reflexivity.
  Qed.
  Lemma f_step t x q : length x = D -> (q < n)%nat -> let y := vadd x (vneg (cq q)) in
    nth q (f (Datatypes.S t) x) 0 = nth q (f t y) 0 + omega * (eq_pop S gamma (mu y) (rsum (f t y)) (rzero D) q - nth q (f t y) 0).
  Proof.
    intros Hx Hq y. pose proof (Hstep t x Hx) as H. rewrite (step_value name ord S HS HW M Minv HM omega gamma) in H by (assumption || (intros; now apply f_length)). injection H as <-.
    rewrite nth_map_seq by exact Hq. reflexivity.
  Qed.
  Definition profile (q : nat) (x : vec) : R := 3 * wq q * gamma * (mu x - d1 x (cq q) / omega + 1 / omega * (1 / omega - 1 / 2) * d2 (cq q)).
  Definition dev (q t : nat) (x : vec) : R := nth q (f t x) 0 - profile q x.
  Lemma dev_step q t x : (1 <= q < n)%nat -> length x = D -> dev q (Datatypes.S t) x = (1 - omega) * dev q t (vadd x (vneg (cq q))).
  Proof.
    intros Hq Hx. unfold dev. rewrite f_step by (assumption || lia). cbv zeta. rewrite eq_pop_moving by exact Hq. unfold profile.
    assert (Hc : length x = length (cq q)) by (rewrite (dir_length name ord S HS HW) by lia; exact Hx). rewrite (mu_back x _ Hc), (d1_back x _ Hc). field. exact Hom.
  Qed.
  Lemma dev_bound q B : (1 <= q < n)%nat -> 0 <= B -> (forall x, length x = D -> Rabs (dev q 0 x) <= B * (1 + size D x) ^ 2) ->
    forall t x, length x = D -> Rabs (dev q t x) <= Rabs (1 - omega) ^ t * (B * (1 + size D x + size D (cq q) * INR t) ^ 2).
  Proof.
    intros Hq HB Hb t. induction t as [|t IH]; intros x Hx.
    - cbn [INR pow]. rewrite Rmult_0_r, Rplus_0_r, Rmult_1_l. apply Hb. exact Hx.
    - rewrite dev_step by assumption. rewrite Rabs_mult. cbn [pow]. rewrite Rmult_assoc. apply Rmult_le_compat_l; [apply Rabs_pos|].
      assert (Hl : length (cq q) = D) by (apply (dir_length name ord S HS HW); lia). eapply Rle_trans; [apply IH; now apply vsub_length|].
      apply Rmult_le_compat_l; [apply pow_le, Rabs_pos|]. apply Rmult_le_compat_l; [exact HB|]. change ((1 + size D (vadd x (vneg (cq q))) + size D (cq q) * INR t) ^ 2 <= (1 + size D x + size D (cq q) * INR (Datatypes.S t)) ^ 2). apply pow_incr. rewrite S_INR.
      pose proof (size_nonneg D (vadd x (vneg (cq q)))). pose proof (size_nonneg D (cq q)). pose proof (pos_INR t). pose proof (size_vsub D x (cq q) ltac:(congruence)). split; [|nra].
      apply Rplus_le_le_0_compat; [lra|]. apply Rmult_le_pos; assumption.
  Qed.
  Lemma dev_cv q x : (1 <= q < n)%nat -> 0 < omega < 2 -> length x = D -> (exists B, forall x, length x = D -> Rabs (nth q (f 0%nat x) 0) <= B * (1 + size D x) ^ 2) -> Un_cv (fun t => dev q t x) 0.
  Proof.
    intros Hq Ho Hx [B HB].
    assert (G : quadratic_growth D (profile q)).
    { apply (growth_ext D (fun y => 3 * wq q * gamma * (mu y + (- / omega * d1 y (cq q) + 1 / omega * (1 / omega - 1 / 2) * d2 (cq q))))). { intros y. unfold profile, Rdiv. ring. }
      apply growth_scal, growth_plus; [apply growth_quadratic|]. apply growth_plus; [|apply growth_const]. apply growth_scal. unfold d1. apply growth_plus; [apply growth_const|]. apply growth_scal.
      apply growth_rsum. intros a Ha. apply growth_rsum. intros b Hb. apply in_seq in Ha, Hb. apply growth_scal.
      apply (growth_ext D (fun y => comp (cq q) b * comp y a + comp (cq q) a * comp y b)); [intros; ring|]. apply growth_plus; apply growth_scal, growth_comp; lia. }
    destruct G as (C & HC & HG). assert (Hd : forall y, length y = D -> Rabs (dev q 0 y) <= (Rabs B + C) * (1 + size D y) ^ 2).
    { intros y Hy. unfold dev, Rminus. eapply Rle_trans; [apply Rabs_triang|]. rewrite Rabs_Ropp, Rmult_plus_distr_r. apply Rplus_le_compat; [|apply HG]. eapply Rle_trans; [apply HB; exact Hy|]. apply Rmult_le_compat_r; [apply pow2_ge_0|apply Rle_abs]. }
    pose proof (dev_bound q (Rabs B + C) Hq ltac:(pose proof (Rabs_pos B); lra) Hd) as Hb.
    apply (Un_cv_squeeze _ (fun t => (Rabs B + C) * (Rabs (1 - omega) ^ t * (1 + size D x + size D (cq q) * INR t) ^ 2))).
    - intros t. eapply Rle_trans; [apply Hb; exact Hx|]. right. ring.
    - replace 0 with ((Rabs B + C) * 0) by ring. apply CV_mult; [apply Un_cv_const|]. apply square_geometric; [|pose proof (size_nonneg D x); lra|apply size_nonneg].
      split; [apply Rabs_pos|]. apply Rabs_def1; lra.
  Qed.
  Lemma density_split t x : length x = D -> rsum (f t x) = nth 0 (f t x) 0 + rsum (map (fun q => nth q (f t x) 0) (seq 1 (n - 1))).
  Proof.
    intros Hx. rewrite (rsum_index (f t x)), (f_length t x Hx) at 1. pose proof (n_pos name ord S HS) as Hn. destruct n as [|m]; [lia|]. replace (Datatypes.S m - 1)%nat with m by lia. reflexivity.
  Qed.
  Lemma drift t x : length x = D -> rsum (f (Datatypes.S t) x) - rsum (f t x) =
    gamma * (1 / omega - 1 / 2) * trace D h + rsum (map (fun q => omega * dev q t x + (dev q (Datatypes.S t) x - dev q t x)) (seq 1 (n - 1))).
  Proof.
    intros Hx. pose proof (n_pos name ord S HS) as Hn.
    assert (R0 : nth 0 (f (Datatypes.S t) x) 0 = nth 0 (f t x) 0 + omega * rsum (map (fun q => nth q (f t x) 0 - 3 * gamma * mu x * wq q) (seq 1 (n - 1)))).
    { rewrite f_step by (assumption || lia). cbv zeta. rewrite (dir_zero name ord S HS), (vsub_zero x D Hx). f_equal. f_equal.
      assert (P : eq_pop S gamma (mu x) (rsum (f t x)) (rzero D) 0 = rsum (f t x) - rsum (map (fun q => 3 * gamma * mu x * wq q) (seq 1 (n - 1)))).
      { pose proof (eq_pop_sum name ord S HS HW gamma (mu x) (rsum (f t x)) (rzero D)) as P. destruct n as [|m] eqn:En; [lia|]. replace (Datatypes.S m - 1)%nat with m by lia. cbn [seq map] in P. rewrite rsum_cons in P.
        rewrite (rsum_ext _ (fun q => 3 * gamma * mu x * wq q) (seq 1 m)) in P by (intros q Hq; apply in_seq in Hq; apply eq_pop_moving; lia). lra. }
      rewrite P, (density_split t x Hx), rsum_minus. ring. }
    assert (R1 : rsum (map (fun q => nth q (f t x) 0 - 3 * gamma * mu x * wq q) (seq 1 (n - 1))) = rsum (map (fun q => dev q t x) (seq 1 (n - 1))) + gamma / omega * (1 / omega - 1 / 2) * trace D h).
    { rewrite (rsum_ext _ (fun q => dev q t x + (- (3 * gamma / omega) * (wq q * d1 x (cq q)) + 3 * gamma / omega * (1 / omega - 1 / 2) * (wq q * d2 (cq q))))).
      2:{ intros q _. unfold dev, profile. field. exact Hom. }
      rewrite !rsum_plus, !rsum_scal, (E_moving (d1 x) (d1_zero x)), (E_moving d2 d2_zero), E_d1, E_d2. field. exact Hom. }
    rewrite (density_split (Datatypes.S t) x Hx), (density_split t x Hx), R0, R1.
    rewrite (rsum_ext (fun q => omega * dev q t x + (dev q (Datatypes.S t) x - dev q t x)) (fun q => omega * dev q t x + (nth q (f (Datatypes.S t) x) 0 - nth q (f t x) 0))) by (intros q _; unfold dev; ring).
    rewrite rsum_plus, rsum_scal, rsum_minus. field. exact Hom.
  Qed.
  Lemma diffusion_limit x : 0 < omega < 2 -> length x = D -> (exists B, forall q x, (1 <= q < n)%nat -> length x = D -> Rabs (nth q (f 0%nat x) 0) <= B * (1 + size D x) ^ 2) ->
    Un_cv (fun t => rsum (f (Datatypes.S t) x) - rsum (f t x)) (gamma * (1 / omega - 1 / 2) * trace D h).
  Proof.
    intros Ho Hx [B HB].
    assert (C : Un_cv (fun t => gamma * (1 / omega - 1 / 2) * trace D h + rsum (map (fun q => omega * dev q t x + (dev q (Datatypes.S t) x - dev q t x)) (seq 1 (n - 1)))) (gamma * (1 / omega - 1 / 2) * trace D h + 0)).
    { apply CV_plus; [apply Un_cv_const|]. apply Un_cv_rsum. intros q Hq. apply in_seq in Hq.
      assert (Cq : Un_cv (fun t => dev q t x) 0) by (apply dev_cv; [lia|exact Ho|exact Hx|exists B; intros y Hy; apply HB; [lia|exact Hy]]).
      assert (C1 : Un_cv (fun t => dev q (Datatypes.S t) x) 0). { intros eps He. destruct (Cq eps He) as [N HN]. exists N. intros t Ht. apply HN. lia. }
      replace 0 with (omega * 0 + (0 - 0)) by ring. apply CV_plus; [apply CV_mult; [apply Un_cv_const|exact Cq]|apply CV_minus; assumption]. }
    rewrite Rplus_0_r in C. intros eps He. destruct (C eps He) as [N HN]. exists N. intros t Ht. rewrite (drift t x Hx). apply HN. exact Ht.
  Qed.
  (* the profile itself is a stationary state of the moving populations *)
  Lemma exact_growth t x : length x = D -> (forall q x, (1 <= q < n)%nat -> length x = D -> dev q 0 x = 0) -> rsum (f (Datatypes.S t) x) - rsum (f t x) = gamma * (1 / omega - 1 / 2) * trace D h.
  Proof.
    intros Hx HZ. assert (G : forall t q x, (1 <= q < n)%nat -> length x = D -> dev q t x = 0).
    { clear t x Hx. induction t as [|t IH]; intros q x Hq Hx; [now apply HZ|]. rewrite dev_step by assumption. rewrite IH; [ring|exact Hq|]. apply vsub_length; [exact Hx|]. apply (dir_length name ord S HS HW). lia. }
    rewrite (drift t x Hx). rewrite (rsum_ext _ (fun _ => 0)); [rewrite rsum_zero; ring|]. intros q Hq. apply in_seq in Hq. rewrite !G by (assumption || lia). ring.
  Qed.
End Diffusion.
