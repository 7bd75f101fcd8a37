(* Cahn-Hilliard collision and streaming: diffusion in a quadratic chemical potential, advection of an affine order parameter. *)
From Coq Require Import String List ZArith Bool Arith QArith Reals Qreals Lra Lia.
From Verif Require Import StencilModel StencilProofs StencilProofs2 RealLib LinLib EqModel EqSpec EqProofs CollModel ChModel ChSpec ChProofs.
Import ListNotations.
Local Open Scope R_scope.

Lemma mapM_seq_ok (g : nat -> res R) (h : nat -> R) n : (forall q, (q < n)%nat -> g q = Ok (h q)) -> mapM g (seq 0 n) = Ok (map h (seq 0 n)).
Proof.
  intros H. assert (G : forall m k, (k + m <= n)%nat -> mapM g (seq k m) = Ok (map h (seq k m))).
  { induction m as [|m IH]; intros k Hk; [reflexivity|]. cbn [seq mapM map]. rewrite H by lia. rewrite IH by lia. reflexivity. }
  apply G. lia.
Qed.
Lemma fsum_index f S g : length f = length S -> fsum f S g = rsum (map (fun q => nth q f 0 * g (nth q S [])) (seq 0 (length S))).
Proof.
  unfold fsum. revert S; induction f as [|x f IH]; intros [|c S] HL; try discriminate; [reflexivity|].
  cbn [combine map length seq]. rewrite !rsum_cons, <- seq_shift, map_map, IH by (injection HL; auto). reflexivity.
Qed.
Lemma rsum_index (f : list R) : rsum f = rsum (map (fun q => nth q f 0) (seq 0 (length f))).
Proof.
  induction f as [|x f IH]; [reflexivity|]. cbn [length seq map]. rewrite !rsum_cons, <- seq_shift, map_map, IH at 1. reflexivity.
Qed.
Lemma nth_combine_map {A B} (F : A * B -> R) (l : list A) (m : list B) q a b : (q < length l)%nat -> (q < length m)%nat -> nth q (map F (combine l m)) 0 = F (nth q l a, nth q m b).
Proof.
  revert m q; induction l as [|x l IH]; intros [|y m] [|q] Hl Hm; cbn [length] in *; try lia; cbn [combine map nth]; [reflexivity|]. apply IH; lia.
Qed.

Section Dynamics.
  Variables (name ord : string) (S : stencil).
  Hypothesis HS : predefined_stencils name ord = Ok S.
  Hypothesis HW : has_weights S = true.
  Variables (M Minv : mat).
  Hypothesis HM : is_inverse (sizeQ S) M Minv.
  Variables (omega gamma : R).
  Notation D := (dimD S).
  Notation n := (sizeQ S).

  Lemma dir_length q : (q < n)%nat -> length (nth q S []) = D.
  Proof. intros Hq. destruct (iso_facts name ord S HS HW) as (_ & _ & _ & H & _). apply H. now apply nth_In. Qed.
  Lemma dir_zero : nth 0 S [] = vzero D.
  Proof. destruct (predefined_first name ord S HS) as [S' E]. rewrite E at 1. reflexivity. Qed.
  Lemma n_pos : (0 < n)%nat.
  Proof. destruct (predefined_first name ord S HS) as [S' E]. unfold sizeQ. rewrite E. cbn. lia. Qed.
  Lemma relaxed f g : length f = n -> length g = n -> radd f (mv Minv (rmul (repeat omega n) (rsub (mv M g) (mv M f)))) = radd f (rscal omega (rsub g f)).
  Proof.
    intros Hf Hg. destruct HM as ((HM1 & HM2) & (HN1 & HN2) & H1 & H2). f_equal. rewrite <- mv_rsub by congruence.
    assert (Hl : length (rsub g f) = n) by (rewrite rsub_length; lia).
    replace (rmul (repeat omega n) (mv M (rsub g f))) with (rscal omega (mv M (rsub g f))).
    - rewrite mv_scal, H2 by exact Hl. reflexivity.
    - rewrite <- HM1 at 1. rewrite <- (mv_length M (rsub g f)). generalize (mv M (rsub g f)). induction l as [|x l IH]; [reflexivity|]. cbn. unfold rmul, rscal in *. cbn. f_equal. exact IH.
  Qed.
  Definition eq_pop (mu rho : R) (v : list R) (q : nat) : R :=
    match ch_equilibrium S mu gamma rho v with Ok f => nth q f 0 | Err _ => 0 end.
  Lemma eq_ok mu rho v : exists f, ch_equilibrium S mu gamma rho v = Ok f /\ length f = n.
  Proof.
    destruct (ch_equilibrium_form name ord S HS HW mu gamma rho v) as (ws & S' & _ & E & HL & w0 & ws' & Ew & H). cbv zeta in H. eexists. split; [exact H|].
    cbn [length]. rewrite map_length, combine_length. subst ws. unfold sizeQ. rewrite E in HL |- *. cbn [length] in *. lia.
  Qed.
  Lemma collision_ok mu v f : length f = n -> exists g, ch_collision S M Minv omega gamma mu v f = Ok g /\ length g = n /\
    forall q, (q < n)%nat -> nth q g 0 = nth q f 0 + omega * (eq_pop mu (rsum f) v q - nth q f 0).
  Proof.
    intros Hf. unfold ch_collision. assert (Ep : pdf_density false f = rsum f) by (unfold pdf_density; ring). rewrite Ep. destruct (eq_ok mu (rsum f) v) as (e & He & Hl). unfold eq_pop. rewrite He. cbn [rbind]. rewrite relaxed by assumption. eexists. split; [reflexivity|].
    assert (Hr : length (rscal omega (rsub e f)) = n) by (rewrite rscal_length, rsub_length; lia). split; [rewrite radd_length; lia|].
    intros q Hq. rewrite nth_radd, nth_rscal, nth_rsub by congruence. reflexivity.
  Qed.
  Lemma step_value mu v f x : (forall y, length y = D -> length (f y) = n) -> length x = D ->
    ch_step S M Minv omega gamma mu v f x = Ok (map (fun q => let y := vadd x (vneg (nth q S [])) in nth q (f y) 0 + omega * (eq_pop (mu y) (rsum (f y)) (v y) q - nth q (f y) 0)) (seq 0 n)).
  Proof.
    intros Hf Hx. unfold ch_step. apply mapM_seq_ok. intros q Hq. cbv zeta.
    assert (Hy : length (vadd x (vneg (nth q S []))) = D) by (unfold vadd, vneg; rewrite map_length, combine_length, map_length, (dir_length q Hq); lia).
    destruct (collision_ok (mu (vadd x (vneg (nth q S [])))) (v (vadd x (vneg (nth q S [])))) (f (vadd x (vneg (nth q S [])))) (Hf _ Hy)) as (g & Hg & Hl & Hv).
    rewrite Hg. cbn [rbind]. destruct (nth_error g q) as [p|] eqn:E; [|apply nth_error_None in E; lia]. apply (nth_error_nth _ _ 0) in E. rewrite <- E, Hv by exact Hq. reflexivity.
  Qed.
  (* mass *)
  Lemma eq_pop_sum mu rho v : rsum (map (eq_pop mu rho v) (seq 0 n)) = rho.
  Proof.
    destruct (eq_ok mu rho v) as (e & He & Hl). unfold eq_pop. rewrite He. destruct (iso_facts name ord S HS HW) as (ws & Hw & _).
    pose proof (ch_density name ord S HS HW mu gamma rho v ws Hw e He) as Hd. unfold density in Hd. rewrite fsum_index in Hd by exact Hl. rewrite <- Hd. apply rsum_ext. intros; ring.
  Qed.
  Lemma collision_mass mu v f g : length f = n -> ch_collision S M Minv omega gamma mu v f = Ok g -> length g = n /\ rsum g = rsum f.
  Proof.
    intros Hf Hg. destruct (collision_ok mu v f Hf) as (g' & E & Hl & Hv). rewrite Hg in E. injection E as <-. split; [exact Hl|].
    rewrite (rsum_index g), Hl, (rsum_ext _ (fun q => nth q f 0 + omega * (eq_pop mu (rsum f) v q - nth q f 0))) by (intros q Hq; apply in_seq in Hq; apply Hv; lia).
    rewrite rsum_plus, rsum_scal, rsum_minus, eq_pop_sum. rewrite (rsum_index f), Hf. ring.
  Qed.
  Lemma collision_momentum mu v f g a : length f = n -> (a < D)%nat -> ch_collision S M Minv omega gamma mu v f = Ok g -> momentum g S a = momentum f S a + omega * (rsum f * nth a v 0 - momentum f S a).
  Proof.
    intros Hf Ha Hg. destruct (collision_ok mu v f Hf) as (g' & E & Hl & Hv). rewrite Hg in E. injection E as <-.
    destruct (eq_ok mu (rsum f) v) as (e & He & Hle). destruct (iso_facts name ord S HS HW) as (ws & Hw & _).
    rewrite <- (ch_momentum name ord S HS HW mu gamma (rsum f) v ws Hw e He a Ha). unfold momentum. rewrite !fsum_index by assumption.
    rewrite <- rsum_minus, <- rsum_scal, <- rsum_plus. apply rsum_ext. intros q Hq. apply in_seq in Hq. rewrite Hv by (unfold sizeQ; lia). unfold eq_pop. rewrite He. ring.
  Qed.
End Dynamics.
