(* Binomial shifts, shift matrices, central moment transforms. *)
From Coq Require Import List ZArith Bool Arith Reals Lra Lia Permutation.
From Verif Require Import StencilModel StencilProofs RealLib LinLib TransSpec TransModel MomModel TransProofs.
Import ListNotations.
Local Open Scope R_scope.

(* ---- one dimension ---- *)
Definition bin1 (v : R) (m : nat -> R) (n : nat) : R :=
  rsum (map (fun a => chooseR n a * v ^ (n - a) * m a) (seq 0 (n + 1))).
Definition chooseX (n a : nat) : R := if (a <=? n)%nat then chooseR n a else 0.
Lemma chooseX_0 n : chooseX n 0 = 1.
Proof. unfold chooseX, chooseR, Binomial.C. cbn [Nat.leb]. rewrite Nat.sub_0_r. cbn [fact]. simpl (INR 1). field. apply INR_fact_neq_0. Qed.
Lemma chooseR_n n : chooseR n n = 1.
Proof. unfold chooseR, Binomial.C. rewrite Nat.sub_diag. cbn [fact]. simpl (INR 1). field. apply INR_fact_neq_0. Qed.
Lemma chooseX_S n a : chooseX (S n) (S a) = chooseX n a + chooseX n (S a).
Proof.
  unfold chooseX. cbn [Nat.leb]. destruct (lt_eq_lt_dec a n) as [[H|H]|H].
  - rewrite (proj2 (Nat.leb_le a n)) by lia. destruct n as [|n]; [lia|]. rewrite (proj2 (Nat.leb_le a n)) by lia.
    unfold chooseR. symmetry. apply pascal. lia.
  - subst a. rewrite Nat.leb_refl. destruct n as [|n].
    + rewrite !chooseR_n. lra.
    + rewrite (proj2 (Nat.leb_gt (S n) n)) by lia. rewrite !chooseR_n. lra.
  - rewrite (proj2 (Nat.leb_gt a n)) by lia. destruct n as [|n]; [lra|]. rewrite (proj2 (Nat.leb_gt a n)) by lia. lra.
Qed.
Lemma bin1_X v m n : bin1 v m n = rsum (map (fun a => chooseX n a * v ^ (n - a) * m a) (seq 0 (S n))).
Proof.
  unfold bin1. rewrite Nat.add_1_r. apply rsum_ext. intros a Ha. apply in_seq in Ha.
  unfold chooseX. rewrite (proj2 (Nat.leb_le a n)) by lia. reflexivity.
Qed.
Lemma bin1_0 v m : bin1 v m 0 = m 0%nat.
Proof. rewrite bin1_X. cbn [seq map]. rewrite rsum_cons, chooseX_0. cbn. lra. Qed.
Lemma rsum_seq_last (h : nat -> R) n : rsum (map h (seq 0 (S n))) = rsum (map h (seq 0 n)) + h n.
Proof. rewrite seq_S, map_app, rsum_app. cbn. lra. Qed.
Lemma bin1_S v m n : bin1 v m (S n) = bin1 v (fun a => m (S a) + v * m a) n.
Proof.
  rewrite !bin1_X.
  transitivity (v ^ S n * m 0%nat + rsum (map (fun a => chooseX (S n) (S a) * v ^ (n - a) * m (S a)) (seq 0 (S n)))).
  { change (seq 0 (S (S n))) with (0%nat :: seq 1 (S n)). rewrite <- seq_shift. cbn [map]. rewrite rsum_cons, map_map, chooseX_0.
    rewrite Nat.sub_0_r. f_equal. lra. }
  rewrite (rsum_ext _ (fun a => chooseX n a * v ^ (n - a) * m (S a) + chooseX n (S a) * v ^ (n - a) * m (S a))).
  2:{ intros a _. rewrite chooseX_S. ring. }
  rewrite rsum_plus.
  rewrite (rsum_ext (fun a => chooseX n a * v ^ (n - a) * (m (S a) + v * m a))
             (fun a => chooseX n a * v ^ (n - a) * m (S a) + chooseX n a * v ^ (S n - a) * m a)).
  2:{ intros a Ha. apply in_seq in Ha. rewrite Nat.sub_succ_l by lia. cbn [pow]. ring. }
  rewrite rsum_plus.
  enough (v ^ S n * m 0%nat + rsum (map (fun a => chooseX n (S a) * v ^ (n - a) * m (S a)) (seq 0 (S n))) =
          rsum (map (fun a => chooseX n a * v ^ (S n - a) * m a) (seq 0 (S n)))) by lra.
  rewrite rsum_seq_last. replace (chooseX n (S n)) with 0 by (unfold chooseX; rewrite (proj2 (Nat.leb_gt (S n) n)) by lia; reflexivity).
  change (seq 0 (S n)) with (0%nat :: seq 1 n). rewrite <- seq_shift. cbn [map]. rewrite rsum_cons, map_map, chooseX_0, Nat.sub_0_r.
  cbn [Nat.sub]. lra.
Qed.
Lemma bin1_ext v m m' n : (forall a, (a <= n)%nat -> m a = m' a) -> bin1 v m n = bin1 v m' n.
Proof. intros H. unfold bin1. apply rsum_ext. intros a Ha. apply in_seq in Ha. rewrite H by lia. reflexivity. Qed.
Lemma bin1_plus v m m' n : bin1 v (fun a => m a + m' a) n = bin1 v m n + bin1 v m' n.
Proof. unfold bin1. rewrite <- rsum_plus. apply rsum_ext. intros; ring. Qed.
Lemma bin1_scal v c m n : bin1 v (fun a => c * m a) n = c * bin1 v m n.
Proof. unfold bin1. rewrite <- rsum_scal. apply rsum_ext. intros; ring. Qed.
Lemma bin1_comp u v n : forall m, bin1 u (bin1 v m) n = bin1 (u + v) m n.
Proof.
  induction n as [|n IH]; intros m; [now rewrite !bin1_0|].
  rewrite !bin1_S, <- IH. apply bin1_ext. intros a _. rewrite bin1_S.
  rewrite <- bin1_scal, <- bin1_plus. apply bin1_ext. intros b _. lra.
Qed.
Lemma bin1_zero m n : bin1 0 m n = m n.
Proof. revert m; induction n as [|n IH]; intros m; [apply bin1_0|]. rewrite bin1_S, IH. lra. Qed.
Lemma bin1_pow v x k n : bin1 v (fun a => x ^ a * k) n = (x + v) ^ n * k.
Proof.
  revert k; induction n as [|n IH]; intros k; [rewrite bin1_0; reflexivity|].
  rewrite bin1_S, (bin1_ext _ _ (fun a => x ^ a * ((x + v) * k))); [|intros; cbn; ring].
  rewrite IH. cbn. ring.
Qed.
Lemma bin1_single v k c n : bin1 v (fun a => if (a =? k)%nat then c else 0) n =
  if (k <=? n)%nat then chooseR n k * v ^ (n - k) * c else 0.
Proof.
  unfold bin1. destruct (Nat.leb_spec k n) as [H|H].
  - replace (n + 1)%nat with (k + S (n - k))%nat by lia. rewrite seq_app, map_app, rsum_app. cbn [seq map plus]. rewrite rsum_cons, Nat.eqb_refl.
    rewrite (rsum_ext _ (fun _ => 0)), rsum_zero.
    2:{ intros a Ha. apply in_seq in Ha. rewrite (proj2 (Nat.eqb_neq a k)) by lia. ring. }
    rewrite (rsum_ext _ (fun _ => 0)), rsum_zero; [lra|].
    intros a Ha. apply in_seq in Ha. rewrite (proj2 (Nat.eqb_neq a k)) by lia. ring.
  - rewrite (rsum_ext _ (fun _ => 0)); [apply rsum_zero|]. intros a Ha. apply in_seq in Ha.
    rewrite (proj2 (Nat.eqb_neq a k)) by lia. ring.
Qed.

(* ---- several dimensions ---- *)
Fixpoint bshift (vs : list R) (env : list nat -> R) (e : list nat) : R :=
  match e, vs with
  | n :: e', v :: vs' => bin1 v (fun a => bshift vs' (fun r => env (a :: r)) e') n
  | _, _ => env []
  end.
Lemma bshift_ext vs : forall e env env', (forall r, Forall2 le r e -> env r = env' r) -> length vs = length e -> bshift vs env e = bshift vs env' e.
Proof.
  induction vs as [|v vs IH]; intros [|n e] env env' H Hl; try discriminate; cbn [bshift]; [apply H; constructor|].
  apply bin1_ext. intros a Ha. apply IH; [|cbn in Hl; lia]. intros r Hr. apply H. constructor; auto.
Qed.
Lemma bshift_plus vs : forall e env env', bshift vs (fun r => env r + env' r) e = bshift vs env e + bshift vs env' e.
Proof.
  induction vs as [|v vs IH]; intros [|n e] env env'; cbn [bshift]; auto.
  rewrite <- bin1_plus. apply bin1_ext. intros a _. apply (IH e (fun r => env (a :: r)) (fun r => env' (a :: r))).
Qed.
Lemma bshift_scal vs c : forall e env, bshift vs (fun r => c * env r) e = c * bshift vs env e.
Proof.
  induction vs as [|v vs IH]; intros [|n e] env; cbn [bshift]; auto.
  rewrite <- bin1_scal. apply bin1_ext. intros a _. apply (IH e (fun r => env (a :: r))).
Qed.
Lemma bshift_zero_fun vs e : bshift vs (fun _ => 0) e = 0.
Proof.
  revert e; induction vs as [|v vs IH]; intros [|n e]; cbn [bshift]; try reflexivity.
  rewrite (bin1_ext _ _ (fun _ => 0 * 1)); [rewrite (bin1_scal v 0 (fun _ => 1)); lra|]. intros a _. rewrite IH. lra.
Qed.
Lemma bshift_sum {A} vs e (h : A -> list nat -> R) (l : list A) :
  bshift vs (fun r => rsum (map (fun a => h a r) l)) e = rsum (map (fun a => bshift vs (h a) e) l).
Proof.
  induction l as [|a l IH].
  - cbn [map]. rewrite rsum_nil. apply (bshift_zero_fun vs e).
  - cbn [map]. rewrite rsum_cons, <- IH.
    rewrite <- (bshift_plus vs e (h a) (fun r => rsum (map (fun a => h a r) l))). reflexivity.
Qed.
Lemma bshift_bin1 vs e v n (h : nat -> list nat -> R) :
  bshift vs (fun r => bin1 v (fun a => h a r) n) e = bin1 v (fun a => bshift vs (h a) e) n.
Proof.
  unfold bin1. rewrite (bshift_sum vs e (fun a r => chooseR n a * v ^ (n - a) * h a r)).
  apply rsum_ext. intros a _. apply (bshift_scal vs (chooseR n a * v ^ (n - a)) e (h a)).
Qed.
Lemma bshift_comp us : forall vs e env, length us = length e -> length vs = length e ->
  bshift us (bshift vs env) e = bshift (radd us vs) env e.
Proof.
  induction us as [|u us IH]; intros [|v vs] [|n e] env Hu Hv; try discriminate; [reflexivity|].
  rewrite radd_cons. cbn [bshift]. rewrite <- bin1_comp. apply bin1_ext. intros a _.
  rewrite bshift_bin1. apply bin1_ext. intros b _.
  apply (IH vs e (fun r => env (b :: r))); cbn in *; lia.
Qed.
Lemma bshift_id e : forall env, bshift (rzero (length e)) env e = env e.
Proof. induction e as [|n e IH]; intros env; [reflexivity|]. cbn [length rzero repeat bshift]. rewrite bin1_zero. apply (IH (fun r => env (n :: r))). Qed.
Lemma radd_opp u : radd u (map Ropp u) = rzero (length u).
Proof. induction u as [|a u IH]; [reflexivity|]. cbn [map]. rewrite radd_cons, IH. cbn. f_equal. lra. Qed.
Lemma bshift_inverse u e env : length u = length e -> bshift u (bshift (map Ropp u) env) e = env e.
Proof. intros H. rewrite bshift_comp by (rewrite ?map_length; auto). rewrite radd_opp, H. apply bshift_id. Qed.
Lemma bshift_inverse' u e env : length u = length e -> bshift (map Ropp u) (bshift u env) e = env e.
Proof. intros H. rewrite bshift_comp by (rewrite ?map_length; auto). rewrite radd_comm, radd_opp, H. apply bshift_id. Qed.
Lemma bshift_mono vs : forall x e, length vs = length e -> length x = length e -> bshift vs (rmono x) e = rmono (radd x vs) e.
Proof.
  induction vs as [|v vs IH]; intros [|a x] [|n e] Hv Hx; try discriminate; [reflexivity|].
  rewrite radd_cons. cbn [bshift rmono].
  rewrite (bin1_ext _ _ (fun b => a ^ b * bshift vs (rmono x) e)).
  2:{ intros b _. apply (bshift_scal vs (a ^ b) e (rmono x)). }
  rewrite bin1_pow, IH by (cbn in *; lia). reflexivity.
Qed.
Lemma rsub_opp a u vs : length a = length u -> length u = length vs -> radd (rsub a u) vs = rsub a (rsub u vs).
Proof.
  revert u vs; induction a as [|x a IH]; intros [|y u] [|z vs] H1 H2; try discriminate; [reflexivity|].
  rewrite !rsub_cons, radd_cons, IH by (cbn in *; lia). f_equal. lra.
Qed.
Lemma bshift_central D f S w vs e : stencil_wf D S -> length w = D -> length vs = D -> length e = D ->
  bshift vs (central_moment f S w) e = central_moment f S (rsub w vs) e.
Proof.
  intros [_ Hl] Hw Hv He. unfold central_moment.
  rewrite (bshift_sum vs e (fun fc r => fst fc * rmono (rsub (vecR (snd fc)) w) r)).
  apply rsum_ext. intros [a c] Hin. cbn [fst snd]. apply in_combine_r in Hin. rewrite Forall_forall in Hl. specialize (Hl c Hin).
  rewrite (bshift_scal vs a e (rmono (rsub (vecR c) w))), bshift_mono.
  - rewrite rsub_opp; [reflexivity| |congruence]. unfold vecR. rewrite map_length. congruence.
  - congruence.
  - rewrite rsub_length. unfold vecR. rewrite map_length. lia.
Qed.
Lemma rsub_zero_opp u : rsub (rzero (length u)) (map Ropp u) = u.
Proof. induction u as [|a u IH]; [reflexivity|]. cbn [length rzero repeat map]. rewrite rsub_cons. f_equal; [lra|exact IH]. Qed.
Lemma rsub_self u : rsub u u = rzero (length u).
Proof. apply rsub_diag. Qed.

(* ---- the model's recursion computes bshift ---- *)
Lemma binomial_derive_ok vs env : forall remaining fixed g, length vs = length remaining ->
  (forall r, Forall2 le r remaining -> env (fixed ++ r) = Ok (g r)) ->
  binomial_derive vs env fixed remaining = Ok (bshift vs g remaining).
Proof.
  induction vs as [|v vs IH]; intros [|n rest] fixed g Hl Henv; try discriminate; cbn [binomial_derive bshift].
  - specialize (Henv [] (Forall2_nil _)). now rewrite app_nil_r in Henv.
  - rewrite (mapM_ext _ (fun a => Ok (chooseR n a * v ^ (n - a) * bshift vs (fun r => g (a :: r)) rest))).
    + rewrite mapM_map_Ok. reflexivity.
    + intros a Ha. apply in_seq in Ha. rewrite (IH rest (fixed ++ [a]) (fun r => g (a :: r))); [reflexivity|cbn in Hl; lia|].
      intros r Hr. rewrite <- app_assoc. apply (Henv (a :: r)). constructor; [lia|auto].
Qed.
Lemma Forall2_length {A B} (q : A -> B -> Prop) r e : Forall2 q r e -> length r = length e.
Proof. induction 1; cbn; congruence. Qed.
Definition env_val (exps : list (list nat)) (vals : list R) (e : list nat) : R :=
  match tuple_index e exps with Some i => nth i vals 0 | None => 0 end.
Lemma binomial_chimera_ok D vs exps vals : length vs = D -> Forall (fun e => length e = D) exps -> down_closed exps ->
  binomial_chimera vs exps vals = Ok (map (bshift vs (env_val exps vals)) exps).
Proof.
  intros Hv He Hd. unfold binomial_chimera.
  rewrite (mapM_ext _ (fun e => Ok (bshift vs (env_val exps vals) e))); [apply mapM_map_Ok|].
  intros e Hin. rewrite Forall_forall in He. apply binomial_derive_ok; [rewrite (He e Hin); auto|].
  intros r Hr. cbn [app]. unfold env_of, env_val.
  destruct (tuple_index_In r exps) as [i ->]; [|reflexivity]. apply (Hd e r); auto. eapply Forall2_length; eauto.
Qed.
Lemma env_val_map exps (g : list nat -> R) e : In e exps -> env_val exps (map g exps) e = g e.
Proof.
  intros H. unfold env_val. destruct (tuple_index_In e exps H) as [i Hi]. rewrite Hi. apply nth_map_tuple. now apply tuple_index_nth.
Qed.
Lemma map_env_val exps vals : NoDup exps -> length vals = length exps -> map (env_val exps vals) exps = vals.
Proof.
  intros Hnd Hl. apply list_ext; rewrite map_length; [auto|]. intros i Hi.
  destruct (nth_error exps i) as [e|] eqn:E; [|apply nth_error_None in E; lia].
  rewrite (nth_map_tuple _ _ _ _ E). unfold env_val. now rewrite (tuple_index_of_nth exps i e).
Qed.
Lemma binomial_chimera_moments D vs exps f S w : stencil_wf D S -> length w = D -> length vs = D ->
  Forall (fun e => length e = D) exps -> down_closed exps ->
  binomial_chimera vs exps (map (central_moment f S w) exps) = Ok (map (central_moment f S (rsub w vs)) exps).
Proof.
  intros Hw Hlw Hv He Hd. rewrite (binomial_chimera_ok D) by auto. f_equal. apply map_ext_in. intros e Hin.
  pose proof He as He'. rewrite Forall_forall in He'. rewrite <- (bshift_central D f S w vs e) by auto.
  apply bshift_ext; [|rewrite (He' e Hin); auto]. intros r Hr. apply env_val_map. apply (Hd e r); auto. eapply Forall2_length; eauto.
Qed.
Lemma binomial_chimera_comp D us vs exps vals : length us = D -> length vs = D ->
  NoDup exps -> length vals = length exps -> Forall (fun e => length e = D) exps -> down_closed exps ->
  rbind (binomial_chimera vs exps vals) (binomial_chimera us exps) = binomial_chimera (radd us vs) exps vals.
Proof.
  intros Hu Hv Hnd Hl He Hd. rewrite (binomial_chimera_ok D vs) by auto. cbn [rbind].
  rewrite (binomial_chimera_ok D us), (binomial_chimera_ok D (radd us vs)) by (rewrite ?radd_length; auto; lia).
  f_equal. apply map_ext_in. intros e Hin. pose proof He as He'. rewrite Forall_forall in He'. specialize (He' e Hin).
  rewrite <- bshift_comp by congruence. apply bshift_ext; [|congruence]. intros r Hr. apply env_val_map.
  apply (Hd e r); auto. eapply Forall2_length; eauto.
Qed.
Lemma binomial_chimera_id D exps vals : NoDup exps -> length vals = length exps -> Forall (fun e => length e = D) exps -> down_closed exps ->
  binomial_chimera (rzero D) exps vals = Ok vals.
Proof.
  intros Hnd Hl He Hd. rewrite (binomial_chimera_ok D) by (rewrite ?rzero_length; auto). f_equal.
  rewrite <- (map_env_val exps vals) at 2 by auto. apply map_ext_in. intros e Hin. rewrite Forall_forall in He. rewrite <- (He e Hin). apply bshift_id.
Qed.

(* ---- shift matrices ---- *)
Section Shift.
  Variables (D n : nat) (S : stencil) (exps : list (list nat)) (Minv : mat).
  Hypothesis Hwf : stencil_wf D S.
  Hypothesis Hq : length S = n.
  Hypothesis Hexp : Forall (fun e => length e = D) exps.
  Hypothesis Hinv : is_inverse n (monomial_matrix exps S (rzero D)) Minv.
  Definition Nmat (u : list R) : mat := shift_matrix n (monomial_matrix exps S u) Minv.
  Lemma exps_len : length exps = n.
  Proof. destruct Hinv as [[H _] _]. unfold monomial_matrix in H. now rewrite map_length in H. Qed.
  Lemma Nmat_wf u : mat_wf n n (Nmat u).
  Proof.
    unfold Nmat, shift_matrix. apply (mm_wf n n n); [|apply Hinv].
    destruct (monomial_matrix_wf exps S u) as [H1 H2]. split; [rewrite H1; apply exps_len|]. rewrite <- Hq. exact H2.
  Qed.
  Lemma Nmat_action u f : length f = n -> mv (Nmat u) (map (central_moment f S (rzero D)) exps) = map (central_moment f S u) exps.
  Proof.
    intros Hf. unfold Nmat, shift_matrix. rewrite mv_mm by apply Hinv. rewrite <- mv_monomial_matrix.
    destruct Hinv as (_ & _ & _ & H). rewrite H by auto. apply mv_monomial_matrix.
  Qed.
  Lemma raw_vals vals : length vals = n -> map (central_moment (mv Minv vals) S (rzero D)) exps = vals.
  Proof. intros H. rewrite <- mv_monomial_matrix. destruct Hinv as (_ & _ & H1 & _). now apply H1. Qed.
  Lemma Nmat_binomial u vals : length u = D -> down_closed exps -> length vals = n ->
    binomial_chimera (map Ropp u) exps vals = Ok (mv (Nmat u) vals).
  Proof.
    intros Hu Hd Hv. rewrite <- (raw_vals vals Hv) at 1 2.
    rewrite (binomial_chimera_moments D) by (rewrite ?map_length, ?rzero_length; auto).
    f_equal. rewrite Nmat_action. 2:{ rewrite mv_length. destruct Hinv as (_ & [H _] & _). exact H. }
    rewrite <- Hu, rsub_zero_opp. reflexivity.
  Qed.
  Lemma Nmat_binomial_fwd u vals : length u = D -> down_closed exps -> length vals = n ->
    binomial_chimera u exps vals = Ok (mv (Nmat (map Ropp u)) vals).
  Proof.
    intros Hu Hd Hv. rewrite <- (Nmat_binomial (map Ropp u)) by (rewrite ?map_length; auto).
    rewrite map_map. rewrite (map_ext _ (fun x => x)) by (intros; lra). now rewrite map_id.
  Qed.
  Lemma Nmat_inverse u : length u = D -> down_closed exps -> NoDup exps -> is_inverse n (Nmat u) (Nmat (map Ropp u)).
  Proof.
    intros Hu Hd Hnd. split; [apply Nmat_wf|]. split; [apply Nmat_wf|].
    assert (G : forall v v' x, length v = D -> length v' = D -> radd v v' = rzero D -> length x = n ->
               mv (Nmat (map Ropp v)) (mv (Nmat (map Ropp v')) x) = x).
    { intros v v' x Hv Hv' Hz Hx.
      assert (E : Ok (mv (Nmat (map Ropp v)) (mv (Nmat (map Ropp v')) x)) = Ok x); [|congruence].
      rewrite <- Nmat_binomial_fwd; auto. 2:{ rewrite mv_length. apply Nmat_wf. }
      transitivity (rbind (binomial_chimera v' exps x) (binomial_chimera v exps)).
      { rewrite (Nmat_binomial_fwd v' x) by auto. reflexivity. }
      rewrite (binomial_chimera_comp D) by (auto; rewrite exps_len; auto). rewrite Hz.
      apply binomial_chimera_id; auto. rewrite exps_len; auto. }
    assert (E : map Ropp (map Ropp u) = u).
    { rewrite map_map. rewrite (map_ext _ (fun x => x)) by (intros; lra). now rewrite map_id. }
    split; intros x Hx.
    - rewrite <- E at 1. apply G; auto; rewrite ?map_length; auto. rewrite radd_comm, radd_opp. congruence.
    - rewrite <- E at 2. apply G; auto; rewrite ?map_length; auto. rewrite radd_opp. congruence.
  Qed.

  (* entries *)
  Lemma bshift_single u : forall e r, length u = length e -> length r = length e ->
    bshift u (fun x => if tuple_eqb x r then 1 else 0) e = multi_choose u e r.
  Proof.
    clear. induction u as [|a u IH]; intros [|n e] [|k r] Hu Hr; try discriminate; cbn [bshift multi_choose].
    - reflexivity.
    - rewrite (bin1_ext _ _ (fun b => if (b =? k)%nat then multi_choose u e r else 0)).
      + rewrite bin1_single. destruct (k <=? n)%nat; lra.
      + intros b _. destruct (Nat.eqb_spec b k) as [->|Hb].
        * rewrite <- IH by (cbn in *; lia). apply bshift_ext; [|cbn in *; lia]. intros x _.
          destruct (tuple_eqb x r) eqn:E1, (tuple_eqb (k :: x) (k :: r)) eqn:E2; auto.
          -- apply tuple_eqb_eq in E1. subst. rewrite tuple_eqb_refl in E2. discriminate.
          -- apply tuple_eqb_eq in E2. injection E2 as ->. rewrite tuple_eqb_refl in E1. discriminate.
        * rewrite (bshift_ext u e _ (fun _ => 0)); [apply bshift_zero_fun| |cbn in *; lia].
          intros x _. destruct (tuple_eqb (b :: x) (k :: r)) eqn:E; [|reflexivity]. apply tuple_eqb_eq in E. congruence.
  Qed.
  Lemma Nmat_entry u i j ei ej : length u = D -> down_closed exps -> NoDup exps ->
    nth_error exps i = Some ei -> nth_error exps j = Some ej ->
    nth j (nth i (Nmat u) []) 0 = multi_choose (map Ropp u) ei ej.
  Proof.
    intros Hu Hd Hnd Hi Hj.
    assert (Li : (i < n)%nat) by (rewrite <- exps_len; apply nth_error_Some; congruence).
    assert (Lj : (j < n)%nat) by (rewrite <- exps_len; apply nth_error_Some; congruence).
    destruct (Nmat_wf u) as [HN1 HN2].
    rewrite <- (dot_unitv _ n j), <- nth_mv; auto.
    2:{ rewrite Forall_forall in HN2. apply HN2. apply nth_In. lia. }
    pose proof (Nmat_binomial u (unitv n j) Hu Hd (unitv_length n j)) as HB.
    rewrite (binomial_chimera_ok D) in HB by (rewrite ?map_length; auto). injection HB as HB. rewrite <- HB.
    rewrite (nth_map_tuple _ _ _ _ Hi).
    pose proof Hexp as He. rewrite Forall_forall in He.
    assert (Lei : length ei = D) by (apply He; eapply nth_error_In; eauto).
    assert (Lej : length ej = D) by (apply He; eapply nth_error_In; eauto).
    rewrite <- bshift_single by (rewrite ?map_length; congruence).
    apply bshift_ext; [|rewrite map_length; congruence]. intros r Hr.
    assert (Hin : In r exps). { apply (Hd ei r); [eapply nth_error_In; eauto|eapply Forall2_length; eauto|auto]. }
    destruct (tuple_index_In r exps Hin) as [k Hk]. unfold env_val. rewrite Hk. apply tuple_index_nth in Hk.
    assert (Lk : (k < n)%nat) by (rewrite <- exps_len; apply nth_error_Some; congruence).
    unfold unitv. rewrite nth_map_seq by auto.
    destruct (Nat.eqb_spec j k) as [->|Hjk], (tuple_eqb r ej) eqn:E; auto.
    - rewrite Hk in Hj. injection Hj as ->. rewrite tuple_eqb_refl in E. discriminate.
    - apply tuple_eqb_eq in E. subst r. exfalso. apply Hjk. eapply NoDup_nth_error; eauto; [rewrite exps_len; auto|congruence].
  Qed.
  Lemma multi_choose_diag u e : multi_choose u e e = 1.
  Proof. clear. revert e; induction u as [|a u IH]; intros [|n e]; try reflexivity. cbn [multi_choose]. rewrite Nat.leb_refl, IH, chooseR_n, Nat.sub_diag. cbn. lra. Qed.
  Lemma multi_choose_above u e r : length u = length e -> length r = length e -> ~ Forall2 le r e -> multi_choose u e r = 0.
  Proof.
    clear. revert e r; induction u as [|a u IH]; intros [|n e] [|k r] Hu Hr H; try discriminate; cbn [multi_choose].
    - destruct H. constructor.
    - destruct (Nat.leb_spec k n) as [Hk|Hk]; [|lra]. rewrite IH; [lra|cbn in *; lia|cbn in *; lia|]. intros H'. apply H. constructor; auto.
  Qed.
End Shift.

Lemma Forall2_le_nsum r e : Forall2 le r e -> (nsum r <= nsum e)%nat /\ (nsum r = nsum e -> r = e).
Proof.
  unfold nsum. induction 1 as [|a b r e H1 H2 [IH1 IH2]]; cbn; [auto|]. split; [lia|]. intros H. f_equal; [lia|apply IH2; lia].
Qed.
