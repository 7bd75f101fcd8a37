(* Cumulants of discrete populations and of the Maxwellian. *)
From Coq Require Import List ZArith Bool Arith Reals Lra Lia Permutation.
From Verif Require Import StencilModel RealLib LinLib TransSpec MomModel MomProofs EqModel CumModel CumProofs CumProofs2.
Import ListNotations.
Local Open Scope R_scope.

Definition wprod (x : list R) : jet := fun w => fold_right Rmult 1 (map (fun i => nth i x 0) w).
Lemma wprod_cons x i w : wprod x (i :: w) = nth i x 0 * wprod x w. Proof. reflexivity. Qed.
Lemma isexp_wprod x : isexp (wprod x) (linj x).
Proof.
  split; [cbn; now rewrite exp_0|]. intros i w. rewrite wprod_cons.
  rewrite (jmul_ext w (wprod x) (jd i (linj x)) (wprod x) (jconst (nth i x 0))) by auto.
  now rewrite jmul_const_r.
Qed.
Lemma J_exp_elin D env x w : (length x <= D)%nat -> J D (rzero D) env (EExp (elin x)) w = wprod x w.
Proof. intros Hx. eapply isexp_unique; [apply isexp_J|apply isexp_wprod|]. intros v _. now apply J_elin0. Qed.
Lemma nth_radd a b i : length a = length b -> nth i (radd a b) 0 = nth i a 0 + nth i b 0.
Proof.
  revert b i. induction a as [|x a IH]; intros [|y b] i L; try discriminate; [destruct i; cbn; lra|].
  destruct i; cbn; [reflexivity|]. apply IH. cbn in L. lia.
Qed.
Lemma nth_rsub a b i : length a = length b -> nth i (rsub a b) 0 = nth i a 0 - nth i b 0.
Proof.
  revert b i. induction a as [|x a IH]; intros [|y b] i L; try discriminate; [destruct i; cbn; lra|].
  destruct i; cbn; [reflexivity|]. apply IH. cbn in L. lia.
Qed.
Lemma jmul_wprod w : forall u x k k', length x = length u -> jmul (fun v => k * wprod u v) (fun v => k' * wprod (rsub x u) v) w = k * k' * wprod x w.
Proof.
  induction w as [|i w IH]; intros u x k k' L; cbn [jmul].
  - cbn. lra.
  - rewrite wprod_cons.
    rewrite (jmul_ext w (fun v => k * wprod u (i :: v)) _ (fun v => (k * nth i u 0) * wprod u v) (fun v => k' * wprod (rsub x u) v)) by (intros; auto; rewrite wprod_cons; lra).
    rewrite (jmul_ext w (fun v => k * wprod u v) (fun v => k' * wprod (rsub x u) (i :: v)) (fun v => k * wprod u v) (fun v => (k' * nth i (rsub x u) 0) * wprod (rsub x u) v)) by (intros; auto; rewrite wprod_cons; lra).
    rewrite !IH by auto. rewrite nth_rsub by auto. lra.
Qed.
Lemma rmono_seq x : forall k g g' i, (k <= i < k + length x)%nat -> g' i = S (g i) -> (forall j, j <> i -> g' j = g j) ->
  rmono x (map g' (seq k (length x))) = nth (i - k) x 0 * rmono x (map g (seq k (length x))).
Proof.
  induction x as [|a x IH]; intros k g g' i Hi Hg Hne; [cbn in Hi; lia|].
  cbn [length seq map rmono] in *. destruct (Nat.eq_dec k i) as [->|Hk].
  - rewrite Nat.sub_diag. cbn [nth]. rewrite Hg. cbn [pow].
    rewrite (map_ext_in g' g); [lra|]. intros j Hj. apply in_seq in Hj. apply Hne. lia.
  - rewrite (Hne k) by auto. rewrite (IH (S k) g g' i) by (auto; lia). replace (i - k)%nat with (S (i - S k))%nat by lia. cbn [nth]. lra.
Qed.
Lemma tally_cons_count w i j : count_occ Nat.eq_dec (i :: w) j = if Nat.eq_dec i j then S (count_occ Nat.eq_dec w j) else count_occ Nat.eq_dec w j.
Proof. reflexivity. Qed.
Lemma wprod_rmono D x w : length x = D -> inD D w -> wprod x w = rmono x (tally D w).
Proof.
  intros L. induction w as [|i w IH]; intros Hw.
  - unfold tally. cbn [count_occ]. subst D. symmetry. change (wprod x []) with 1.
    assert (E : forall y k, rmono y (map (fun _ : nat => 0%nat) (seq k (length y))) = 1).
    { induction y as [|a y IHy]; intros k; [reflexivity|]. cbn. rewrite IHy. lra. }
    apply E.
  - inversion Hw as [|? ? Hi Hw']; subst. rewrite wprod_cons, IH by auto. unfold tally.
    rewrite (rmono_seq x 0 (count_occ Nat.eq_dec w) (count_occ Nat.eq_dec (i :: w)) i); [now rewrite Nat.sub_0_r|lia| |].
    + cbn. destruct (Nat.eq_dec i i); congruence.
    + intros j Hj. cbn. destruct (Nat.eq_dec i j); congruence.
Qed.

Section Discrete.
  Variables (D : nat) (S : stencil) (f : list R).
  Hypothesis HS : Forall (fun c => length c = D) S.
  Let lap := laplace_transformation f S.
  Lemma J_lap env w : J D (rzero D) env lap w = rsum (map (fun fc => fst fc * wprod (vecR (snd fc)) w) (combine f S)).
  Proof.
    unfold lap, laplace_transformation. rewrite J_esum, map_map. f_equal. apply map_ext_in. intros [a c] Hin. cbn [fst snd].
    rewrite J_mul. rewrite (jmul_ext w _ _ (jconst a) (wprod (vecR c))).
    - apply jmul_const_l.
    - intros v _. apply J_const.
    - intros v _. apply J_exp_elin. apply in_combine_r in Hin. rewrite Forall_forall in HS. unfold vecR. rewrite map_length, HS; auto.
  Qed.
  Lemma lap_central u w : length u = D -> inD D w ->
    rsum (map (fun fc => fst fc * wprod (vecR (snd fc)) w) (combine f S)) =
    jmul (wprod u) (fun v => rsum (map (fun fc => fst fc * wprod (rsub (vecR (snd fc)) u) v) (combine f S))) w.
  Proof.
    intros Hu Hw.
    assert (Hc : forall fc, In fc (combine f S) -> length (vecR (snd fc)) = length u).
    { intros [a c] Hin. apply in_combine_r in Hin. rewrite Forall_forall in HS. cbn. unfold vecR. rewrite map_length, HS; auto. }
    revert Hc. induction (combine f S) as [|fc l IH]; intros Hc.
    - cbn. symmetry. apply jmul_zero_r.
    - cbn [map]. unfold rsum in *. cbn [fold_right]. rewrite (jmul_add_r w (wprod u)). rewrite <- IH by (intros; apply Hc; now right).
      f_equal. rewrite (jmul_ext w (wprod u) _ (fun v => 1 * wprod u v) (fun v => fst fc * wprod (rsub (vecR (snd fc)) u) v)) by (intros; auto; lra).
      rewrite jmul_wprod by (apply Hc; now left). lra.
  Qed.
  Lemma central_word u v : length u = D -> inD D v ->
    central_moment f S u (tally D v) = rsum (map (fun fc => fst fc * wprod (rsub (vecR (snd fc)) u) v) (combine f S)).
  Proof.
    intros Hu Hv. unfold central_moment. f_equal. apply map_ext_in. intros [a c] Hin. cbn [fst snd]. f_equal. symmetry. apply wprod_rmono; auto.
    apply in_combine_r in Hin. rewrite Forall_forall in HS. unfold rsub. rewrite map_length, combine_length. unfold vecR. rewrite map_length, HS, Hu; auto. lia.
  Qed.
  Lemma ev_lap env : ev D (rzero D) env lap = central_moment f S (repeat 0 D) (repeat 0%nat D).
  Proof.
    change (ev D (rzero D) env lap) with (J D (rzero D) env lap []). rewrite J_lap.
    rewrite <- (tally_indices D (repeat 0%nat D)) at 1 by apply repeat_length. unfold get_moment_indices. rewrite indices_zero.
    rewrite central_word; [|apply repeat_length|constructor]. reflexivity.
  Qed.
  Lemma zeroth_frame u : length u = D -> central_moment f S u (repeat 0%nat D) = central_moment f S (repeat 0 D) (repeat 0%nat D).
  Proof.
    intros Hu. rewrite <- (tally_indices D (repeat 0%nat D)) by apply repeat_length. unfold get_moment_indices. rewrite indices_zero.
    rewrite !central_word; try apply repeat_length; try constructor; auto.
  Qed.
  Hypothesis Hpos : 0 < central_moment f S (repeat 0 D) (repeat 0%nat D).
  Hypothesis HD : dimD S = D.
  Lemma log_frame u w : length u = D -> inD D w ->
    J D (rzero D) (fun _ => 0) (ELog lap) w = linj u w + J D (rzero D) (central_moment f S u) (ELog (EFun [])) w.
  Proof.
    intros Hu Hw. set (kappa := central_moment f S u).
    apply (log_unique D (rzero D) (fun _ => 0) lap (fun w => linj u w + J D (rzero D) kappa (ELog (EFun [])) w) (jmul (wprod u) (J D (rzero D) kappa (EFun [])))).
    - now rewrite ev_lap.
    - apply isexp_mul; [apply isexp_wprod|]. apply isexp_log. rewrite ev_fun0. unfold kappa. now rewrite zeroth_frame.
    - intros v Hv. rewrite J_lap. rewrite (lap_central u v) by (auto; eapply subw_Forall; eauto).
      apply jmul_ext; auto. intros v' Hv'. rewrite J_fun0. unfold kappa. rewrite central_word; auto.
      eapply subw_Forall; [|exact Hw]. eapply subw_trans; eauto.
  Qed.
  Lemma cumulant_frame u rho e : length u = D -> length e = D ->
    cumulant_from_central_moments D u rho (central_moment f S u) e = rho * discrete_cumulant f e S.
  Proof.
    intros Hu He. rewrite <- (tally_indices D e He) at 1. rewrite cfm_word by now apply indices_inD. rewrite G_jet by lia.
    unfold discrete_cumulant, ev0. rewrite HD. fold lap. f_equal. symmetry. apply log_frame; auto. now apply indices_inD.
  Qed.
  Lemma raw_cumulants u e : length u = D -> length e = D ->
    discrete_cumulant f e S = linj u (get_moment_indices e) + cumulant_as_function_of_raw_moments e (central_moment f S u).
  Proof.
    intros Hu He. unfold cumulant_as_function_of_raw_moments. rewrite transform_is_derivative.
    - unfold discrete_cumulant, ev0. rewrite HD, He. fold lap. apply log_frame; auto. now apply indices_inD.
    - intros _. rewrite He, zeroth_frame by auto. lra.
  Qed.
End Discrete.

Lemma linj_nth u e a : (a < length e)%nat -> get_moment_indices e = [a] -> linj u (get_moment_indices e) = nth a u 0.
Proof. intros _ ->. reflexivity. Qed.
Lemma linj_high u e : (2 <= nsum e)%nat -> linj u (get_moment_indices e) = 0.
Proof.
  intros H. assert (L : length (get_moment_indices e) = nsum e).
  { unfold get_moment_indices. clear H. generalize 0%nat at 1. induction e as [|n e IH]; intros i; [reflexivity|]. cbn. now rewrite app_length, repeat_length, IH. }
  destruct (get_moment_indices e) as [|i [|j w]]; cbn in *; auto; lia.
Qed.

(* ---- Maxwellian ---- *)
Definition maxj (D : nat) (rho : R) (u : list R) (cs2 : R) : jet := fun w =>
  match w with [] => ln rho | [i] => nth i u 0 | [i; j] => if Nat.eqb i j && (i <? D)%nat then cs2 else 0 | _ => 0 end.
Definition quadj (D : nat) (cs2 : R) : jet := fun w => match w with [i; j] => if Nat.eqb i j && (i <? D)%nat then cs2 else 0 | _ => 0 end.
Lemma J_quad D env cs2 n w : (n <= D)%nat ->
  J D (rzero D) env (EMul (EConst (cs2 / 2)) (esum (map (fun i => EMul (EVar i) (EVar i)) (seq 0 n)))) w = quadj n cs2 w.
Proof.
  intros Hn. rewrite J_mul. rewrite (jmul_ext w _ _ (jconst (cs2 / 2)) (J D (rzero D) env (esum (map (fun i => EMul (EVar i) (EVar i)) (seq 0 n))))) by (intros; auto using J_const).
  rewrite jmul_const_l, J_esum, map_map.
  assert (V : forall i v, J D (rzero D) env (EVar i) v = match v with [j] => if Nat.eqb j i then 1 else 0 | _ => 0 end).
  { intros i v. rewrite J_var. destruct v as [|j [|k v]]; auto. unfold rzero.
    destruct (Nat.lt_ge_cases i D); [now rewrite nth_repeat|now rewrite nth_overflow by (rewrite repeat_length; auto)]. }
  assert (E : forall i v, J D (rzero D) env (EMul (EVar i) (EVar i)) v = match v with [j; k] => if Nat.eqb j i && Nat.eqb k i then 2 else 0 | _ => 0 end).
  { intros i v. rewrite J_mul. destruct v as [|j v]; [cbn [jmul]; rewrite V; lra|]. cbn [jmul].
    rewrite (jmul_ext v (fun v0 => J D (rzero D) env (EVar i) (j :: v0)) _ (jconst (if Nat.eqb j i then 1 else 0)) (J D (rzero D) env (EVar i))).
    3: auto. 2: { intros [|k v0] _; rewrite V; auto. }
    rewrite (jmul_ext v _ (fun v0 => J D (rzero D) env (EVar i) (j :: v0)) (J D (rzero D) env (EVar i)) (jconst (if Nat.eqb j i then 1 else 0))).
    2: auto. 2: { intros [|k v0] _; rewrite V; auto. }
    rewrite jmul_const_l, jmul_const_r, V. destruct v as [|k [|l v]]; try lra. destruct (Nat.eqb j i), (Nat.eqb k i); cbn; lra. }
  rewrite (map_ext _ (fun i => match w with [j; k] => if Nat.eqb j i && Nat.eqb k i then 2 else 0 | _ => 0 end)) by (intros; apply E).
  unfold quadj. destruct w as [|j [|k [|l w]]]; try (rewrite rsum_zero; lra).
  - destruct (Nat.eqb_spec j k) as [<-|Hjk].
    + assert (X : forall s m, rsum (map (fun i => if Nat.eqb j i && Nat.eqb j i then 2 else 0) (seq s m)) = if (s <=? j)%nat && (j <? s + m)%nat then 2 else 0).
      { intros s m. revert s. induction m as [|m IH]; intros s.
        - cbn [seq map]. change (rsum []) with 0. destruct (Nat.leb_spec s j), (Nat.ltb_spec j (s + 0)); cbn [andb]; try lia; reflexivity.
        - cbn [seq map]. unfold rsum in *. cbn [fold_right]. rewrite IH. destruct (Nat.eqb_spec j s) as [->|Hn'].
          + destruct (Nat.leb_spec (S s) s), (Nat.leb_spec s s), (Nat.ltb_spec s (s + S m)); cbn [andb]; try lia. lra.
          + destruct (Nat.leb_spec (S s) j), (Nat.leb_spec s j), (Nat.ltb_spec j (S s + m)), (Nat.ltb_spec j (s + S m)); cbn [andb]; try lia; lra. }
      rewrite X. cbn [Nat.leb andb Nat.add]. destruct (j <? n)%nat; cbn; lra.
    + cbn [andb]. replace (rsum _) with 0; [lra|]. symmetry. induction (seq 0 n) as [|i l IH]; [reflexivity|]. unfold rsum in *. cbn. rewrite IH.
      destruct (Nat.eqb_spec j i), (Nat.eqb_spec k i); cbn; try lra. congruence.
Qed.
Section Maxwellian.
  Variables (rho cs2 : R) (u : list R).
  Notation D := (length u).
  Hypothesis Hrho : 0 < rho.
  Notation Jm := (J D (rzero D) (fun _ => 0) (maxwellian_mgf rho u cs2)).
  Lemma isexp_mgf : isexp Jm (maxj D rho u cs2).
  Proof.
    set (Y := EAdd (elin u) (EMul (EConst (cs2 / 2)) (esum (map (fun i => EMul (EVar i) (EVar i)) (seq 0 D))))).
    assert (HY : isexp (jmul (jconst rho) (J D (rzero D) (fun _ => 0) (EExp Y))) (fun w => jconst (ln rho) w + J D (rzero D) (fun _ => 0) Y w)).
    { apply isexp_mul; [|apply isexp_J]. split; [cbn; now rewrite exp_ln|]. intros i w. cbn.
      rewrite (jmul_ext w _ (jd i (jconst (ln rho))) (jconst rho) (fun _ => 0)) by (intros; auto). symmetry. apply jmul_zero_r. }
    eapply isexp_ext; [exact HY| |].
    - intros w. unfold maxwellian_mgf. fold Y. rewrite J_mul. apply jmul_ext; auto. intros v _. symmetry. apply J_const.
    - intros w. unfold Y. rewrite J_add, J_elin0, J_quad by lia. unfold maxj, jconst, linj, quadj. destruct w as [|i [|j [|k w]]]; lra.
  Qed.
  Lemma mgf_pos : 0 < ev D (rzero D) (fun _ => 0) (maxwellian_mgf rho u cs2).
  Proof. cbn. apply Rmult_lt_0_compat; auto. apply exp_pos. Qed.
  Lemma cumulant_maxj e : maxwellian_cumulant D rho u cs2 e = rho * maxj D rho u cs2 (get_moment_indices e).
  Proof.
    unfold maxwellian_cumulant, continuous_cumulant, ev0. f_equal.
    apply (log_unique D (rzero D) (fun _ => 0) (maxwellian_mgf rho u cs2) (maxj D rho u cs2) Jm); [apply mgf_pos|apply isexp_mgf|auto].
  Qed.
  Fixpoint remove_one (i : nat) (w : word) : word := match w with [] => [] | j :: w => if Nat.eqb i j then w else j :: remove_one i w end.
  Lemma remove_one_perm i w : In i w -> Permutation w (i :: remove_one i w).
  Proof.
    induction w as [|j w IH]; [intros []|]. cbn. destruct (Nat.eqb_spec i j) as [->|Hn]; auto. intros [->|Hin]; [congruence|].
    rewrite (IH Hin) at 1. apply perm_swap.
  Qed.
  Lemma affine_mul w : forall E i p c, jsym E ->
    jmul E (fun v => match v with [] => p | [j] => if Nat.eqb i j then c else 0 | _ => 0 end) w = p * E w + c * INR (count_occ Nat.eq_dec w i) * E (remove_one i w).
  Proof.
    induction w as [|j w IH]; intros E i p c HE.
    - cbn. lra.
    - cbn [jmul]. change (fun v => E (j :: v)) with (jd j E). rewrite (IH (jd j E) i p c) by now apply jsym_jd.
      rewrite (jmul_ext w E _ E (jconst (if Nat.eqb i j then c else 0))) by (intros; auto; destruct v as [|k v]; auto).
      rewrite jmul_const_r. cbn [count_occ remove_one]. destruct (Nat.eqb_spec i j) as [->|Hn].
      + destruct (Nat.eq_dec j j); [|congruence]. rewrite S_INR. unfold jd.
        destruct (count_occ Nat.eq_dec w j) as [|k] eqn:Ek.
        * cbn [INR]. lra.
        * assert (Hin : In j w) by (apply (count_occ_In Nat.eq_dec); lia).
          rewrite (HE (j :: remove_one j w) w) by (symmetry; now apply remove_one_perm). lra.
      + destruct (Nat.eq_dec j i); [congruence|]. unfold jd. lra.
  Qed.
  Lemma mgf_step i w : (i < D)%nat -> Jm (i :: w) = nth i u 0 * Jm w + cs2 * INR (count_occ Nat.eq_dec w i) * Jm (remove_one i w).
  Proof.
    intros Hi. destruct isexp_mgf as [_ Hs]. rewrite Hs. rewrite <- affine_mul by apply J_sym.
    apply jmul_ext; auto. intros v _. unfold jd, maxj. destruct v as [|j [|k v]]; auto.
    apply Nat.ltb_lt in Hi. rewrite Hi, andb_true_r. reflexivity.
  Qed.
  Definition nprod (e : list nat) (v : list R) : R := fold_right Rmult 1 (map (fun en => normal_moment (fst en) (snd en) cs2) (combine e v)).
  Lemma normal_step n v : normal_moment (S n) v cs2 = v * normal_moment n v cs2 + INR n * cs2 * normal_moment (n - 1) v cs2.
  Proof. destruct n as [|n]; [cbn; lra|]. replace (S n - 1)%nat with n by lia. reflexivity. Qed.
  Lemma nprod_step v : forall k g gp gm i, (k <= i < k + length v)%nat -> gp i = S (g i) -> gm i = (g i - 1)%nat ->
    (forall j, j <> i -> gp j = g j) -> (forall j, j <> i -> gm j = g j) ->
    nprod (map gp (seq k (length v))) v = nth (i - k) v 0 * nprod (map g (seq k (length v))) v + INR (g i) * cs2 * nprod (map gm (seq k (length v))) v.
  Proof.
    induction v as [|a v IH]; intros k g gp gm i Hi Hp Hm Np Nm; [cbn in Hi; lia|].
    cbn [length seq map] in *. unfold nprod in *. cbn [combine map fold_right fst snd]. destruct (Nat.eq_dec k i) as [->|Hk].
    - rewrite Nat.sub_diag. cbn [nth]. rewrite Hp, Hm, normal_step.
      rewrite (map_ext_in gp g), (map_ext_in gm g); [lra| |]; intros j Hj; apply in_seq in Hj; (apply Np || apply Nm); lia.
    - rewrite (Np k), (Nm k) by auto. rewrite (IH (S k) g gp gm i) by (auto; lia). replace (i - k)%nat with (S (i - S k))%nat by lia. cbn [nth]. lra.
  Qed.
  Lemma remove_one_count i w j : count_occ Nat.eq_dec (remove_one i w) j = if Nat.eq_dec i j then (count_occ Nat.eq_dec w j - 1)%nat else count_occ Nat.eq_dec w j.
  Proof.
    induction w as [|k w IH]; cbn [remove_one]; [destruct (Nat.eq_dec i j); reflexivity|].
    destruct (Nat.eqb_spec i k) as [->|Hn].
    - cbn. destruct (Nat.eq_dec k j); lia.
    - cbn. destruct (Nat.eq_dec k j) as [->|]; rewrite IH; destruct (Nat.eq_dec i j); lia.
  Qed.
  Lemma remove_one_length i w : (length (remove_one i w) <= length w)%nat.
  Proof. induction w as [|j w IH]; cbn; auto. destruct (Nat.eqb i j); cbn; lia. Qed.
  Lemma remove_one_inD n i w : inD n w -> inD n (remove_one i w).
  Proof. induction 1 as [|j w H HF IH]; cbn; [constructor|]. destruct (Nat.eqb i j); auto. constructor; auto. Qed.
  Lemma mgf_moments n : forall w, (length w <= n)%nat -> inD D w -> Jm w = psi_moment rho u cs2 (tally D w).
  Proof.
    induction n as [|n IH]; intros [|i w] L Hw; try (cbn in L; lia).
    1, 2: destruct isexp_mgf as [H0 _]; rewrite H0; cbn [maxj]; rewrite exp_ln by auto; unfold psi_moment, tally; cbn [count_occ];
      symmetry; rewrite <- (Rmult_1_r rho) at 2; f_equal; clear; generalize 0%nat at 2; induction u as [|a v IHv]; intros k; [reflexivity|];
      cbn; rewrite IHv; lra.
    cbn in L. inversion Hw as [|? ? Hi Hw']; subst. rewrite mgf_step by auto. rewrite !IH; auto; try lia.
    2: { pose proof (remove_one_length i w). lia. } 2: { now apply remove_one_inD. }
    unfold psi_moment, tally.
    pose proof (nprod_step u 0 (count_occ Nat.eq_dec w) (count_occ Nat.eq_dec (i :: w)) (count_occ Nat.eq_dec (remove_one i w)) i) as X.
    unfold nprod in X. rewrite X; try lia.
    - rewrite Nat.sub_0_r. lra.
    - cbn. destruct (Nat.eq_dec i i); congruence.
    - rewrite remove_one_count. destruct (Nat.eq_dec i i); congruence.
    - intros j Hj. cbn. destruct (Nat.eq_dec i j); congruence.
    - intros j Hj. rewrite remove_one_count. destruct (Nat.eq_dec i j); congruence.
  Qed.
  Lemma mgf_moment e : length e = D -> continuous_moment D (maxwellian_mgf rho u cs2) e = psi_moment rho u cs2 e.
  Proof.
    intros He. unfold continuous_moment, ev0. change (ev D (rzero D) (fun _ => 0) (diffs (get_moment_indices e) (maxwellian_mgf rho u cs2))) with (Jm (get_moment_indices e)).
    rewrite (mgf_moments _ _ (le_n _)) by now apply indices_inD. now rewrite tally_indices.
  Qed.
End Maxwellian.

(* ---- the differentiation rules are those of real functions ---- *)
Fixpoint upd (i : nat) (t : R) (x : list R) : list R :=
  match x, i with [], _ => [] | _ :: x, O => t :: x | a :: x, S i => a :: upd i t x end.
Fixpoint closed (e : expr) : Prop :=
  match e with EConst _ | EVar _ => True | EFun _ => False | EAdd a b | EMul a b => closed a /\ closed b | EInv a | ELog a | EExp a => closed a end.
Fixpoint defined (D : nat) (xi : list R) (env : list nat -> R) (e : expr) : Prop :=
  match e with
  | EConst _ | EVar _ | EFun _ => True
  | EAdd a b | EMul a b => defined D xi env a /\ defined D xi env b
  | EInv a => defined D xi env a /\ ev D xi env a <> 0
  | ELog a => defined D xi env a /\ 0 < ev D xi env a
  | EExp a => defined D xi env a
  end.
Lemma upd_nth x i j t : (i < length x)%nat -> nth j (upd i t x) 0 = if Nat.eqb i j then t else nth j x 0.
Proof. revert i j. induction x as [|a x IH]; intros [|i] [|j] H; cbn in *; try lia; auto. apply IH. lia. Qed.
Lemma upd_same x i : upd i (nth i x 0) x = x.
Proof. revert i. induction x as [|a x IH]; intros [|i]; cbn; auto. now rewrite IH. Qed.
Lemma diff_sound D xi env i e : (i < length xi)%nat -> closed e -> defined D xi env e ->
  derivable_pt_lim (fun t => ev D (upd i t xi) env e) (nth i xi 0) (ev D xi env (diff i e)).
Proof.
  intros Hi. induction e as [r|j|v|a IHa b IHb|a IHa b IHb|a IHa|a IHa|a IHa]; cbn [closed defined]; intros Hc Hd.
  - apply derivable_pt_lim_const.
  - cbn [ev diff]. destruct (Nat.eqb_spec i j) as [->|Hn].
    + apply derivable_pt_lim_ext with (f := id); [|apply derivable_pt_lim_id]. intros t. rewrite upd_nth, Nat.eqb_refl by auto. reflexivity.
    + apply derivable_pt_lim_ext with (f := fct_cte (nth j xi 0)); [|apply derivable_pt_lim_const].
      intros t. rewrite upd_nth by auto. destruct (Nat.eqb_spec i j); [congruence|reflexivity].
  - destruct Hc.
  - destruct Hc, Hd. cbn [ev diff]. apply (derivable_pt_lim_plus (fun t => ev D (upd i t xi) env a) (fun t => ev D (upd i t xi) env b)); auto.
  - destruct Hc, Hd. cbn [ev diff].
    pose proof (derivable_pt_lim_mult (fun t => ev D (upd i t xi) env a) (fun t => ev D (upd i t xi) env b) (nth i xi 0) _ _ (IHa H H1) (IHb H0 H2)) as X.
    cbv beta in X. rewrite !upd_same in X. exact X.
  - destruct Hd as [Hd Hne]. cbn [ev diff].
    pose proof (derivable_pt_lim_div (fun _ => 1) (fun t => ev D (upd i t xi) env a) (nth i xi 0) 0 _ (derivable_pt_lim_const 1 (nth i xi 0)) (IHa Hc Hd)) as X.
    cbv beta in X. rewrite !upd_same in X. specialize (X Hne).
    replace (-1 * (/ ev D xi env a * / ev D xi env a * ev D xi env (diff i a))) with
      ((0 * ev D xi env a - ev D xi env (diff i a) * 1) / Rsqr (ev D xi env a)) by (unfold Rsqr; field; auto).
    eapply derivable_pt_lim_ext; [|exact X]. intros t. unfold div_fct. unfold Rdiv. lra.
  - destruct Hd as [Hd Hpos]. cbn [ev diff].
    pose proof (derivable_pt_lim_comp (fun t => ev D (upd i t xi) env a) ln (nth i xi 0) _ (/ ev D xi env a) (IHa Hc Hd)) as X.
    cbv beta in X. rewrite !upd_same in X. rewrite Rmult_comm. apply X. now apply derivable_pt_lim_ln.
  - cbn [ev diff].
    pose proof (derivable_pt_lim_comp (fun t => ev D (upd i t xi) env a) exp (nth i xi 0) _ (exp (ev D xi env a)) (IHa Hc Hd)) as X.
    cbv beta in X. rewrite !upd_same in X. apply X. apply derivable_pt_lim_exp.
Qed.
Lemma closed_diff i e : closed e -> closed (diff i e).
Proof. induction e; cbn; intuition. Qed.
Lemma defined_diff D xi env i e : defined D xi env e -> defined D xi env (diff i e).
Proof. induction e; cbn; intuition; lra. Qed.
