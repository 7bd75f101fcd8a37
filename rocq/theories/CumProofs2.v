(* Round trips between moments and cumulants, the partition formula, discrete and Maxwellian cumulants. *)
From Coq Require Import List ZArith Bool Arith Reals Lra Lia Permutation.
From Verif Require Import StencilModel RealLib LinLib TransSpec MomModel MomProofs EqModel CumModel CumProofs.
Import ListNotations.
Local Open Scope R_scope.

Section Cancel.
  Variables (D : nat) (xi : list R) (env : list nat -> R).
  Notation J := (J D xi env).
  Lemma jmul_cancel a d w : ev D xi env a <> 0 -> (forall v, subw v w -> jmul (J a) d v = 0) -> d w = 0.
  Proof.
    intros Hne H. rewrite <- (jmul_one_l w d).
    rewrite (jmul_ext w jone d (jmul (J (EInv a)) (J a)) d); auto.
    - rewrite jmul_assoc. rewrite (jmul_ext w (J (EInv a)) (jmul (J a) d) (J (EInv a)) (fun _ => 0)); auto. apply jmul_zero_r.
    - intros v _. rewrite jmul_comm. symmetry. now apply inv_spec.
  Qed.
  (* the logarithm is the only jet whose exponential is J a *)
  Lemma log_unique a (X E : jet) w : 0 < ev D xi env a -> isexp E X -> (forall v, subw v w -> J a v = E v) -> J (ELog a) w = X w.
  Proof.
    intros Hpos [H0 H1] HE. destruct w as [|i w].
    - unfold CumProofs.J. cbn [diffs ev]. pose proof (HE [] (sub_nil)) as H. unfold CumProofs.J in H. cbn [diffs] in H. rewrite H, H0. apply ln_exp.
    - cut (jd i (J (ELog a)) w - jd i X w = 0); [unfold jd; lra|].
      apply (jmul_cancel a (fun v => jd i (J (ELog a)) v - jd i X v)); [lra|]. intros v Hv.
      rewrite (jmul_ext v (J a) _ (J a) (fun v => jd i (J (ELog a)) v + -1 * jd i X v)) by (intros; auto; lra).
      rewrite jmul_add_r, jmul_scal_r. rewrite <- log_spec by lra.
      rewrite (HE (i :: v)) by (now apply sub_take). rewrite H1.
      rewrite (jmul_ext v E (jd i X) (J a) (jd i X)); auto; [lra|]. intros v' Hv'. symmetry. apply HE. apply sub_skip. eapply subw_trans; eauto.
  Qed.
End Cancel.

Definition linj (u : list R) : jet := fun w => match w with [i] => nth i u 0 | _ => 0 end.
Lemma J_elin0 D env u w : (length u <= D)%nat -> J D (rzero D) env (elin u) w = linj u w.
Proof.
  intros Hu. unfold elin. rewrite J_esum, map_map.
  assert (E : forall k (v : list R), rsum (map (fun x => J D (rzero D) env (EMul (EVar (fst x)) (EConst (snd x))) w) (combine (seq k (length v)) v)) =
     match w with [i] => if (k <=? i)%nat then nth (i - k) v 0 else 0 | _ => 0 end).
  { intros k v. revert k. induction v as [|a v IH]; intros k.
    - cbn. destruct w as [|i [|j w]]; auto. destruct (k <=? i)%nat; auto. now destruct (i - k)%nat.
    - cbn [length seq combine map]. unfold rsum in *. cbn [fold_right]. rewrite IH. cbn [fst snd]. rewrite J_mul.
      rewrite (jmul_ext w _ _ (J D (rzero D) env (EVar k)) (jconst a)) by (intros; auto using J_const). rewrite jmul_const_r, J_var.
      destruct w as [|i [|j w]]; try lra.
      + unfold rzero. assert (nth k (repeat 0 D) 0 = 0) as ->; [|lra].
        destruct (Nat.lt_ge_cases k D); [now rewrite nth_repeat|now rewrite nth_overflow by (rewrite repeat_length; auto)].
      + destruct (Nat.eqb_spec i k) as [->|Hn].
        * rewrite Nat.leb_refl, Nat.sub_diag. cbn [nth]. destruct (Nat.leb_spec (S k) k); [lia|lra].
        * destruct (Nat.leb_spec k i); destruct (Nat.leb_spec (S k) i); try lia; try lra.
          replace (i - k)%nat with (S (i - S k))%nat by lia. cbn [nth]. lra. }
  rewrite E. destruct w as [|i [|j w]]; auto. cbn [Nat.leb]. now rewrite Nat.sub_0_r.
Qed.

Section RoundTrip.
  Variables (D : nat) (u : list R) (rho : R).
  Hypothesis Hu : (length u <= D)%nat.
  Notation J0 := (J D (rzero D)).
  Let G := EAdd (elin u) (ELog (EFun [])).
  Let H := EExp (EAdd (EFun []) (EMul (EConst (-1)) (elin u))).

  Lemma cfm_word kappa w : inD D w -> cumulant_from_central_moments D u rho kappa (tally D w) = rho * J0 kappa G w.
  Proof. intros Hw. unfold cumulant_from_central_moments, ev0. f_equal. apply (J_sym D (rzero D) kappa G). now apply indices_tally. Qed.
  Lemma mfc_word c w : inD D w -> central_moment_from_cumulants D u rho c (tally D w) = J0 (fun i => c i / rho) H w.
  Proof. intros Hw. unfold central_moment_from_cumulants, ev0. apply (J_sym D (rzero D) (fun i => c i / rho) H). now apply indices_tally. Qed.
  Lemma G_jet kappa w : J0 kappa G w = linj u w + J0 kappa (ELog (EFun [])) w.
  Proof. unfold G. rewrite J_add, J_elin0 by auto. reflexivity. Qed.
  Lemma X_jet env w : J0 env (EAdd (EFun []) (EMul (EConst (-1)) (elin u))) w = env (tally D w) - linj u w.
  Proof.
    rewrite J_add, J_fun0, J_mul. rewrite (jmul_ext w _ _ (jconst (-1)) (linj u)) by (intros; auto using J_const, J_elin0).
    rewrite jmul_const_l. lra.
  Qed.
  Lemma ev_fun0 xi env : ev D xi env (EFun []) = env (repeat 0%nat D).
  Proof.
    cbn. f_equal. unfold tally. cbn [count_occ].
    assert (E : forall n k, map (fun _ : nat => 0%nat) (seq k n) = repeat 0%nat n) by (induction n as [|n IH]; intros k; [reflexivity|]; cbn; now rewrite IH).
    apply E.
  Qed.

  (* moments -> cumulants -> moments; the cumulants are only used at exponents below e *)
  Lemma back_forth kappa c e : length e = D -> rho <> 0 -> 0 < kappa (repeat 0%nat D) ->
    (forall e', length e' = D -> Forall2 le e' e -> c e' = cumulant_from_central_moments D u rho kappa e') ->
    central_moment_from_cumulants D u rho c e = kappa e.
  Proof.
    intros He Hr Hk Hc. rewrite <- (tally_indices D e He) at 1. rewrite mfc_word by now apply indices_inD.
    transitivity (J0 kappa (EFun []) (get_moment_indices e)).
    - eapply isexp_unique; [apply isexp_J|apply isexp_log|].
      + now rewrite ev_fun0.
      + intros v Hv. assert (Dv : inD D v) by (eapply subw_Forall; [exact Hv|now apply indices_inD]).
        rewrite X_jet. rewrite Hc; [|apply tally_length|].
        * rewrite cfm_word, G_jet by auto. field_simplify; [reflexivity|auto].
        * rewrite <- (tally_indices D e He). now apply tally_subw.
    - rewrite J_fun0, tally_indices; auto.
  Qed.
  (* cumulants -> moments -> cumulants *)
  Lemma forth_back c kappa e : length e = D -> rho <> 0 ->
    (forall e', length e' = D -> Forall2 le e' e -> kappa e' = central_moment_from_cumulants D u rho c e') ->
    cumulant_from_central_moments D u rho kappa e = c e.
  Proof.
    intros He Hr Hk. pose proof (indices_inD D e He) as He'.
    assert (Hw : forall v, subw v (get_moment_indices e) -> J0 kappa (EFun []) v = J0 (fun i => c i / rho) H v).
    { intros v Hv. rewrite J_fun0, Hk; [|apply tally_length|].
      - apply mfc_word. eapply subw_Forall; eauto.
      - rewrite <- (tally_indices D e He). now apply tally_subw. }
    rewrite <- (tally_indices D e He) at 1. rewrite cfm_word, G_jet by auto.
    rewrite (log_unique D (rzero D) kappa (EFun []) (J0 (fun i => c i / rho) (EAdd (EFun []) (EMul (EConst (-1)) (elin u)))) (J0 (fun i => c i / rho) H)).
    - rewrite X_jet, tally_indices by auto. field. auto.
    - pose proof (Hw [] (subw_nil _)) as H0. change (J0 kappa (EFun []) []) with (ev D (rzero D) kappa (EFun [])) in H0. rewrite H0.
      unfold H. apply exp_pos.
    - apply isexp_J.
    - exact Hw.
  Qed.
End RoundTrip.

(* ---- partition formula (Faa di Bruno) ---- *)
Definition jshift (b : word) (a : jet) : jet := fun v => a (b ++ v).
Fixpoint jprod (l : list jet) : jet := match l with [] => jone | a :: l => jmul a (jprod l) end.
Lemma jprod_app l l' w : jprod (l ++ l') w = jmul (jprod l) (jprod l') w.
Proof.
  revert w. induction l as [|a l IH]; intros w; cbn [app jprod]; [now rewrite jmul_one_l|].
  rewrite jmul_assoc. apply jmul_ext; auto.
Qed.
Section Faa.
  Variable a : jet.
  Hypothesis Ha : jsym a.
  Definition blocks (p : list word) : list jet := map (fun b => jshift b a) p.
  Lemma insert_blocks_prod x : forall p before v,
    jmul (jprod (blocks before)) (fun w => jprod (blocks p) (x :: w)) v = rsum (map (fun p' => jprod (blocks p') v) (insert_blocks x before p)).
  Proof.
    induction p as [|b p IH]; intros before v.
    - cbn. apply jmul_zero_r.
    - cbn [blocks map jprod insert_blocks]. unfold rsum in *. cbn [fold_right]. rewrite <- IH. cbn [jmul].
      rewrite (jmul_add_r v (jprod (map (fun b => jshift b a) before))). f_equal.
      + unfold blocks. rewrite map_app, jprod_app. apply jmul_ext; auto. intros w _. cbn [map jprod].
        apply jmul_ext; auto. intros w' _. unfold jshift. cbn [app]. apply Ha. symmetry. apply Permutation_middle.
      + unfold blocks. rewrite map_app.
        rewrite (jmul_ext v (jprod (map (fun b0 => jshift b0 a) before ++ map (fun b0 => jshift b0 a) [b])) (fun w => jprod (map (fun b0 => jshift b0 a) p) (x :: w))
          (jmul (jprod (map (fun b0 => jshift b0 a) before)) (jshift b a)) (fun w => jprod (map (fun b0 => jshift b0 a) p) (x :: w))); auto.
        * now rewrite jmul_assoc.
        * intros w _. rewrite jprod_app. apply jmul_ext; auto. intros w' _. cbn [map jprod]. apply jmul_one_r.
  Qed.
  Lemma insert_blocks_length x : forall p before p', In p' (insert_blocks x before p) -> length p' = (length before + length p)%nat.
  Proof.
    induction p as [|b p IH]; intros before p'; cbn [insert_blocks]; [intros []|]. intros [<-|Hin].
    - rewrite app_length. cbn. lia.
    - apply IH in Hin. rewrite app_length in Hin. cbn in *. lia.
  Qed.
  Variable F : nat -> jet.
  Hypothesis HF : forall n i w, F n (i :: w) = jmul (F (S n)) (jd i a) w.
  Hypothesis F0 : jsym (F 0%nat).
  Lemma faa_di_bruno : forall w v, w <> [] -> F 0%nat (w ++ v) = rsum (map (fun p => jmul (F (length p)) (jprod (blocks p)) v) (partition w)).
  Proof.
    induction w as [|x w IH]; intros v Hne; [congruence|].
    destruct w as [|y w].
    - cbn [partition map app]. unfold rsum. cbn [fold_right length blocks map jprod]. rewrite HF. rewrite Rplus_0_r.
      apply jmul_ext; auto. intros w _. now rewrite jmul_one_r.
    - change (partition (x :: y :: w)) with (flat_map (fun smaller => insert_blocks x [] smaller ++ [[x] :: smaller]) (partition (y :: w))).
      rewrite (F0 ((x :: y :: w) ++ v) ((y :: w) ++ x :: v)) by apply Permutation_middle.
      rewrite IH by discriminate. clear IH Hne.
      induction (partition (y :: w)) as [|p ps IHp]; [reflexivity|].
      cbn [flat_map map]. rewrite map_app, rsum_app. change (rsum (?a :: ?l)) with (a + rsum l). rewrite IHp. f_equal. clear IHp.
      rewrite map_app, rsum_app. cbn [map jmul]. unfold rsum at 2. cbn [fold_right]. rewrite Rplus_0_r, Rplus_comm. f_equal.
      + assert (E : forall p', In p' (insert_blocks x [] p) -> length p' = length p) by (intros p' Hin; apply insert_blocks_length in Hin; exact Hin).
        transitivity (jmul (F (length p)) (fun w => rsum (map (fun p' => jprod (blocks p') w) (insert_blocks x [] p))) v).
        * apply jmul_ext; auto. intros w' _. rewrite <- insert_blocks_prod. cbn [blocks map jprod]. now rewrite jmul_one_l.
        * revert E. generalize (insert_blocks x [] p). intros l E. induction l as [|p' l IHl]; [apply jmul_zero_r|].
          unfold rsum in *. cbn [map fold_right]. rewrite (jmul_add_r v (F (length p)) (jprod (blocks p'))). rewrite IHl by (intros; apply E; now right).
          rewrite (E p') by now left. reflexivity.
      + cbn [length blocks map jprod].
        rewrite (jmul_ext v (fun v0 => F (length p) (x :: v0)) (jprod (blocks p)) (jmul (F (S (length p))) (jd x a)) (jprod (blocks p))) by (intros; auto).
        rewrite jmul_assoc. reflexivity.
  Qed.
End Faa.

Fixpoint jpow (a : jet) (n : nat) : jet := match n with O => jone | S n => jmul a (jpow a n) end.
Lemma jpow_nil a n : jpow a n [] = a [] ^ n.
Proof. induction n as [|n IH]; [reflexivity|]. cbn [jpow jmul pow]. now rewrite IH. Qed.
Section LogExp.
  Variables (D : nat) (xi : list R) (env : list nat -> R).
  Notation J := (J D xi env).
  Variable a : expr.
  Notation I := (J (EInv a)).
  Lemma jpow_inv n : forall i w, jpow I n (i :: w) = - INR n * jmul (jpow I (S n)) (jd i (J a)) w.
  Proof.
    induction n as [|n IH]; intros i w.
    - cbn [jpow jone INR]. lra.
    - cbn [jpow]. cbn [jmul].
      rewrite (jmul_ext w (fun v => I (i :: v)) (jpow I n) (fun v => -1 * jmul (jmul I I) (jd i (J a)) v) (jpow I n)) by (intros; auto; rewrite J_inv; lra).
      rewrite (jmul_ext w I (fun v => jpow I n (i :: v)) I (fun v => - INR n * jmul (jpow I (S n)) (jd i (J a)) v)) by (intros; auto).
      rewrite jmul_scal_l, jmul_scal_r. rewrite S_INR.
      assert (E1 : jmul (jmul (jmul I I) (jd i (J a))) (jpow I n) w = jmul (jmul I (jmul I (jpow I n))) (jd i (J a)) w).
      { rewrite jmul_assoc. rewrite (jmul_ext w (jmul I I) _ (jmul I I) (jmul (jpow I n) (jd i (J a)))) by (intros; auto; apply jmul_comm).
        rewrite <- jmul_assoc. apply jmul_ext; auto. intros v _. apply jmul_assoc. }
      assert (E2 : jmul I (jmul (jpow I (S n)) (jd i (J a))) w = jmul (jmul I (jmul I (jpow I n))) (jd i (J a)) w).
      { rewrite <- jmul_assoc. reflexivity. }
      rewrite E1, E2. cbn [jpow]. lra.
  Qed.
  Definition Flog (n : nat) : jet := match n with O => J (ELog a) | S k => fun w => (-1) ^ k * INR (fact k) * jpow I (S k) w end.
  Lemma Flog_step n i w : Flog n (i :: w) = jmul (Flog (S n)) (jd i (J a)) w.
  Proof.
    destruct n as [|k]; cbn [Flog].
    - rewrite J_log, jmul_comm. apply jmul_ext; auto. intros v _. cbn [pow fact INR jpow]. rewrite jmul_one_r. lra.
    - rewrite jpow_inv, jmul_scal_l. cbn [pow]. rewrite fact_simpl, mult_INR. lra.
  Qed.
  Definition Fexp (n : nat) : jet := J (EExp a).
End LogExp.

Lemma jprod_nil a p : jprod (blocks a p) [] = fold_right Rmult 1 (map a p).
Proof. induction p as [|b p IH]; [reflexivity|]. cbn [blocks map jprod jmul fold_right]. unfold blocks in IH. rewrite IH. unfold jshift. now rewrite app_nil_r. Qed.
Definition outer_expr (F : outer) (e : expr) : expr := match F with Log => ELog e | Exp => EExp e end.
Lemma indices_nil_zero e : get_moment_indices e = [] -> e = repeat 0%nat (length e).
Proof.
  unfold get_moment_indices. generalize 0%nat at 1. induction e as [|n e IH]; intros i H; [reflexivity|].
  cbn in *. destruct n as [|n]; [|cbn in H; discriminate]. cbn in *. f_equal. eapply IH. exact H.
Qed.
(* the partition sum is the mixed derivative of log(K) resp. exp(C) at wave number 0 *)
Lemma transform_is_derivative (F : outer) e env : (F = Log -> env (repeat 0%nat (length e)) <> 0) ->
  cumulant_raw_moment_transform e env F false = ev0 (length e) env (diffs (get_moment_indices e) (outer_expr F (EFun []))).
Proof.
  intros Hne. unfold cumulant_raw_moment_transform. destruct (get_moment_indices e) as [|i w] eqn:E.
  - unfold ev0. cbn [diffs]. destruct F; cbn [outer_expr ev outer_value]; now rewrite <- (ev_fun0 (length e) (rzero (length e)) env).
  - cbn [andb]. set (D := length e) in *. set (A := J D (rzero D) env (EFun [])).
    assert (HA : forall v, A v = env (tally D v)) by (intros; apply J_fun0).
    assert (SA : jsym A) by apply J_sym.
    assert (A0 : ev D (rzero D) env (EFun []) = env (repeat 0%nat D)) by apply ev_fun0.
    pose (FF := match F with Log => Flog D (rzero D) env (EFun []) | Exp => Fexp D (rzero D) env (EFun []) end).
    transitivity (FF 0%nat ((i :: w) ++ [])).
    2: { rewrite app_nil_r. unfold FF. destruct F; reflexivity. }
    rewrite (faa_di_bruno A SA FF); [| |unfold FF; destruct F; apply J_sym|discriminate].
    2: { intros n j v. unfold FF. destruct F; [apply Flog_step|apply J_exp]. }
    f_equal. apply map_ext_in. intros p Hp. cbn [jmul]. rewrite jprod_nil. f_equal.
    + assert (Lp : length p <> 0%nat).
      { clear -Hp. revert p Hp. revert i. induction w as [|j w IH]; intros i p Hp.
        - cbn in Hp. destruct Hp as [<-|[]]. discriminate.
        - change (partition (i :: j :: w)) with (flat_map (fun smaller => insert_blocks i [] smaller ++ [[i] :: smaller]) (partition (j :: w))) in Hp.
          apply in_flat_map in Hp. destruct Hp as [s [Hs Hp]]. apply in_app_or in Hp. destruct Hp as [Hp|[<-|[]]]; [|discriminate].
          apply insert_blocks_length in Hp. cbn in Hp. rewrite Hp. eapply IH; eauto. }
      destruct (length p) as [|k]; [congruence|]. unfold FF. destruct F; cbn [outer_derivative].
      * cbn [Flog]. rewrite jpow_nil. f_equal. unfold J. cbn [diffs ev]. cbn [ev] in A0. rewrite A0. now rewrite pow_inv.
      * unfold Fexp, J. cbn [diffs ev]. cbn [ev] in A0. now rewrite A0.
    + f_equal. apply map_ext. intros b. now rewrite HA.
Qed.
