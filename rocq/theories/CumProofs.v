(* Jets: the values of all derivatives of an expression, indexed by the list of differentiation variables. *)
From Coq Require Import List ZArith Bool Arith Reals Lra Lia Permutation.
From Verif Require Import StencilModel RealLib LinLib TransSpec MomModel MomProofs CumModel.
Import ListNotations.
Local Open Scope R_scope.

Notation word := (list nat).
Notation jet := (word -> R).
Definition jd (i : nat) (a : jet) : jet := fun w => a (i :: w).
Definition jone : jet := fun w => match w with [] => 1 | _ => 0 end.
Fixpoint jmul (a b : jet) (w : word) : R :=
  match w with [] => a [] * b [] | i :: w => jmul (fun v => a (i :: v)) b w + jmul a (fun v => b (i :: v)) w end.

(* subsequences *)
Inductive subw : word -> word -> Prop :=
| sub_nil : subw [] []
| sub_skip i v w : subw v w -> subw v (i :: w)
| sub_take i v w : subw v w -> subw (i :: v) (i :: w).
Lemma subw_refl w : subw w w.
Proof. induction w; [apply sub_nil|apply sub_take; auto]. Qed.
Lemma subw_nil w : subw [] w.
Proof. induction w; [apply sub_nil|apply sub_skip; auto]. Qed.
Lemma subw_length v w : subw v w -> (length v <= length w)%nat.
Proof. induction 1; cbn; lia. Qed.
Lemma subw_trans u v w : subw u v -> subw v w -> subw u w.
Proof.
  intros H1 H2. revert u H1. induction H2 as [|i v w H IH|i v w H IH]; intros u H1; auto.
  - constructor. auto.
  - inversion H1; subst; [apply sub_skip|apply sub_take]; auto.
Qed.
Lemma subw_Forall (q : nat -> Prop) v w : subw v w -> Forall q w -> Forall q v.
Proof. induction 1; intros HF; auto; inversion HF; subst; auto. Qed.

Lemma jmul_ext w : forall a b a' b', (forall v, subw v w -> a v = a' v) -> (forall v, subw v w -> b v = b' v) -> jmul a b w = jmul a' b' w.
Proof.
  induction w as [|i w IH]; intros a b a' b' Ha Hb; cbn [jmul].
  - now rewrite (Ha []), (Hb []) by constructor.
  - f_equal; apply IH; intros v Hv; (apply Ha || apply Hb); ((now apply sub_take) || (now apply sub_skip)).
Qed.
Lemma jmul_comm w : forall a b, jmul a b w = jmul b a w.
Proof. induction w as [|i w IH]; intros a b; cbn [jmul]; [lra|]. rewrite (IH _ b), (IH a). lra. Qed.
Lemma jmul_add_l w : forall a a' b, jmul (fun v => a v + a' v) b w = jmul a b w + jmul a' b w.
Proof.
  induction w as [|i w IH]; intros a a' b; cbn [jmul]; [lra|].
  rewrite (IH (fun v => a (i :: v)) (fun v => a' (i :: v)) b), (IH a a' (fun v => b (i :: v))). lra.
Qed.
Lemma jmul_add_r w a b b' : jmul a (fun v => b v + b' v) w = jmul a b w + jmul a b' w.
Proof. rewrite jmul_comm, jmul_add_l, (jmul_comm w b), (jmul_comm w b'). reflexivity. Qed.
Lemma jmul_scal_l w : forall k a b, jmul (fun v => k * a v) b w = k * jmul a b w.
Proof.
  induction w as [|i w IH]; intros k a b; cbn [jmul]; [lra|].
  rewrite (IH k (fun v => a (i :: v)) b), (IH k a (fun v => b (i :: v))). lra.
Qed.
Lemma jmul_scal_r w k a b : jmul a (fun v => k * b v) w = k * jmul a b w.
Proof. rewrite jmul_comm, jmul_scal_l, (jmul_comm w b). reflexivity. Qed.
Lemma jmul_assoc w : forall a b c, jmul (jmul a b) c w = jmul a (jmul b c) w.
Proof.
  induction w as [|i w IH]; intros a b c; cbn [jmul]; [lra|].
  pose proof (IH (fun v0 => a (i :: v0)) b c) as E1. pose proof (IH a (fun v0 => b (i :: v0)) c) as E2. pose proof (IH a b (fun v0 => c (i :: v0))) as E3.
  pose proof (jmul_add_l w (jmul (fun v0 => a (i :: v0)) b) (jmul a (fun v0 => b (i :: v0))) c) as F1.
  pose proof (jmul_add_r w a (jmul (fun v0 => b (i :: v0)) c) (jmul b (fun v0 => c (i :: v0)))) as F2.
  etransitivity; [apply f_equal2; [exact F1|reflexivity]|]. etransitivity; [|apply f_equal2; [reflexivity|symmetry; exact F2]]. lra.
Qed.
Lemma jmul_zero_l w b : jmul (fun _ => 0) b w = 0.
Proof. rewrite (jmul_ext w _ b (fun v => 0 * 1) b) by (intros; lra || auto). rewrite (jmul_scal_l w 0 (fun _ => 1)). lra. Qed.
Lemma jmul_zero_r w a : jmul a (fun _ => 0) w = 0.
Proof. rewrite jmul_comm. apply jmul_zero_l. Qed.
Lemma jmul_one_l w : forall b, jmul jone b w = b w.
Proof.
  induction w as [|i w IH]; intros b; cbn [jmul jone]; [lra|].
  rewrite (jmul_zero_l w b), (IH (fun v => b (i :: v))). lra.
Qed.
Lemma jmul_one_r w b : jmul b jone w = b w.
Proof. rewrite jmul_comm. apply jmul_one_l. Qed.
Definition jconst (r : R) : jet := fun w => match w with [] => r | _ => 0 end.
Lemma jmul_const_l w r b : jmul (jconst r) b w = r * b w.
Proof.
  rewrite (jmul_ext w (jconst r) b (fun v => r * jone v) b); auto.
  - rewrite jmul_scal_l, jmul_one_l. reflexivity.
  - intros [|i v] _; cbn; lra.
Qed.
Lemma jmul_const_r w r b : jmul b (jconst r) w = r * b w.
Proof. rewrite jmul_comm. apply jmul_const_l. Qed.

(* ---- symmetry under reordering the differentiations ---- *)
Definition symn (n : nat) (a : jet) : Prop := forall w w', (length w <= n)%nat -> Permutation w w' -> a w = a w'.
Definition jsym (a : jet) : Prop := forall w w', Permutation w w' -> a w = a w'.
Lemma jsym_symn a : jsym a <-> forall n, symn n a.
Proof. split; [intros H n w w' _; apply H|]. intros H w w' P. apply (H (length w)); auto. Qed.
Lemma symn_jd n i a : symn (S n) a -> symn n (jd i a).
Proof. intros H w w' L P. unfold jd. apply H; [cbn; lia|now constructor]. Qed.
Lemma jsym_jd i a : jsym a -> jsym (jd i a).
Proof. intros H w w' P. unfold jd. apply H. now constructor. Qed.
Lemma jmul_symn w w' : Permutation w w' -> forall n a b, (length w <= n)%nat -> symn n a -> symn n b -> jmul a b w = jmul a b w'.
Proof.
  induction 1 as [|x l l' P IH|x y l|l l' l'' P1 IH1 P2 IH2]; intros n a b L Ha Hb.
  - reflexivity.
  - destruct n as [|n]; [cbn in L; lia|]. cbn [jmul length] in *.
    f_equal; apply (IH n); try lia; try (apply symn_jd; assumption); intros v v' Lv Pv; (apply Ha || apply Hb); auto; lia.
  - cbn [jmul length] in *.
    assert (E : forall c : jet, symn n c -> forall v, subw v l -> c (y :: x :: v) = c (x :: y :: v)).
    { intros c Hc v Hv. apply subw_length in Hv. apply Hc; [cbn; lia|apply perm_swap]. }
    rewrite (jmul_ext l (fun v => a (y :: x :: v)) b (fun v => a (x :: y :: v)) b) by (auto; intros; now apply E).
    rewrite (jmul_ext l a (fun v => b (y :: x :: v)) a (fun v => b (x :: y :: v))) by (auto; intros; now apply E).
    lra.
  - rewrite (IH1 n) by auto. apply (IH2 n); auto. apply Permutation_length in P1. lia.
Qed.
Lemma jmul_jsym a b : jsym a -> jsym b -> jsym (jmul a b).
Proof. intros Ha Hb w w' P. apply (jmul_symn w w' P (length w)); auto; intros v v' _; auto. Qed.
Lemma jadd_jsym a b : jsym a -> jsym b -> jsym (fun w => a w + b w).
Proof. intros Ha Hb w w' P. now rewrite (Ha w w' P), (Hb w w' P). Qed.
Lemma jscal_jsym k a : jsym a -> jsym (fun w => k * a w).
Proof. intros Ha w w' P. now rewrite (Ha w w' P). Qed.
Lemma jconst_jsym r : jsym (jconst r).
Proof. intros w w' P. apply Permutation_length in P. destruct w, w'; cbn in *; try discriminate; reflexivity. Qed.
Lemma step_sym (E : jet) :
  (forall n, symn n E -> forall x l l', (length l <= n)%nat -> Permutation l l' -> E (x :: l) = E (x :: l')) ->
  (forall x y l, E (y :: x :: l) = E (x :: y :: l)) -> jsym E.
Proof.
  intros H1 H2. apply jsym_symn. induction n as [|n IH]; intros w w' L P.
  - destruct w; [|cbn in L; lia]. apply Permutation_nil in P. now subst.
  - revert L. induction P as [|x l l' P IHP|x y l|l l' l'' P1 IH1 P2 IH2]; intros L.
    + reflexivity.
    + apply (H1 n IH); auto. cbn in L. lia.
    + apply H2.
    + rewrite IH1 by auto. apply IH2. apply Permutation_length in P1. lia.
Qed.

(* ---- jets of expressions ---- *)
Section Jets.
  Variables (D : nat) (xi : list R) (env : list nat -> R).
  Definition J (e : expr) : jet := fun w => ev D xi env (diffs w e).
  Lemma J_nil e : J e [] = ev D xi env e. Proof. reflexivity. Qed.
  Lemma J_cons e i w : J e (i :: w) = J (diff i e) w. Proof. reflexivity. Qed.
  Lemma J_add w : forall a b, J (EAdd a b) w = J a w + J b w.
  Proof. induction w as [|i w IH]; intros a b; [reflexivity|]. rewrite !J_cons. cbn [diff]. apply IH. Qed.
  Lemma J_mul w : forall a b, J (EMul a b) w = jmul (J a) (J b) w.
  Proof. induction w as [|i w IH]; intros a b; [reflexivity|]. rewrite J_cons. cbn [diff jmul]. rewrite J_add, !IH. reflexivity. Qed.
  Lemma J_const w r : J (EConst r) w = jconst r w.
  Proof.
    assert (H : forall w, J (EConst 0) w = 0) by (induction w0 as [|i w0 IH]; [reflexivity|]; rewrite J_cons; exact IH).
    destruct w as [|i w]; [reflexivity|]. rewrite J_cons. apply H.
  Qed.
  Lemma J_var w i : J (EVar i) w = match w with [] => nth i xi 0 | [j] => if Nat.eqb j i then 1 else 0 | _ => 0 end.
  Proof. destruct w as [|j [|k w]]; try reflexivity. rewrite J_cons. cbn [diff]. now rewrite J_const. Qed.
  Lemma J_fun w : forall v, J (EFun v) w = env (tally D (rev w ++ v)).
  Proof. induction w as [|i w IH]; intros v; [reflexivity|]. rewrite J_cons. cbn [diff rev]. rewrite IH, <- app_assoc. reflexivity. Qed.
  Lemma tally_perm w w' : Permutation w w' -> tally D w = tally D w'.
  Proof. intros P. unfold tally. apply map_ext. intros j. now apply Permutation_count_occ. Qed.
  Lemma J_fun0 w : J (EFun []) w = env (tally D w).
  Proof. rewrite J_fun, app_nil_r. f_equal. apply tally_perm. symmetry. apply Permutation_rev. Qed.
  Lemma J_inv a i w : J (EInv a) (i :: w) = - jmul (jmul (J (EInv a)) (J (EInv a))) (jd i (J a)) w.
  Proof.
    rewrite J_cons. cbn [diff]. rewrite J_mul.
    rewrite (jmul_ext w _ _ (jconst (-1)) (J (EMul (EMul (EInv a) (EInv a)) (diff i a)))) by (intros; auto using J_const).
    rewrite jmul_const_l, J_mul.
    rewrite (jmul_ext w _ _ (jmul (J (EInv a)) (J (EInv a))) (jd i (J a))) by (intros; rewrite ?J_mul; reflexivity). lra.
  Qed.
  Lemma J_log a i w : J (ELog a) (i :: w) = jmul (jd i (J a)) (J (EInv a)) w.
  Proof. rewrite J_cons. cbn [diff]. now rewrite J_mul. Qed.
  Lemma J_exp a i w : J (EExp a) (i :: w) = jmul (J (EExp a)) (jd i (J a)) w.
  Proof. rewrite J_cons. cbn [diff]. now rewrite J_mul. Qed.

  Lemma inv_jsym (I a : jet) : (forall i w, I (i :: w) = - jmul (jmul I I) (jd i a) w) -> jsym a -> jsym I.
  Proof.
    intros HI Ha. apply step_sym.
    - intros n Hn x l l' L P. rewrite !HI. f_equal. apply (jmul_symn l l' P n); auto.
      + intros v v' Lv Pv. apply (jmul_symn v v' Pv n); auto.
      + apply symn_jd. apply jsym_symn. exact Ha.
    - intros x y l. rewrite !HI. cbn [jmul]. f_equal.
      assert (X : forall x y, jmul (fun v => jmul (fun v0 => I (x :: v0)) I v + jmul I (fun v0 => I (x :: v0)) v) (jd y a) l =
                          -2 * jmul (jmul I (jmul (jmul I I) (jd x a))) (jd y a) l).
      { intros p q. rewrite <- jmul_scal_l. apply jmul_ext; auto. intros v _.
        rewrite (jmul_comm v (fun v0 => I (p :: v0)) I).
        rewrite (jmul_ext v I (fun v0 => I (p :: v0)) I (fun v0 => -1 * jmul (jmul I I) (jd p a) v0)) by (intros; auto; rewrite HI; lra).
        rewrite jmul_scal_r. lra. }
      rewrite !X. f_equal.
      + f_equal. rewrite !jmul_assoc.
        apply jmul_ext; auto. intros v _. rewrite !jmul_assoc. apply jmul_ext; auto. intros v' _.
        apply jmul_ext; auto. intros v'' _. apply jmul_comm.
      + apply jmul_ext; auto. intros v _. unfold jd. apply Ha. apply perm_swap.
  Qed.
  Lemma exp_jsym (E a : jet) : (forall i w, E (i :: w) = jmul E (jd i a) w) -> jsym a -> jsym E.
  Proof.
    intros HE Ha. apply step_sym.
    - intros n Hn x l l' L P. rewrite !HE. apply (jmul_symn l l' P n); auto. apply symn_jd. apply jsym_symn. exact Ha.
    - intros x y l. rewrite !HE. cbn [jmul]. f_equal.
      + rewrite (jmul_ext l (fun v => E (x :: v)) (jd y a) (jmul E (jd x a)) (jd y a)) by (intros; auto).
        rewrite (jmul_ext l (fun v => E (y :: v)) (jd x a) (jmul E (jd y a)) (jd x a)) by (intros; auto).
        rewrite !jmul_assoc. apply jmul_ext; auto. intros v _. apply jmul_comm.
      + apply jmul_ext; auto. intros v _. unfold jd. apply Ha. apply perm_swap.
  Qed.
  Lemma log_jsym (L I a : jet) : (forall i w, L (i :: w) = jmul (jd i a) I w) -> (forall i w, I (i :: w) = - jmul (jmul I I) (jd i a) w) ->
    jsym a -> jsym L.
  Proof.
    intros HL HI Ha. pose proof (inv_jsym I a HI Ha) as SI. apply step_sym.
    - intros n _ x l l' _ P. rewrite !HL. apply jmul_jsym; auto. now apply jsym_jd.
    - intros x y l. rewrite !HL. cbn [jmul]. f_equal.
      + apply jmul_ext; auto. intros v _. unfold jd. apply Ha. apply perm_swap.
      + assert (X : forall x y, jmul (jd y a) (fun v => I (x :: v)) l = - jmul (jd y a) (jmul (jmul I I) (jd x a)) l).
        { intros p q. rewrite (jmul_ext l (jd q a) (fun v => I (p :: v)) (jd q a) (fun v => -1 * jmul (jmul I I) (jd p a) v)) by (intros; auto; rewrite HI; lra).
          rewrite jmul_scal_r. lra. }
        rewrite !X. f_equal. rewrite (jmul_comm l (jd y a)), (jmul_comm l (jd x a)), !(jmul_assoc l (jmul I I)).
        apply jmul_ext; auto. intros v _. apply jmul_comm.
  Qed.
  Lemma J_sym e : jsym (J e).
  Proof.
    induction e as [r|i|v|a IHa b IHb|a IHa b IHb|a IHa|a IHa|a IHa].
    - intros w w' P. rewrite !J_const. now apply jconst_jsym.
    - intros w w' P. rewrite !J_var. pose proof (Permutation_length P) as L.
      destruct w as [|j [|k w]], w' as [|j' [|k' w']]; cbn in L; try lia; auto.
      apply Permutation_length_1 in P. now subst.
    - intros w w' P. rewrite !J_fun. f_equal. apply tally_perm. apply Permutation_app_tail. rewrite <- !Permutation_rev. exact P.
    - intros w w' P. rewrite !J_add. now rewrite (IHa w w' P), (IHb w w' P).
    - intros w w' P. rewrite !J_mul. now apply jmul_jsym.
    - apply (inv_jsym _ (J a)); auto. intros. apply J_inv.
    - apply (log_jsym _ (J (EInv a)) (J a)); auto; intros; [apply J_log|apply J_inv].
    - apply (exp_jsym _ (J a)); auto. intros. apply J_exp.
  Qed.

  Lemma inv_spec a : ev D xi env a <> 0 -> forall w, jmul (J a) (J (EInv a)) w = jone w.
  Proof.
    intros Hne w. remember (length w) as n eqn:En. assert (L : (length w <= n)%nat) by lia. clear En. revert w L.
    induction n as [|n IH]; intros [|i w] L; try (cbn in L; lia).
    - cbn. unfold J. cbn. now apply Rinv_r.
    - cbn. unfold J. cbn. now apply Rinv_r.
    - cbn [jmul jone length] in *. set (I := J (EInv a)) in *.
      rewrite (jmul_ext w (J a) (fun v => I (i :: v)) (J a) (fun v => -1 * jmul I (jmul I (jd i (J a))) v)).
      2: auto. 2: { intros v _. unfold I at 1. rewrite J_inv. fold I. rewrite jmul_assoc. lra. }
      rewrite jmul_scal_r, <- jmul_assoc.
      rewrite (jmul_ext w (jmul (J a) I) _ jone (jmul I (jd i (J a)))).
      2: { intros v Hv. apply IH. apply subw_length in Hv. lia. } 2: auto.
      rewrite jmul_one_l. change (fun v => J a (i :: v)) with (jd i (J a)). rewrite (jmul_comm w (jd i (J a)) I). lra.
  Qed.
  Lemma log_spec a i w : ev D xi env a <> 0 -> J a (i :: w) = jmul (J a) (jd i (J (ELog a))) w.
  Proof.
    intros Hne. symmetry.
    rewrite (jmul_ext w (J a) (jd i (J (ELog a))) (J a) (jmul (J (EInv a)) (jd i (J a)))).
    2: auto. 2: { intros v _. unfold jd at 1. rewrite J_log. apply jmul_comm. }
    rewrite <- jmul_assoc. rewrite (jmul_ext w (jmul (J a) (J (EInv a))) _ jone (jd i (J a))); auto.
    - now rewrite jmul_one_l.
    - intros v _. now apply inv_spec.
  Qed.

  Definition sumw (x : list R) (w : word) : R := fold_right Rmult 1 (map (fun i => nth i x 0) w).
  Lemma J_esum l w : J (esum l) w = rsum (map (fun e => J e w) l).
  Proof. induction l as [|e l IH]; cbn [esum fold_right map]; [now rewrite J_const; destruct w|]. rewrite J_add. unfold rsum in *. cbn. rewrite <- IH. reflexivity. Qed.
End Jets.

(* E = exp(a) as jets *)
Definition isexp (E a : jet) : Prop := E [] = exp (a []) /\ forall i w, E (i :: w) = jmul E (jd i a) w.
Lemma isexp_J D xi env a : isexp (J D xi env (EExp a)) (J D xi env a).
Proof. split; [reflexivity|]. intros. apply J_exp. Qed.
Lemma isexp_log D xi env a : 0 < ev D xi env a -> isexp (J D xi env a) (J D xi env (ELog a)).
Proof. intros H. split; [unfold J; cbn; now rewrite exp_ln|]. intros i w. apply log_spec. lra. Qed.
Lemma isexp_ext E a E' a' : isexp E a -> (forall w, E w = E' w) -> (forall w, a w = a' w) -> isexp E' a'.
Proof.
  intros [H1 H2] HE Ha. split; [now rewrite <- HE, <- Ha|]. intros i w. rewrite <- HE, H2. apply jmul_ext; intros; auto. unfold jd. auto.
Qed.
Lemma isexp_unique E a E' a' : isexp E a -> isexp E' a' -> forall w, (forall v, subw v w -> a v = a' v) -> E w = E' w.
Proof.
  intros [H1 H2] [H1' H2'] w. remember (length w) as n eqn:En. assert (L : (length w <= n)%nat) by lia. clear En. revert w L.
  induction n as [|n IH]; intros [|i w] L Ha; try (cbn in L; lia).
  - rewrite H1, H1'. f_equal. apply Ha. constructor.
  - rewrite H1, H1'. f_equal. apply Ha. constructor.
  - cbn in L. rewrite H2, H2'. apply jmul_ext.
    + intros v Hv. apply IH; [apply subw_length in Hv; lia|]. intros v' Hv'. apply Ha. constructor. eapply subw_trans; eauto.
    + intros v Hv. unfold jd. apply Ha. now constructor.
Qed.
Lemma isexp_mul E a E' a' : isexp E a -> isexp E' a' -> isexp (jmul E E') (fun w => a w + a' w).
Proof.
  intros [H1 H2] [H1' H2']. split.
  - cbn. rewrite H1, H1', exp_plus. reflexivity.
  - intros i w. cbn [jmul]. unfold jd.
    rewrite (jmul_add_r w (jmul E E') (fun v => a (i :: v)) (fun v => a' (i :: v))). f_equal.
    + rewrite (jmul_ext w (fun v => E (i :: v)) E' (jmul E (jd i a)) E') by (intros; auto).
      rewrite !jmul_assoc. apply jmul_ext; auto. intros v _. apply jmul_comm.
    + rewrite (jmul_ext w E (fun v => E' (i :: v)) E (jmul E' (jd i a'))) by (intros; auto).
      now rewrite jmul_assoc.
Qed.

(* formal inverse of a jet with nonzero constant term; exists because the inverse of an undefined function's jet is one *)
Section Words.
  Variable D : nat.
  Definition inD (w : word) : Prop := Forall (fun i => (i < D)%nat) w.
  Lemma tally_indices e : length e = D -> tally D (get_moment_indices e) = e.
  Proof.
    intros L. apply nth_ext with (d := 0%nat) (d' := 0%nat); unfold tally; rewrite map_length, seq_length; auto.
    intros j Hj. rewrite nth_indep with (d' := count_occ Nat.eq_dec (get_moment_indices e) 0%nat) by (rewrite map_length, seq_length; auto).
    rewrite map_nth, seq_nth by auto. cbn [Nat.add]. unfold get_moment_indices. rewrite count_indices_from. cbn. now rewrite Nat.sub_0_r.
  Qed.
  Lemma tally_length w : length (tally D w) = D.
  Proof. unfold tally. now rewrite map_length, seq_length. Qed.
  Lemma nth_tally w j : (j < D)%nat -> nth j (tally D w) 0%nat = count_occ Nat.eq_dec w j.
  Proof.
    intros Hj. unfold tally. rewrite nth_indep with (d' := count_occ Nat.eq_dec w 0%nat) by (rewrite map_length, seq_length; auto).
    now rewrite map_nth, seq_nth.
  Qed.
  Lemma indices_tally w : inD w -> Permutation (get_moment_indices (tally D w)) w.
  Proof.
    intros H. apply (Permutation_count_occ Nat.eq_dec). intros j. unfold get_moment_indices. rewrite count_indices_from. cbn. rewrite Nat.sub_0_r.
    destruct (Nat.lt_ge_cases j D) as [Hj|Hj]; [now apply nth_tally|].
    rewrite nth_overflow by (rewrite tally_length; auto). symmetry. apply count_occ_not_In. intros Hin.
    unfold inD in H. rewrite Forall_forall in H. specialize (H j Hin). lia.
  Qed.
  Lemma indices_inD e : length e = D -> inD (get_moment_indices e).
  Proof. intros L. unfold inD, get_moment_indices. eapply Forall_impl; [|apply indices_from_range]. cbn. intros; lia. Qed.
  Lemma tally_subw v w : subw v w -> Forall2 le (tally D v) (tally D w).
  Proof.
    intros H. unfold tally. generalize (seq 0 D). intros l. induction l as [|j l IH]; constructor; auto.
    clear IH. induction H as [|i v w H IH|i v w H IH]; cbn; auto; destruct (Nat.eq_dec i j); lia.
  Qed.
End Words.
Lemma indices_zero n : forall i, indices_from i (repeat 0%nat n) = [].
Proof. induction n as [|n IH]; intros i; [reflexivity|]. cbn. apply IH. Qed.
