(* Cumulants under turns. *)
From Coq Require Import List ZArith Bool Arith Reals Lra Lia Permutation.
From Verif Require Import StencilModel RealLib LinLib TransSpec MomModel MomProofs CumModel CumProofs CumProofs2 SymSpec SymProofs SymProofs4.
Import ListNotations.
Local Open Scope R_scope.

(* jets in renamed variables, with a sign for each variable *)
Section Renamed.
  Context (sg : nat -> R) (pi : nat -> nat).
  Fixpoint sgw (w : word) : R := match w with [] => 1 | i :: w => sg i * sgw w end.
  Definition jren (a : jet) : jet := fun w => sgw w * a (map pi w).
  Lemma jmul_ren w : forall a b, jmul (jren a) (jren b) w = jren (jmul a b) w.
  Proof.
    induction w as [|i w IH]; intros a b; [unfold jren; cbn; ring|]. cbn [jmul].
    rewrite (jmul_ext w (fun v => jren a (i :: v)) (jren b) (fun v => sg i * jren (jd (pi i) a) v) (jren b)) by (intros; unfold jren, jd; cbn [sgw map]; auto; ring).
    rewrite (jmul_ext w (jren a) (fun v => jren b (i :: v)) (jren a) (fun v => sg i * jren (jd (pi i) b) v)) by (intros; unfold jren, jd; cbn [sgw map]; auto; ring).
    rewrite jmul_scal_l, jmul_scal_r, !IH. unfold jren. cbn [sgw map jmul]. unfold jd. ring.
  Qed.
  Lemma jmul_ren_ext w a b a' b' : (forall v, (length v <= length w)%nat -> a' v = jren a v) -> (forall v, (length v <= length w)%nat -> b' v = jren b v) -> jmul a' b' w = jren (jmul a b) w.
  Proof. intros Ha Hb. rewrite <- jmul_ren. apply jmul_ext; intros v Hv; [apply Ha|apply Hb]; now apply subw_length. Qed.

  Section Rel.
    Context (D : nat) (env env' : list nat -> R).
    Notation J0 := (J D (rzero D)).
    Definition renamed (a' a : expr) : Prop := forall w, J0 env' a' w = jren (J0 env a) w.
    Lemma jd_ren i a a' n : (forall v, (length v <= S n)%nat -> a' v = jren a v) -> forall v, (length v <= n)%nat -> jd i a' v = sg i * jren (jd (pi i) a) v.
    Proof. intros H v Hv. unfold jd. rewrite H by (cbn; lia). unfold jren. cbn [sgw map]. ring. Qed.
    Lemma renamed_inv a' a : renamed a' a -> renamed (EInv a') (EInv a).
    Proof.
      intros H. assert (G : forall n w, (length w <= n)%nat -> J0 env' (EInv a') w = jren (J0 env (EInv a)) w); [|intros w; eauto].
      assert (N : J0 env' (EInv a') [] = jren (J0 env (EInv a)) []). { unfold jren. cbn [sgw map]. unfold J. cbn [diffs ev]. pose proof (H []) as E. unfold jren in E. cbn [sgw map] in E. unfold J in E. cbn [diffs] in E. rewrite E. now rewrite !Rmult_1_l. }
      induction n as [|n IH]; intros w Hw. { destruct w; [exact N|cbn in Hw; lia]. }
      destruct w as [|i w]; [exact N|]. cbn in Hw. rewrite J_inv.
      rewrite (jmul_ext w _ _ (jren (jmul (J0 env (EInv a)) (J0 env (EInv a)))) (fun v => sg i * jren (jd (pi i) (J0 env a)) v)).
      - rewrite jmul_scal_r, jmul_ren. unfold jren. cbn [sgw map]. rewrite J_inv. ring.
      - intros v Hv. apply subw_length in Hv. apply jmul_ren_ext; intros x Hx; apply IH; lia.
      - intros v Hv. apply (jd_ren i (J0 env a) (J0 env' a') (length v)); [intros; apply H|lia].
    Qed.
    Lemma renamed_log a' a : renamed a' a -> renamed (ELog a') (ELog a).
    Proof.
      intros H w. destruct w as [|i w].
      - unfold jren. cbn [sgw map]. unfold J. cbn [diffs ev]. pose proof (H []) as E. unfold jren in E. cbn [sgw map] in E. unfold J in E. cbn [diffs] in E. rewrite E. now rewrite !Rmult_1_l.
      - rewrite J_log. rewrite (jmul_ext w _ _ (fun v => sg i * jren (jd (pi i) (J0 env a)) v) (jren (J0 env (EInv a)))).
        + rewrite jmul_scal_l, jmul_ren. unfold jren. cbn [sgw map]. rewrite J_log. ring.
        + intros v Hv. apply (jd_ren i (J0 env a) (J0 env' a') (length v)); [intros; apply H|lia].
        + intros v Hv. now apply renamed_inv.
    Qed.
    Lemma renamed_exp a' a : renamed a' a -> renamed (EExp a') (EExp a).
    Proof.
      intros H. assert (G : forall n w, (length w <= n)%nat -> J0 env' (EExp a') w = jren (J0 env (EExp a)) w); [|intros w; eauto].
      assert (N : J0 env' (EExp a') [] = jren (J0 env (EExp a)) []). { unfold jren. cbn [sgw map]. unfold J. cbn [diffs ev]. pose proof (H []) as E. unfold jren in E. cbn [sgw map] in E. unfold J in E. cbn [diffs] in E. rewrite E. now rewrite !Rmult_1_l. }
      induction n as [|n IH]; intros w Hw. { destruct w; [exact N|cbn in Hw; lia]. }
      destruct w as [|i w]; [exact N|]. cbn in Hw. rewrite J_exp.
      rewrite (jmul_ext w _ _ (jren (J0 env (EExp a))) (fun v => sg i * jren (jd (pi i) (J0 env a)) v)).
      - rewrite jmul_scal_r, jmul_ren. unfold jren. cbn [sgw map]. rewrite J_exp. ring.
      - intros v Hv. apply subw_length in Hv. apply IH; lia.
      - intros v Hv. apply (jd_ren i (J0 env a) (J0 env' a') (length v)); [intros; apply H|lia].
    Qed.
    Lemma renamed_add a' a b' b : renamed a' a -> renamed b' b -> renamed (EAdd a' b') (EAdd a b).
    Proof. intros H1 H2 w. rewrite J_add, H1, H2. unfold jren. rewrite J_add. ring. Qed.
    Lemma renamed_mul a' a b' b : renamed a' a -> renamed b' b -> renamed (EMul a' b') (EMul a b).
    Proof. intros H1 H2 w. rewrite J_mul. rewrite (jmul_ext w _ _ (jren (J0 env a)) (jren (J0 env b))) by auto. rewrite jmul_ren. unfold jren. now rewrite J_mul. Qed.
    Lemma renamed_const r : renamed (EConst r) (EConst r).
    Proof. intros w. unfold jren. rewrite !J_const. destruct w; cbn; ring. Qed.
    Lemma renamed_fun : (forall w, env' (tally D w) = sgw w * env (tally D (map pi w))) -> renamed (EFun []) (EFun []).
    Proof. intros H w. unfold jren. now rewrite !J_fun0. Qed.
    Lemma renamed_lin u' u : (length u' <= D)%nat -> (length u <= D)%nat -> (forall i, nth i u' 0 = sg i * nth (pi i) u 0) -> renamed (elin u') (elin u).
    Proof. intros L1 L2 H w. unfold jren. rewrite !J_elin0 by assumption. destruct w as [|i [|j w]]; cbn; try ring. rewrite H. ring. Qed.
  End Rel.
End Renamed.

(* signs and variables of one operation *)
Definition op_sign (D : nat) (g : axis_op) (i : nat) : R := match g with Reflect a => if Nat.eqb i a && (a <? D)%nat then -1 else 1 | Exchange _ => 1 end.
Definition op_axis (D : nat) (g : axis_op) (i : nat) : nat := match g with Reflect _ => i | Exchange a => if (a + 1 <? D)%nat then swap_index a i else i end.
Lemma count_swap a w k : count_occ Nat.eq_dec (map (swap_index a) w) k = count_occ Nat.eq_dec w (swap_index a k).
Proof.
  induction w as [|i w IH]; [reflexivity|]. cbn [map count_occ]. rewrite IH. destruct (Nat.eq_dec (swap_index a i) k) as [E|E]; destruct (Nat.eq_dec i (swap_index a k)) as [F|F]; auto; exfalso.
  - apply F. rewrite <- E. symmetry. apply swap_twice.
  - apply E. rewrite F. apply swap_twice.
Qed.
Lemma swap_range a D i : (a + 1 < D)%nat -> (i < D)%nat -> (swap_index a i < D)%nat.
Proof. intros Ha Hi. unfold swap_index. destruct (Nat.eqb i a); [lia|]. destruct (Nat.eqb_spec i (a + 1)); lia. Qed.
Lemma tally_op D g w : tally D (map (op_axis D g) w) = act_exp g (tally D w).
Proof.
  destruct g as [a|a]; cbn [act_exp]; [f_equal; apply map_id|]. destruct (Nat.ltb_spec (a + 1) D) as [H|H].
  2: { rewrite exchange_out by (rewrite tally_length; lia). f_equal. rewrite <- (map_id w) at 2. apply map_ext. intros i. unfold op_axis. destruct (Nat.ltb_spec (a + 1) D); [lia|reflexivity]. }
  replace (map (op_axis D (Exchange a)) w) with (map (swap_index a) w) by (apply map_ext; intros i; unfold op_axis; destruct (Nat.ltb_spec (a + 1) D); [reflexivity|lia]).
  apply list_nat_ext; [now rewrite exchange_length, !tally_length|]. intros k. rewrite exchange_nth by (rewrite tally_length; exact H).
  destruct (Nat.ltb_spec k D) as [Hk|Hk].
  - rewrite !nth_tally by (auto using swap_range). apply count_swap.
  - assert (E : swap_index a k = k) by (unfold swap_index; destruct (Nat.eqb_spec k a); [lia|]; destruct (Nat.eqb_spec k (a + 1)); lia). rewrite E, !nth_overflow by (rewrite tally_length; lia). reflexivity.
Qed.
Lemma sgw_op D g w : sgw (op_sign D g) w = act_sign g (tally D w).
Proof.
  destruct g as [a|a]; cbn [act_sign]; [|induction w as [|i w IH]; [reflexivity|]; cbn [sgw op_sign]; rewrite IH; ring].
  destruct (Nat.ltb_spec a D) as [H|H].
  - rewrite nth_tally by exact H. induction w as [|i w IH]; [reflexivity|]. cbn [sgw op_sign count_occ]. rewrite IH. destruct (Nat.ltb_spec a D); [|lia]. destruct (Nat.eqb_spec i a) as [->|E]; cbn [andb].
    + destruct (Nat.eq_dec a a); [cbn; ring|contradiction].
    + destruct (Nat.eq_dec i a); [contradiction|ring].
  - rewrite nth_overflow by (rewrite tally_length; lia). cbn. induction w as [|i w IH]; [reflexivity|]. cbn [sgw op_sign]. rewrite IH. destruct (Nat.ltb_spec a D); [lia|]. rewrite andb_false_r. ring.
Qed.
Lemma nth_act D g u i : length u = D -> nth i (act Ropp g u) 0 = op_sign D g i * nth (op_axis D g i) u 0.
Proof.
  intros Hu. destruct g as [a|a]; cbn [act op_sign op_axis].
  - assert (E : nth i (at_axis Ropp a u) 0 = if Nat.eqb a i then - nth i u 0 else nth i u 0).
    { clear. revert i u; induction a as [|b IH]; intros [|a] [|x F]; cbn [at_axis nth Nat.eqb]; try reflexivity; try ring. - destruct (Nat.eqb b a); ring. - apply IH. }
    rewrite E. rewrite (Nat.eqb_sym a i). destruct (Nat.eqb_spec i a) as [->|]; cbn [andb]; [|ring]. destruct (Nat.ltb_spec a D); [ring|]. rewrite nth_overflow by lia. ring.
  - rewrite Rmult_1_l. destruct (Nat.ltb_spec (a + 1) D) as [H|H]; [apply exchange_nth; lia|now rewrite exchange_out by lia].
Qed.
Lemma op_inD D g w : inD D w -> inD D (map (op_axis D g) w).
Proof.
  unfold inD. rewrite !Forall_forall. intros H x Hx. apply in_map_iff in Hx as (i & <- & Hi). specialize (H i Hi). destruct g as [a|a]; cbn [op_axis]; [exact H|]. destruct (Nat.ltb_spec (a + 1) D); [now apply swap_range|exact H].
Qed.

Section Ops.
  Context (D : nat) (g : axis_op) (u : list R) (rho : R).
  Hypothesis Hu : length u = D.
  Lemma lin_op env env' : renamed (op_sign D g) (op_axis D g) D env env' (elin (act Ropp g u)) (elin u).
  Proof. apply renamed_lin; [rewrite act_length; lia|lia|]. intros i. now apply nth_act. Qed.
  Lemma fun_op env env' : (forall e, length e = D -> env' e = act_sign g e * env (act_exp g e)) -> renamed (op_sign D g) (op_axis D g) D env env' (EFun []) (EFun []).
  Proof. intros H. apply renamed_fun. intros w. rewrite H by apply tally_length. now rewrite sgw_op, tally_op. Qed.
  Lemma cfm_act kappa kappa' e : (forall e, length e = D -> kappa' e = act_sign g e * kappa (act_exp g e)) -> length e = D ->
    cumulant_from_central_moments D (act Ropp g u) rho kappa' e = act_sign g e * cumulant_from_central_moments D u rho kappa (act_exp g e).
  Proof.
    intros H He. pose proof (indices_inD D e He) as HI. set (w := get_moment_indices e) in HI. assert (Ee : e = tally D w) by (symmetry; now apply tally_indices). rewrite Ee, <- tally_op.
    rewrite cfm_word by (auto; rewrite act_length; lia). rewrite cfm_word by (auto using op_inD; lia). rewrite <- (sgw_op D g w).
    pose proof (renamed_add _ _ D kappa kappa' _ _ _ _ (lin_op kappa kappa') (renamed_log _ _ D kappa kappa' _ _ (fun_op kappa kappa' H))) as R. rewrite (R w). unfold jren. ring.
  Qed.
  Lemma mfc_act c c' e : (forall e, length e = D -> c' e = act_sign g e * c (act_exp g e)) -> length e = D ->
    central_moment_from_cumulants D (act Ropp g u) rho c' e = act_sign g e * central_moment_from_cumulants D u rho c (act_exp g e).
  Proof.
    intros H He. pose proof (indices_inD D e He) as HI. set (w := get_moment_indices e) in HI. assert (Ee : e = tally D w) by (symmetry; now apply tally_indices). rewrite Ee, <- tally_op.
    rewrite mfc_word by (auto; rewrite act_length; lia). rewrite mfc_word by (auto using op_inD; lia). rewrite <- (sgw_op D g w).
    set (env := fun i => c i / rho). set (env' := fun i => c' i / rho).
    assert (HE : forall e, length e = D -> env' e = act_sign g e * env (act_exp g e)) by (intros x Hx; unfold env, env'; rewrite H by exact Hx; unfold Rdiv; ring).
    pose proof (renamed_exp _ _ D env env' _ _ (renamed_add _ _ D env env' _ _ _ _ (fun_op env env' HE) (renamed_mul _ _ D env env' _ _ _ _ (renamed_const _ _ D env env' (-1)) (lin_op env env')))) as R. rewrite (R w). reflexivity.
  Qed.
End Ops.

Definition covariant (D : nat) (w : list axis_op) (phi phi' : list nat -> R) : Prop := forall e, length e = D -> phi' e = turn_sign w e * phi (turn_exp w e).
Lemma covariant_step D (K : list R -> (list nat -> R) -> list nat -> R) :
  (forall u k k' e, (forall x, length x = D -> k x = k' x) -> length e = D -> length u = D -> K u k e = K u k' e) ->
  (forall g u k k' e, length u = D -> (forall x, length x = D -> k' x = act_sign g x * k (act_exp g x)) -> length e = D -> K (act Ropp g u) k' e = act_sign g e * K u k (act_exp g e)) ->
  forall w u k k', length u = D -> covariant D w k k' -> covariant D w (K u k) (K (turnR w u) k').
Proof.
  intros Hext Hact w. induction w as [|g w IH]; intros u k k' Hu H e He.
  - cbn [turn_sign turn_exp turnR fold_right]. rewrite Rmult_1_l. apply Hext; auto. intros x Hx. rewrite H by exact Hx. cbn. ring.
  - rewrite turnR_cons. rewrite (Hact g (turnR w u) (fun x => turn_sign w x * k (turn_exp w x)) k' e); auto.
    + rewrite (IH u k (fun x => turn_sign w x * k (turn_exp w x)) Hu) by (try (intros x Hx; reflexivity); now rewrite act_exp_length). cbn [turn_sign turn_exp]. ring.
    + now rewrite turnR_length.
    + intros x Hx. rewrite H by exact Hx. cbn [turn_sign turn_exp]. ring.
Qed.
Lemma ev_ext D xi env env' e : (forall x, length x = D -> env x = env' x) -> ev D xi env e = ev D xi env' e.
Proof. intros H. induction e; cbn [ev]; try congruence. apply H, tally_length. Qed.
Lemma cfm_turn D w u rho kappa kappa' : length u = D -> covariant D w kappa kappa' ->
  covariant D w (cumulant_from_central_moments D u rho kappa) (cumulant_from_central_moments D (turnR w u) rho kappa').
Proof.
  intros Hu H. apply (covariant_step D (fun u k e => cumulant_from_central_moments D u rho k e)); auto.
  - intros v k k' e E _ _. unfold cumulant_from_central_moments, ev0. f_equal. now apply ev_ext.
  - intros g v k k' e Hv E He. now apply cfm_act.
Qed.
Lemma mfc_turn D w u rho c c' : length u = D -> covariant D w c c' ->
  covariant D w (central_moment_from_cumulants D u rho c) (central_moment_from_cumulants D (turnR w u) rho c').
Proof.
  intros Hu H. apply (covariant_step D (fun u k e => central_moment_from_cumulants D u rho k e)); auto.
  - intros v k k' e E _ _. unfold central_moment_from_cumulants, ev0. apply ev_ext. intros x Hx. now rewrite E.
  - intros g v k k' e Hv E He. now apply mfc_act.
Qed.
