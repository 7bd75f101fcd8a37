From Coq Require Import List ZArith Bool Arith Lia Permutation FinFun.
From Verif Require Import StencilModel StencilProofs StreamSpec AccessProofs SplitModel.
Import ListNotations.

Lemma vec_eqb_iff a b : vec_eqb a b = true <-> a = b.
Proof. unfold vec_eqb. destruct (vec_eq_dec a b); split; congruence. Qed.
Lemma self_opposite (d : vec) : vneg d = d <-> d = vzero (length d).
Proof.
  unfold vneg, vzero. induction d as [|e d IH]; cbn [map length repeat]; [tauto|]. split; intros [= H1 H2].
  - f_equal; [lia|]. now apply IH.
  - f_equal; [lia|]. now apply IH.
Qed.

Section P.
  Context (D : nat) (S : stencil) (HS : symmetric_stencil D S).
  Notation dir := (dir S). Notation opp := (opp S). Notation Q := (length S).
  Definition table (v : nat -> list sym) (l : list nat) : list (vec * list sym) := map (fun i => (dir i, v i)) l.
  Lemma dict_mem_table v l j : (j < Q)%nat -> Forall (fun i => (i < Q)%nat) l -> dict_mem (dir j) (table v l) = existsb (Nat.eqb j) l.
  Proof.
    intros Hj H. induction H as [|i l Hi H IH]; auto. change (table v (i :: l)) with ((dir i, v i) :: table v l). cbn [dict_mem existsb]. rewrite IH. f_equal.
    destruct (Nat.eqb_spec j i) as [->|N]; [now apply vec_eqb_iff|].
    destruct (vec_eqb (dir j) (dir i)) eqn:E; auto. apply vec_eqb_iff in E. exfalso. apply N. eapply dir_inj; eauto.
  Qed.
  Lemma dict_append_in v l j s : (j < Q)%nat -> Forall (fun i => (i < Q)%nat) l -> NoDup l -> In j l ->
    dict_append (dir j) s (table v l) = table (fun i => if (i =? j)%nat then v i ++ [s] else v i) l.
  Proof.
    intros Hj H ND. induction H as [|i l Hi H IH]; intros Hin; [destruct Hin|]. inversion ND; subst. change (table v (i :: l)) with ((dir i, v i) :: table v l). cbn [dict_append].
    destruct (vec_eqb (dir j) (dir i)) eqn:E.
    - apply vec_eqb_iff in E. assert (j = i) by (eapply dir_inj; eauto). subst. unfold table at 2. cbn [map]. rewrite Nat.eqb_refl. f_equal.
      apply map_ext_in. intros k Hk. destruct (Nat.eqb_spec k i); [subst; tauto|auto].
    - destruct (Nat.eqb_spec i j) as [->|N].
      + assert (E' : vec_eqb (dir j) (dir j) = true) by now apply vec_eqb_iff. congruence.
      + unfold table at 2. cbn [map]. destruct (Nat.eqb_spec i j); [congruence|]. f_equal. apply IH; auto. destruct Hin; congruence.
  Qed.
  Lemma dict_append_new v l j s : (j < Q)%nat -> Forall (fun i => (i < Q)%nat) l -> ~ In j l ->
    dict_append (dir j) s (table v l) = table v l ++ [(dir j, [s])].
  Proof.
    intros Hj H. induction H as [|i l Hi H IH]; intros Hin; auto. change (table v (i :: l)) with ((dir i, v i) :: table v l). cbn [dict_append app].
    destruct (vec_eqb (dir j) (dir i)) eqn:E.
    - apply vec_eqb_iff in E. assert (j = i) by (eapply dir_inj; eauto). subst. exfalso. apply Hin. now left.
    - f_equal. apply IH. intros K. apply Hin. now right.
  Qed.

  Definition firsts (k : nat) : list nat := filter (fun i => (i <? opp i)%nat) (seq 0 k).
  Definition partial_group (k i : nat) : list sym := Post i :: (if (opp i <? k)%nat then [Post (opp i)] else []).
  Definition rests (k : nat) : list sym := map Post (filter (fun i => (i =? opp i)%nat) (seq 0 k)).
  Lemma firsts_in k i : In i (firsts k) <-> (i < k)%nat /\ (i < opp i)%nat.
  Proof. unfold firsts. rewrite filter_In, in_seq, Nat.ltb_lt. intuition lia. Qed.
  Lemma firsts_lt k : (k <= Q)%nat -> Forall (fun i => (i < Q)%nat) (firsts k).
  Proof. intros H. apply Forall_forall. intros i Hi. apply firsts_in in Hi. lia. Qed.
  Lemma firsts_nodup k : NoDup (firsts k).
  Proof. apply NoDup_filter, seq_NoDup. Qed.
  Lemma hd_length : length (hd [] S) = D.
  Proof. rewrite <- (dimD_D D S HS). unfold dimD. destruct HS as (Hne & _). destruct S; [congruence|reflexivity]. Qed.

  Lemma group_fold es g0 : (Q <= length es)%nat -> (forall i e, (i < Q)%nat -> nth_error es i = Some e -> lhs e = Post i) ->
    forall k, (k <= Q)%nat ->
    fold_left (group_step D) (firstn k (combine S es)) (g0, []) = (g0 ++ rests k, table (partial_group k) (firsts k)).
  Proof.
    intros Hes Hp. induction k as [|k IH]; intros Hk.
    - cbn. unfold rests. cbn. now rewrite app_nil_r.
    - assert (Hc : exists e, nth_error (combine S es) k = Some (dir k, e) /\ lhs e = Post k).
      { destruct (nth_error es k) as [e|] eqn:E; [|apply nth_error_None in E; lia]. exists e. split; [|apply Hp; auto; lia].
        assert (G : forall (a : list vec) (b : list asg) i x y, nth_error a i = Some x -> nth_error b i = Some y -> nth_error (combine a b) i = Some (x, y)).
        { clear. induction a; intros [|b0 b] [|i] x y Ha Hb; cbn in *; try discriminate; [congruence|auto]. }
        apply G; auto. apply dir_nth_error. lia. }
      destruct Hc as (e & Hc & He).
      assert (F : firstn (Datatypes.S k) (combine S es) = firstn k (combine S es) ++ [(dir k, e)]).
      { clear - Hc. revert Hc. generalize (dir k, e) as q. revert k. generalize (combine S es). induction l as [|a l IHl]; intros [|k] q Hc; cbn in *; try discriminate; [congruence|].
        f_equal. now apply IHl. }
      rewrite F, fold_left_app, IH by lia. clear IH F. cbn [fold_left]. unfold group_step. rewrite He.
      assert (Hk' : (k < Q)%nat) by lia.
      pose proof (dir_length D S HS k Hk') as Ld.
      assert (Fi : firsts (Datatypes.S k) = firsts k ++ (if (k <? opp k)%nat then [k] else [])).
      { unfold firsts. rewrite seq_S, filter_app. cbn. destruct (k <? opp k)%nat; auto. }
      assert (Re : rests (Datatypes.S k) = rests k ++ (if (k =? opp k)%nat then [Post k] else [])).
      { unfold rests. rewrite seq_S, filter_app, map_app. cbn. destruct (k =? opp k)%nat; auto. }
      rewrite Re, Fi.
      destruct (vec_eqb (dir k) (vzero D)) eqn:Ez.
      + apply vec_eqb_iff in Ez.
        assert (Eo : opp k = k). { eapply dir_inj; eauto; [eapply opp_lt; eauto|]. rewrite (dir_opp D S HS) by auto. apply self_opposite. now rewrite Ld. }
        rewrite Eo, Nat.eqb_refl, Nat.ltb_irrefl, app_nil_r, app_assoc. f_equal.
        apply map_ext_in. intros i Hi. apply firsts_in in Hi. unfold partial_group. do 2 f_equal.
        assert (opp i <> k). { intros E. assert (i = k) by (rewrite <- (opp_opp D S HS i), E by lia; auto). lia. }
        destruct (Nat.ltb_spec (opp i) k), (Nat.ltb_spec (opp i) (Datatypes.S k)); auto; lia.
      + assert (Eo : opp k <> k).
        { intros E. assert (vneg (dir k) = dir k) by (rewrite <- (dir_opp D S HS k Hk'), E; auto). apply self_opposite in H. rewrite Ld in H.
          assert (vec_eqb (dir k) (vzero D) = true) by now apply vec_eqb_iff. congruence. }
        pose proof (opp_lt D S HS k Hk') as Ho.
        rewrite <- (dir_opp D S HS k Hk'), (dict_mem_table _ _ _ Ho (firsts_lt k ltac:(lia))).
        destruct (Nat.eqb_spec k (opp k)); [congruence|]. rewrite app_nil_r.
        destruct (Nat.ltb_spec k (opp k)) as [L|L].
        * destruct (existsb (Nat.eqb (opp k)) (firsts k)) eqn:X.
          { apply existsb_exists in X. destruct X as (i & Hi & Ei). apply Nat.eqb_eq in Ei. subst i. apply firsts_in in Hi. lia. }
          rewrite dict_append_new; auto; [|apply firsts_lt; lia|rewrite firsts_in; lia].
          f_equal. unfold table. rewrite map_app. cbn [map]. f_equal.
          { apply map_ext_in. intros i Hi. apply firsts_in in Hi. unfold partial_group. do 2 f_equal.
            assert (opp i <> k). { intros E. assert (i = opp k) by (rewrite <- E, (opp_opp D S HS i) by lia; auto). lia. }
            destruct (Nat.ltb_spec (opp i) k), (Nat.ltb_spec (opp i) (Datatypes.S k)); auto; lia. }
          { unfold partial_group. destruct (Nat.ltb_spec (opp k) (Datatypes.S k)); [lia|]. reflexivity. }
        * assert (Hin : In (opp k) (firsts k)) by (apply firsts_in; rewrite (opp_opp D S HS k Hk'); lia).
          assert (X : existsb (Nat.eqb (opp k)) (firsts k) = true) by (apply existsb_exists; exists (opp k); split; [auto|apply Nat.eqb_refl]).
          rewrite X, dict_append_in; auto; [|apply firsts_lt; lia|apply firsts_nodup]. rewrite app_nil_r. f_equal.
          apply map_ext_in. intros i Hi. apply firsts_in in Hi. f_equal. unfold partial_group.
          destruct (Nat.eqb_spec i (opp k)) as [->|Ni].
          { rewrite (opp_opp D S HS k Hk'). destruct (Nat.ltb_spec k k), (Nat.ltb_spec k (Datatypes.S k)); try lia. reflexivity. }
          { assert (opp i <> k). { intros E. apply Ni. rewrite <- E, (opp_opp D S HS i) by lia. auto. }
            destruct (Nat.ltb_spec (opp i) k), (Nat.ltb_spec (opp i) (Datatypes.S k)); auto; lia. }
  Qed.
  Lemma split_groups_form r velocity : velocity_hint r = Some velocity -> (Q <= length (mains r))%nat ->
    (forall i e, (i < Q)%nat -> nth_error (mains r) i = Some e -> lhs e = Post i) ->
    create_lbm_split_groups S r true = Ok (((important r velocity ++ other_written r) ++ rests Q) :: map (fun i => [Post i; Post (opp i)]) (firsts Q)).
  Proof.
    intros Hv Hl Hp. unfold create_lbm_split_groups. rewrite Hv, hd_length.
    pose proof (group_fold (mains r) (important r velocity ++ other_written r) Hl Hp Q (le_n _)) as H.
    rewrite firstn_all2 in H by (rewrite combine_length; lia). rewrite H. do 2 f_equal. unfold table. rewrite map_map. cbn [snd].
    apply map_ext_in. intros i Hi. apply firsts_in in Hi. unfold partial_group.
    pose proof (opp_lt D S HS i ltac:(lia)). destruct (Nat.ltb_spec (opp i) Q); [reflexivity|lia].
  Qed.

  (* indices of the stores after the first group *)
  Lemma pairs_nodup : NoDup (flat_map (fun i => [i; opp i]) (firsts Q)).
  Proof.
    assert (H : forall l, NoDup l -> (forall i, In i l -> (i < Q)%nat /\ (i < opp i)%nat) -> NoDup (flat_map (fun i => [i; opp i]) l)).
    { induction 1 as [|i l Hi ND IH]; intros Hl; cbn; [constructor|].
      destruct (Hl i (or_introl eq_refl)) as [Qi Li].
      assert (K : forall j, In j l -> i <> j /\ i <> opp j /\ opp i <> j /\ opp i <> opp j).
      { intros j Hj. destruct (Hl j (or_intror Hj)) as [Qj Lj]. assert (i <> j) by congruence.
        repeat split; auto.
        - intros E. assert (opp i = j) by (rewrite E; now apply (opp_opp D S HS)). lia.
        - intros E. assert (opp j = i) by (rewrite <- E; now apply (opp_opp D S HS)). lia.
        - intros E. apply (opp_inj D S HS) in E; auto. }
      assert (IHl : NoDup (flat_map (fun i => [i; opp i]) l)) by (apply IH; intros j Hj; apply Hl; now right).
      constructor; [|constructor; auto].
      - intros [E|E]; [lia|]. apply in_flat_map in E. destruct E as (j & Hj & [E|[E|[]]]); apply K in Hj; intuition congruence.
      - intros E. apply in_flat_map in E. destruct E as (j & Hj & [E|[E|[]]]); apply K in Hj; intuition congruence. }
    apply H; [apply firsts_nodup|]. intros i Hi. apply firsts_in in Hi. tauto.
  Qed.
  Lemma stores_once (x : list sym) i : (i < Q)%nat -> ~ In (Post i) x ->
    count_occ sym_eq_dec (concat ((x ++ rests Q) :: map (fun i => [Post i; Post (opp i)]) (firsts Q))) (Post i) = 1%nat.
  Proof.
    intros Hi Hx. cbn [concat]. rewrite <- app_assoc, count_occ_app, (proj1 (count_occ_not_In sym_eq_dec x (Post i)) Hx). cbn [plus].
    apply NoDup_count_occ'.
    - assert (E : rests Q ++ concat (map (fun i => [Post i; Post (opp i)]) (firsts Q)) =
        map Post (filter (fun i => (i =? opp i)%nat) (seq 0 Q) ++ flat_map (fun i => [i; opp i]) (firsts Q))).
      { unfold rests. rewrite map_app. f_equal. generalize (firsts Q). induction l as [|a l IH]; cbn; auto. now rewrite IH. }
      rewrite E. apply FinFun.Injective_map_NoDup; [intros a b H; congruence|].
      assert (G : forall (l m : list nat), NoDup l -> NoDup m -> (forall a, In a l -> ~ In a m) -> NoDup (l ++ m)).
      { clear. induction 1 as [|a l Ha N IH]; intros M Dj; cbn; auto. constructor.
        - rewrite in_app_iff. intros [H|H]; [tauto|]. apply (Dj a); [now left|auto].
        - apply IH; auto. intros b Hb. apply Dj. now right. }
      apply G; [apply NoDup_filter, seq_NoDup|apply pairs_nodup|].
      intros a Ha Hb. apply filter_In in Ha. destruct Ha as [Ha Ea]. apply in_seq in Ha. apply Nat.eqb_eq in Ea. apply in_flat_map in Hb.
      destruct Hb as (j & Hj & Hb). apply firsts_in in Hj. destruct Hb as [->|[E'|[]]]; [lia|].
      assert (opp a = j) by (rewrite <- E'; apply (opp_opp D S HS); lia). lia.
    - rewrite in_app_iff. unfold rests. destruct (lt_eq_lt_dec i (opp i)) as [[L|E]|L].
      + right. apply in_concat. exists [Post i; Post (opp i)]. split; [|now left]. apply in_map_iff. exists i. split; auto. now apply firsts_in.
      + left. apply in_map. apply filter_In. split; [apply in_seq; lia|]. rewrite <- E. apply Nat.eqb_refl.
      + right. apply in_concat. exists [Post (opp i); Post i]. split; [|right; now left]. apply in_map_iff. exists (opp i).
        rewrite (opp_opp D S HS i Hi). split; auto. apply firsts_in. rewrite (opp_opp D S HS i Hi). pose proof (opp_lt D S HS i Hi). lia.
  Qed.
  Lemma in_rests i : In (Post i) (rests Q) <-> (i < Q)%nat /\ dir i = vzero D.
  Proof.
    unfold rests. rewrite in_map_iff. split.
    - intros (j & [= ->] & Hj). apply filter_In in Hj. destruct Hj as [Hj E]. apply in_seq in Hj. apply Nat.eqb_eq in E.
      split; [lia|]. rewrite <- (dir_length D S HS i) by lia. apply self_opposite. rewrite <- (dir_opp D S HS) by lia. now rewrite <- E.
    - intros [Hi E]. exists i. split; auto. apply filter_In. split; [apply in_seq; lia|]. apply Nat.eqb_eq.
      eapply dir_inj; eauto; [eapply opp_lt; eauto|]. rewrite (dir_opp D S HS) by auto. symmetry. apply self_opposite. now rewrite (dir_length D S HS).
  Qed.
  Lemma pair_count : (2 * length (firsts Q) + length (rests Q) = Q)%nat.
  Proof.
    assert (P : (length (filter (fun i => (i <? opp i)%nat) (seq 0 Q)) = length (filter (fun i => (opp i <? i)%nat) (seq 0 Q)))%nat).
    { rewrite <- (map_length opp (filter (fun i => (i <? opp i)%nat) (seq 0 Q))). apply Permutation.Permutation_length, Permutation.NoDup_Permutation.
      - assert (G : forall l, NoDup l -> (forall i, In i l -> (i < Q)%nat) -> NoDup (map opp l)).
        { induction 1 as [|a l Ha N IH]; intros Hl; cbn; constructor.
          - intros Hin. apply in_map_iff in Hin. destruct Hin as (b & E & Hb). apply (opp_inj D S HS) in E; [subst; tauto|apply Hl; now right|apply Hl; now left].
          - apply IH. intros b Hb. apply Hl. now right. }
        apply G; [apply NoDup_filter, seq_NoDup|]. intros i Hi. apply filter_In in Hi. destruct Hi as [Hi _]. apply in_seq in Hi. lia.
      - apply NoDup_filter, seq_NoDup.
      - intros x. rewrite in_map_iff, filter_In, in_seq, Nat.ltb_lt. split.
        + intros (i & <- & Hi). apply filter_In in Hi. destruct Hi as [Hi Hl]. apply in_seq in Hi. apply Nat.ltb_lt in Hl.
          rewrite (opp_opp D S HS i) by lia. pose proof (opp_lt D S HS i ltac:(lia)). lia.
        + intros [Hx Hl]. exists (opp x). split; [apply (opp_opp D S HS); lia|]. apply filter_In. rewrite in_seq, Nat.ltb_lt, (opp_opp D S HS x) by lia.
          pose proof (opp_lt D S HS x ltac:(lia)). lia. }
    assert (T : forall l, (length (filter (fun i => (i <? opp i)%nat) l) + length (filter (fun i => (opp i <? i)%nat) l) + length (filter (fun i => (i =? opp i)%nat) l) = length l)%nat).
    { induction l as [|a l IH]; cbn [filter]; auto.
      destruct (Nat.ltb_spec a (opp a)), (Nat.ltb_spec (opp a) a), (Nat.eqb_spec a (opp a)); cbn [length]; lia. }
    specialize (T (seq 0 Q)). rewrite seq_length in T. unfold firsts, rests. rewrite map_length. lia.
  Qed.
End P.

Lemma insert_name_in s a l : In s (insert_name a l) <-> s = a \/ In s l.
Proof.
  induction l as [|t l IH]; cbn; [intuition congruence|]. destruct (sub_number a <=? sub_number t)%nat; cbn; [intuition congruence|]. rewrite IH. intuition congruence.
Qed.
Lemma important_in r v s : In s (important r v) <->
  In s v \/ (In s (map lhs (subexprs r)) /\ reaches_pdf (length (subexprs r ++ mains r)) (subexprs r ++ mains r) s = true /\
             forall e i, In e (mains r) -> lhs e = Post (S i) -> In s (atoms e)).
Proof.
  unfold important. cbv zeta. set (f := reaches_pdf _ _).
  assert (A : forall l, In s (fold_right insert_name [] l) <-> In s l).
  { induction l as [|a l IH]; cbn; [tauto|]. rewrite insert_name_in, IH. intuition congruence. }
  rewrite A, nodup_In, in_app_iff.
  assert (B : forall es l, In s (fold_left (fun imp e => if is_non_center (lhs e) then filter (fun s => sym_in s (atoms e)) imp else imp) es l) <->
    In s l /\ forall e i, In e es -> lhs e = Post (S i) -> In s (atoms e)).
  { induction es as [|e es IH]; intros l; cbn [fold_left]; [split; [intros H; split; [auto|intros ? ? []]|tauto]|]. rewrite IH.
    assert (C : In s (if is_non_center (lhs e) then filter (fun s => sym_in s (atoms e)) l else l) <->
      In s l /\ (forall i, lhs e = Post (S i) -> In s (atoms e))).
    { destruct (lhs e) as [|[|i]| |]; cbn [is_non_center]; try (split; [intros H; split; [auto|discriminate]|tauto]).
      rewrite filter_In. unfold sym_in. destruct (in_dec sym_eq_dec s (atoms e)); split; intros [H1 H2]; split; eauto; try discriminate. }
    rewrite C. split.
    - intros [[H1 H2] H3]. split; auto. intros e' i [<-|He']; eauto.
    - intros [H1 H2]. split; [split; auto; intros i; apply H2; now left|]. intros e' i He'. apply H2. now right. }
  rewrite B, filter_In. tauto.
Qed.
