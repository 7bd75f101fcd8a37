From Coq Require Import List ZArith Bool Arith Lia Permutation Sorted.
From Verif Require Import StencilModel StreamSpec SparseModel SparseSpec.
Import ListNotations.
Local Open Scope Z_scope.

(* ---------- order on coordinates ---------- *)
Lemma coord_leb_refl a : coord_leb a a = true.
Proof. induction a; cbn [coord_leb]; auto. rewrite Z.ltb_irrefl. auto. Qed.
Lemma coord_leb_total a : forall b, coord_leb a b = false -> coord_leb b a = true.
Proof.
  induction a as [|x a IH]; intros [|y b] H; cbn [coord_leb] in *; try discriminate; auto.
  destruct (Z.ltb_spec x y); [discriminate|]. destruct (Z.ltb_spec y x); auto.
Qed.
Lemma coord_leb_antisym a : forall b, coord_leb a b = true -> coord_leb b a = true -> a = b.
Proof.
  induction a as [|x a IH]; intros [|y b] H1 H2; cbn [coord_leb] in *; try discriminate; auto.
  destruct (Z.ltb_spec x y), (Z.ltb_spec y x); try discriminate; try lia. f_equal; [lia|auto].
Qed.
Lemma coord_leb_trans a : forall b c, coord_leb a b = true -> coord_leb b c = true -> coord_leb a c = true.
Proof.
  induction a as [|x a IH]; intros [|y b] [|z c] H1 H2; cbn [coord_leb] in *; try discriminate; auto.
  destruct (Z.ltb_spec x y), (Z.ltb_spec y x), (Z.ltb_spec y z), (Z.ltb_spec z y), (Z.ltb_spec x z), (Z.ltb_spec z x);
    try discriminate; try lia; eauto.
Qed.
Lemma coord_eqb_true a b : coord_eqb a b = true <-> a = b.
Proof. unfold coord_eqb. destruct (list_eq_dec Z.eq_dec a b); split; congruence. Qed.
Lemma coord_eqb_false a b : coord_eqb a b = false <-> a <> b.
Proof. unfold coord_eqb. destruct (list_eq_dec Z.eq_dec a b); split; congruence. Qed.
Lemma coord_leb_split a c : coord_leb a c = coord_ltb a c || coord_eqb a c.
Proof.
  unfold coord_ltb. destruct (coord_leb a c) eqn:E, (coord_eqb a c) eqn:F; cbn; auto.
  apply coord_eqb_true in F. subst. now rewrite coord_leb_refl in E.
Qed.

(* ---------- argsort ---------- *)
Definition ple (p q : nat * coord) : Prop := coord_leb (snd p) (snd q) = true.
Lemma insert_sorted_perm p l : Permutation (insert_sorted p l) (p :: l).
Proof.
  induction l as [|q l IH]; cbn; auto. destruct (coord_leb (snd p) (snd q)); auto.
  rewrite IH. constructor.
Qed.
Lemma insert_sorted_sorted p l : StronglySorted ple l -> StronglySorted ple (insert_sorted p l).
Proof.
  induction 1 as [|q l H IH F]; cbn.
  - constructor; auto. constructor.
  - destruct (coord_leb (snd p) (snd q)) eqn:E.
    + constructor; [now constructor|]. constructor; auto. rewrite Forall_forall in *. intros r Hr.
      eapply coord_leb_trans; [exact E|apply F; auto].
    + constructor; auto. rewrite Forall_forall in *. intros r Hr.
      apply (Permutation_in _ (insert_sorted_perm p l)) in Hr. destruct Hr as [<-|Hr]; auto.
      now apply coord_leb_total.
Qed.
Definition sorted_pairs (l : list coord) := fold_right insert_sorted [] (combine (seq 0 (length l)) l).
Lemma sorted_pairs_perm l : Permutation (sorted_pairs l) (combine (seq 0 (length l)) l).
Proof.
  unfold sorted_pairs. induction (combine (seq 0 (length l)) l) as [|p q IH]; cbn; auto.
  rewrite insert_sorted_perm. now constructor.
Qed.
Lemma sorted_pairs_sorted l : StronglySorted ple (sorted_pairs l).
Proof.
  unfold sorted_pairs. induction (combine (seq 0 (length l)) l) as [|p q IH]; cbn; [constructor|].
  now apply insert_sorted_sorted.
Qed.
Lemma map_snd_pairs (l : list coord) : map snd (combine (seq 0 (length l)) l) = l.
Proof.
  assert (G : forall s, map snd (combine (seq s (length l)) l) = l); [|apply G].
  induction l; cbn; intros; f_equal; auto.
Qed.
Lemma in_pairs (l : list coord) i c : In (i, c) (combine (seq 0 (length l)) l) <-> nth_error l i = Some c.
Proof.
  assert (G : forall s, In (i, c) (combine (seq s (length l)) l) <-> (s <= i)%nat /\ nth_error l (i - s) = Some c).
  { induction l as [|a l IH]; intros s; cbn [length seq combine].
    - split; [intros []|]. intros [_ H]. destruct (i - s)%nat; discriminate.
    - cbn [In]. rewrite IH. split.
      + intros [[= -> ->]|[H1 H2]].
        * rewrite Nat.sub_diag. auto.
        * split; [lia|]. replace (i - s)%nat with (Datatypes.S (i - Datatypes.S s)) by lia. auto.
      + intros [H1 H2]. destruct (Nat.eq_dec i s) as [->|N].
        * rewrite Nat.sub_diag in H2. cbn in H2. left. congruence.
        * right. split; [lia|]. replace (i - s)%nat with (Datatypes.S (i - Datatypes.S s)) in H2 by lia. auto. }
  rewrite (G 0%nat), Nat.sub_0_r. split; [tauto|]. split; [lia|auto].
Qed.
Lemma perm_filter_length {A} (f : A -> bool) l l' : Permutation l l' -> length (filter f l) = length (filter f l').
Proof. induction 1; cbn; try destruct (f x); try destruct (f y); cbn; congruence. Qed.
Lemma filter_map_length {A B} (f : B -> bool) (h : A -> B) l : length (filter (fun a => f (h a)) l) = length (filter f (map h l)).
Proof. induction l as [|a l IH]; cbn; auto. destruct (f (h a)); cbn; auto. Qed.
Definition count_coord (l : list coord) (c : coord) : nat := length (filter (fun x => coord_eqb x c) l).
Lemma search_right_count l c : search_right l c = (search_left l c + count_coord l c)%nat.
Proof.
  unfold search_right, search_left, count_coord. induction l as [|a l IH]; cbn [filter]; auto.
  rewrite coord_leb_split. unfold coord_ltb at 1 2. destruct (coord_eqb a c) eqn:E; cbn; rewrite ?andb_false_r, ?andb_true_r, ?orb_false_r, ?orb_true_r; cbn.
  - lia.
  - destruct (coord_leb a c); cbn; lia.
Qed.
Lemma sorted_search (sp : list (nat * coord)) c : StronglySorted ple sp -> (exists i, In (i, c) sp) ->
  exists i, nth_error sp (length (filter (fun p => coord_ltb (snd p) c) sp)) = Some (i, c).
Proof.
  induction 1 as [|q l H IH F]; intros [i Hi]; [destruct Hi|].
  cbn [filter]. destruct (coord_ltb (snd q) c) eqn:E.
  - cbn [length nth_error]. destruct Hi as [->|Hi]; [|eauto].
    unfold coord_ltb in E. cbn in E. rewrite (proj2 (coord_eqb_true c c) eq_refl) in E. now rewrite andb_false_r in E.
  - assert (L : coord_leb c (snd q) = true).
    { unfold coord_ltb in E. apply andb_false_iff in E. destruct E as [E|E]; [now apply coord_leb_total|].
      apply negb_false_iff, coord_eqb_true in E. rewrite <- E. apply coord_leb_refl. }
    rewrite Forall_forall in F.
    assert (Z : forall r, In r l -> coord_ltb (snd r) c = false).
    { intros r Hr. destruct (coord_ltb (snd r) c) eqn:Er; auto. unfold coord_ltb in Er. apply andb_true_iff in Er.
      destruct Er as [E1 E2]. apply negb_true_iff, coord_eqb_false in E2. exfalso. apply E2.
      apply coord_leb_antisym; auto. eapply coord_leb_trans; [exact L|apply F; auto]. }
    assert (Z' : filter (fun p => coord_ltb (snd p) c) l = []).
    { clear - Z. induction l as [|r l IH]; auto. cbn [filter]. rewrite Z by now left. apply IH. intros. apply Z. now right. }
    rewrite Z'. cbn. exists (fst q). f_equal. destruct q as [k d]. cbn in *. f_equal.
    destruct Hi as [[= -> ->]|Hi]; auto. apply coord_leb_antisym; auto. apply (F (i, c) Hi).
Qed.
Lemma count_pos l c : (0 < count_coord l c)%nat <-> In c l.
Proof.
  unfold count_coord. induction l as [|a l IH]; cbn [filter].
  - split; [cbn; lia|intros []].
  - destruct (coord_eqb a c) eqn:E; cbn [length In].
    + apply coord_eqb_true in E. split; auto; lia.
    + apply coord_eqb_false in E. rewrite IH. tauto.
Qed.
Lemma count_one l c : NoDup l -> In c l -> count_coord l c = 1%nat.
Proof.
  induction 1 as [|a l Ha N IH]; intros Hi; [destruct Hi|]. unfold count_coord. cbn [filter].
  destruct (coord_eqb a c) eqn:E.
  - apply coord_eqb_true in E. subst. cbn. f_equal.
    destruct (Nat.eq_0_gt_0_cases (count_coord l c)) as [G|G]; [exact G|]. apply count_pos in G. tauto.
  - destruct Hi as [->|Hi]; [now apply coord_eqb_false in E|]. now apply IH.
Qed.
Lemma count_unique l c i k : count_coord l c = 1%nat -> nth_error l i = Some c -> nth_error l k = Some c -> i = k.
Proof.
  revert i k. induction l as [|a l IH]; intros i k H Hi Hk; [destruct i; discriminate|].
  unfold count_coord in H. cbn [filter] in H. destruct (coord_eqb a c) eqn:E.
  - cbn in H. injection H as H. assert (N : ~ In c l) by (rewrite <- count_pos; unfold count_coord; lia).
    destruct i, k; cbn in Hi, Hk; auto; exfalso; apply N; eapply nth_error_In; eauto.
  - apply coord_eqb_false in E. destruct i, k; cbn in Hi, Hk; try congruence. f_equal. now apply IH.
Qed.
Lemma argsort_search l c : In c l ->
  exists i, nth_error (argsort l) (search_left l c) = Some i /\ nth_error l i = Some c.
Proof.
  intros Hin. destruct (In_nth_error _ _ Hin) as [i0 Hi0].
  destruct (sorted_search (sorted_pairs l) c (sorted_pairs_sorted l)) as [i Hi].
  { exists i0. apply (Permutation_in _ (Permutation_sym (sorted_pairs_perm l))). now apply in_pairs. }
  exists i. split.
  - unfold argsort. fold (sorted_pairs l). rewrite nth_error_map.
    replace (search_left l c) with (length (filter (fun p => coord_ltb (snd p) c) (sorted_pairs l))).
    + rewrite Hi. reflexivity.
    + rewrite (perm_filter_length _ _ _ (sorted_pairs_perm l)).
      rewrite (filter_map_length (fun x => coord_ltb x c) snd), map_snd_pairs. reflexivity.
  - apply in_pairs. apply (Permutation_in _ (sorted_pairs_perm l)). eapply nth_error_In. eauto.
Qed.

(* ---------- cells of an array ---------- *)
Lemma all_cells_in shape c : In c (all_cells shape) <-> in_domain shape c.
Proof.
  revert c. induction shape as [|n shape IH]; intros c; cbn [all_cells].
  - split; [intros [<-|[]]; constructor|]. inversion 1. now left.
  - rewrite in_flat_map. split.
    + intros (x & Hx & Hc). apply in_seq in Hx. apply in_map_iff in Hc. destruct Hc as (c' & <- & Hc').
      constructor; [lia|]. now apply IH.
    + inversion 1; subst. exists (Z.to_nat x). split; [apply in_seq; lia|]. apply in_map_iff. exists l. split.
      * f_equal. lia.
      * now apply IH.
Qed.
Lemma NoDup_app_intro {A} (l m : list A) : NoDup l -> NoDup m -> (forall a, In a l -> ~ In a m) -> NoDup (l ++ m).
Proof.
  induction 1 as [|a l Ha N IH]; intros M D; cbn; auto. constructor.
  - rewrite in_app_iff. intros [H|H]; [tauto|]. apply (D a); [now left|auto].
  - apply IH; auto. intros b Hb. apply D. now right.
Qed.
Lemma all_cells_nodup shape : NoDup (all_cells shape).
Proof.
  induction shape as [|n shape IH]; cbn [all_cells]; [repeat constructor; intros []|].
  generalize (seq_NoDup n 0). induction (seq 0 n) as [|x xs IHx]; intros N; cbn; [constructor|].
  inversion N; subst. apply NoDup_app_intro; auto.
  - apply FinFun.Injective_map_NoDup; auto. intros a b [= H]. auto.
  - intros c Hc Hc'. apply in_map_iff in Hc. destruct Hc as (c1 & <- & _). apply in_flat_map in Hc'.
    destruct Hc' as (x' & Hx' & Hc'). apply in_map_iff in Hc'. destruct Hc' as (c2 & [= E _] & _).
    apply Nat2Z.inj in E. subst. tauto.
Qed.
Lemma in_array_iff shape c : in_array shape c = true <-> in_domain shape c.
Proof.
  unfold in_array, in_domain. rewrite andb_true_iff, Nat.eqb_eq. revert c.
  induction shape as [|n shape IH]; intros [|x c]; cbn; split; try (intros [H1 H2]; discriminate).
  - constructor.
  - auto.
  - inversion 1.
  - inversion 1.
  - intros [H1 H2]. apply andb_true_iff in H2. destruct H2 as [H2 H3]. constructor; [lia|]. apply IH. split; auto; lia.
  - inversion 1; subst. apply IH in H5. destruct H5 as [H5 H6]. split; [lia|]. rewrite H6, andb_true_r. lia.
Qed.
