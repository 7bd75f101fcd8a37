From Coq Require Import String List ZArith Bool Arith Lia Permutation Sorted.
From Coq Require Import Reals Lra.
From Verif Require Import StencilModel StencilProofs RealLib EqSpec EqProofs MomModel.
Import ListNotations.
Local Open Scope nat_scope.

Lemma tuple_eqb_eq a b : tuple_eqb a b = true <-> a = b.
Proof. unfold tuple_eqb. destruct (list_eq_dec Nat.eq_dec a b); split; intros; try assumption; try reflexivity; try discriminate; contradiction. Qed.
Lemma tuple_in_In a l : tuple_in a l = true <-> In a l.
Proof.
  unfold tuple_in. rewrite existsb_exists. split.
  - intros (x & H1 & H2). apply tuple_eqb_eq in H2. subst. exact H1.
  - intros H. exists a. split; [exact H|]. apply tuple_eqb_eq. reflexivity.
Qed.
Lemma nat_in_In a l : nat_in a l = true <-> In a l.
Proof.
  unfold nat_in. rewrite existsb_exists. split.
  - intros (x & H1 & H2). apply Nat.eqb_eq in H2. subst. exact H1.
  - intros H. exists a. split; [exact H|]. apply Nat.eqb_eq. reflexivity.
Qed.

(* ---- sets ---- *)
Lemma insert_set_In a x l : In x (insert_set a l) <-> x = a \/ In x l.
Proof.
  induction l as [|b l IH]; cbn [insert_set]; [cbn; intuition|].
  destruct (Nat.ltb_spec a b); [cbn; intuition|]. destruct (Nat.eqb_spec a b) as [->|]; [cbn; intuition|].
  cbn [In]. rewrite IH. intuition.
Qed.
Lemma set_of_In x l : In x (set_of l) <-> In x l.
Proof. induction l as [|a l IH]; [reflexivity|]. cbn [set_of fold_right]. fold (set_of l). rewrite insert_set_In, IH. cbn. intuition. Qed.
Lemma insert_set_sorted a l : StronglySorted lt l -> StronglySorted lt (insert_set a l).
Proof.
  induction l as [|b l IH]; intros H; cbn [insert_set]; [repeat constructor|]. inversion H as [|? ? H1 H2]; subst.
  destruct (Nat.ltb_spec a b).
  - constructor; [exact H|]. constructor; [assumption|]. eapply Forall_impl; [|exact H2]. intros; lia.
  - destruct (Nat.eqb_spec a b) as [->|]; [exact H|]. constructor; [apply IH; exact H1|].
    apply Forall_forall. intros x Hx. apply insert_set_In in Hx as [->|Hx]; [lia|]. rewrite Forall_forall in H2. apply H2, Hx.
Qed.
Lemma set_of_sorted l : StronglySorted lt (set_of l).
Proof. induction l as [|a l IH]; [constructor|]. apply insert_set_sorted. exact IH. Qed.
Lemma sorted_lt_NoDup l : StronglySorted lt l -> NoDup l.
Proof.
  induction 1 as [|a l H IH HF]; constructor; [|exact IH]. intros Hin. rewrite Forall_forall in HF. specialize (HF a Hin). lia.
Qed.
Lemma set_of_NoDup l : NoDup (set_of l).
Proof. apply sorted_lt_NoDup, set_of_sorted. Qed.

Lemma remove_first_perm a l : In a l -> Permutation l (a :: remove_first a l).
Proof.
  induction l as [|b l IH]; intros H; [contradiction|]. cbn [remove_first]. destruct (Nat.eqb_spec a b) as [->|E]; [reflexivity|].
  destruct H as [->|H]; [contradiction|]. rewrite (IH H) at 1. apply perm_swap.
Qed.
Lemma remove_first_length a l : In a l -> length l = S (length (remove_first a l)).
Proof. intros H. rewrite (Permutation_length (remove_first_perm a l H)). reflexivity. Qed.

Lemma up_step n a b e : unique_permutations_n (S n) (a :: b :: e) =
  flat_map (fun first => map (cons first) (unique_permutations_n n (remove_first first (a :: b :: e)))) (set_of (a :: b :: e)).
Proof. reflexivity. Qed.

Lemma perms_spec n : forall e, length e = n -> n <> 0 ->
  (forall p, In p (unique_permutations_n n e) <-> Permutation p e) /\ NoDup (unique_permutations_n n e).
Proof.
  induction n as [|n IH]; intros e He Hn; [contradiction|].
  destruct e as [|a [|b e]]; [discriminate| |].
  - cbn. split; [|repeat constructor; intros []]. intros p. split.
    + intros [<-|[]]. reflexivity.
    + intros H. left. symmetry. apply Permutation_length_1_inv. symmetry. exact H.
  - rewrite up_step. set (l := a :: b :: e) in *.
    assert (Hl : forall x, In x (set_of l) -> length (remove_first x l) = n).
    { intros x Hx. apply (proj1 (set_of_In _ _)) in Hx. pose proof (remove_first_length x l Hx). lia. }
    assert (Hn' : n <> 0) by (unfold l in He; cbn in He; lia).
    split.
    + intros p. rewrite in_flat_map. split.
      * intros (x & Hx & Hp). apply in_map_iff in Hp as (q & <- & Hq). apply (proj1 (IH _ (Hl x Hx) Hn')) in Hq.
        apply (proj1 (set_of_In _ _)) in Hx. rewrite (remove_first_perm x l Hx), Hq. reflexivity.
      * intros Hp. destruct p as [|x q]; [apply Permutation_nil in Hp; discriminate|].
        assert (Hx : In x l) by (apply (Permutation_in _ Hp); left; reflexivity).
        exists x. split; [apply set_of_In, Hx|]. apply in_map. apply (proj1 (IH _ (Hl x (proj2 (set_of_In _ _) Hx)) Hn')).
        apply (Permutation_cons_inv (a := x)). rewrite Hp. apply remove_first_perm, Hx.
    + pose proof (set_of_NoDup l) as ND. revert Hl ND. generalize (set_of l). intros s Hl ND.
      induction s as [|x s IHs]; [constructor|]. cbn [flat_map].
      apply NoDup_cons_iff in ND as [Hx ND].
      assert (D : forall (l1 l2 : list (list nat)), NoDup l1 -> NoDup l2 -> (forall y, In y l1 -> ~ In y l2) -> NoDup (l1 ++ l2)).
      { clear. induction l1 as [|y l1 IHl]; intros l2 H1 H2 H; [exact H2|]. cbn. apply NoDup_cons_iff in H1 as [H1 H1']. constructor.
        - intros Hin. apply in_app_or in Hin as [Hin|Hin]; [contradiction|]. apply (H y); [left; reflexivity|exact Hin].
        - apply IHl; [exact H1'|exact H2|]. intros z Hz. apply H. right; exact Hz. }
      apply D.
      * assert (Hm : forall (q : list (list nat)), NoDup q -> NoDup (map (cons x) q)).
        { clear. induction q as [|y q IHq]; intros H; [constructor|]. apply NoDup_cons_iff in H as [H H']. cbn. constructor; [|apply IHq, H'].
          intros Hin. apply in_map_iff in Hin as (z & Hz & Hin). injection Hz as ->. contradiction. }
        apply Hm. apply (proj2 (IH _ (Hl x (or_introl eq_refl)) Hn')).
      * apply IHs; [intros y Hy; apply Hl; right; exact Hy|exact ND].
      * intros y Hy Hin. apply in_map_iff in Hy as (q & <- & _). apply in_flat_map in Hin as (x' & Hx' & Hin).
        apply in_map_iff in Hin as (q' & Hq' & _). injection Hq' as -> _. contradiction.
Qed.
Lemma moment_permutations_spec e : e <> [] -> (forall p, In p (moment_permutations e) <-> Permutation p e) /\ NoDup (moment_permutations e).
Proof. intros H. apply perms_spec; [reflexivity|]. destruct e; [contradiction|discriminate]. Qed.

(* ---- multiplicity ---- *)
Definition nprod (l : list nat) : nat := fold_right Nat.mul 1 l.
Definition factprod (e keys : list nat) : nat := nprod (map (fun a => fact (count_occ Nat.eq_dec e a)) keys).
Lemma nprod_perm l l' : Permutation l l' -> nprod l = nprod l'.
Proof. induction 1 as [|x l l' _ IH|x y l|l l' l'' _ IH1 _ IH2]; unfold nprod in *; cbn [fold_right]; [reflexivity|rewrite IH; reflexivity|ring|congruence]. Qed.
Lemma factprod_remove e x keys : NoDup keys -> In x keys -> In x e ->
  factprod e keys = count_occ Nat.eq_dec e x * factprod (remove_first x e) keys.
Proof.
  intros ND Hk He.
  assert (Hc : forall y, count_occ Nat.eq_dec e y = (if Nat.eq_dec x y then 1 else 0) + count_occ Nat.eq_dec (remove_first x e) y).
  { intros y. rewrite (proj1 (Permutation_count_occ Nat.eq_dec _ _) (remove_first_perm x e He) y). cbn. destruct (Nat.eq_dec x y); reflexivity. }
  unfold factprod. induction keys as [|k keys IH]; [contradiction|]. cbn [map nprod fold_right]. fold (nprod (map (fun a => fact (count_occ Nat.eq_dec e a)) keys)).
  fold (nprod (map (fun a => fact (count_occ Nat.eq_dec (remove_first x e) a)) keys)).
  apply NoDup_cons_iff in ND as [NDk ND]. destruct (Nat.eq_dec k x) as [->|Hne].
  - assert (Heq : map (fun a => fact (count_occ Nat.eq_dec e a)) keys = map (fun a => fact (count_occ Nat.eq_dec (remove_first x e) a)) keys).
    { apply map_ext_in. intros a Ha. rewrite (Hc a). destruct (Nat.eq_dec x a) as [->|]; [contradiction|reflexivity]. }
    rewrite Heq. specialize (Hc x). destruct (Nat.eq_dec x x); [|contradiction]. rewrite Hc. cbn [fact Nat.add]. lia.
  - rewrite (IH ND) by (destruct Hk; [contradiction|assumption]). specialize (Hc k). destruct (Nat.eq_dec x k); [congruence|]. cbn [Nat.add] in Hc. rewrite Hc. lia.
Qed.
(* keys not occurring contribute 0! = 1 *)
Lemma factprod_superset e keys keys' : NoDup keys -> NoDup keys' -> (forall a, In a e -> In a keys) -> (forall a, In a e -> In a keys') ->
  factprod e keys = factprod e keys'.
Proof.
  intros N1 N2 H1 H2.
  assert (G : forall k, NoDup k -> factprod e k = factprod e (filter (fun a => nat_in a e) k)).
  { intros k _. unfold factprod. induction k as [|a k IH]; [reflexivity|]. cbn [map filter]. destruct (nat_in a e) eqn:E; cbn [map nprod fold_right].
    - unfold nprod in IH. rewrite IH. reflexivity.
    - unfold nprod in IH. rewrite IH. assert (count_occ Nat.eq_dec e a = 0) as ->.
      { apply count_occ_not_In. intros Hin. apply nat_in_In in Hin. congruence. }
      cbn. unfold nprod. lia. }
  rewrite (G keys N1), (G keys' N2). unfold factprod. apply nprod_perm, Permutation_map. apply NoDup_Permutation; [apply NoDup_filter, N1|apply NoDup_filter, N2|].
  intros x. rewrite !filter_In. split; intros [_ Hx]; split; try exact Hx; apply nat_in_In in Hx; auto.
Qed.
Lemma sum_counts e keys : NoDup keys -> (forall a, In a e -> In a keys) -> nsum (map (count_occ Nat.eq_dec e) keys) = length e.
Proof.
  intros ND. induction e as [|a e IH]; intros H.
  - cbn [length]. clear. induction keys as [|k l IHl]; [reflexivity|]. exact IHl.
  - assert (Hk : In a keys) by (apply H; left; reflexivity). specialize (IH (fun b Hb => H b (or_intror Hb))). cbn [length]. rewrite <- IH.
    clear IH H. induction keys as [|k keys IHk]; [contradiction|]. apply NoDup_cons_iff in ND as [N1 N2].
    cbn [map nsum fold_right]. fold (nsum (map (count_occ Nat.eq_dec (a :: e)) keys)). fold (nsum (map (count_occ Nat.eq_dec e) keys)).
    destruct (Nat.eq_dec a k) as [->|E].
    + rewrite count_occ_cons_eq by reflexivity. assert (map (count_occ Nat.eq_dec (k :: e)) keys = map (count_occ Nat.eq_dec e) keys) as ->; [|lia].
      apply map_ext_in. intros b Hb. apply count_occ_cons_neq. intros ->. contradiction.
    + rewrite count_occ_cons_neq by exact E. rewrite IHk; [lia|exact N2|]. destruct Hk as [->|]; [contradiction|assumption].
Qed.

Lemma perms_count n : forall e keys, length e = n -> n <> 0 -> NoDup keys -> (forall a, In a e -> In a keys) ->
  length (unique_permutations_n n e) * factprod e keys = fact n.
Proof.
  induction n as [|n IH]; intros e keys He Hn ND Hk; [contradiction|].
  destruct e as [|a [|b e]]; [discriminate| |].
  - cbn in He. injection He as <-. cbn [unique_permutations_n length]. rewrite (factprod_superset [a] keys [a]); [cbn; destruct (Nat.eq_dec a a); [reflexivity|contradiction]|exact ND|repeat constructor; intros []|exact Hk|auto].
  - rewrite up_step. set (l := a :: b :: e) in *.
    assert (Hn' : n <> 0) by (unfold l in He; cbn in He; lia).
    rewrite (factprod_superset l keys (set_of l)) by (try assumption; try apply set_of_NoDup; intros x Hx; apply set_of_In; exact Hx).
    assert (G : forall s, (forall x, In x s -> In x l) ->
       length (flat_map (fun first => map (cons first) (unique_permutations_n n (remove_first first l))) s) * factprod l (set_of l)
       = nsum (map (count_occ Nat.eq_dec l) s) * fact n).
    { induction s as [|x s IHs]; intros Hs; [reflexivity|]. cbn [flat_map]. rewrite app_length, map_length, Nat.mul_add_distr_r, IHs by (intros y Hy; apply Hs; right; exact Hy).
      cbn [map nsum fold_right]. fold (nsum (map (count_occ Nat.eq_dec l) s)). rewrite Nat.mul_add_distr_r. f_equal.
      assert (Hx : In x l) by (apply Hs; left; reflexivity).
      rewrite (factprod_remove l x (set_of l) (set_of_NoDup l) (proj2 (set_of_In x l) Hx) Hx).
      pose proof (remove_first_length x l Hx) as HL.
      assert (Hsub : forall a0, In a0 (remove_first x l) -> In a0 (set_of l)).
      { intros y Hy. apply set_of_In. rewrite (remove_first_perm x l Hx). right; exact Hy. }
      specialize (IH (remove_first x l) (set_of l) ltac:(lia) Hn' (set_of_NoDup l) Hsub). rewrite <- IH. lia. }
    rewrite G by (intros x Hx; apply set_of_In; exact Hx). rewrite sum_counts by (try apply set_of_NoDup; intros x Hx; apply set_of_In; exact Hx).
    rewrite He. cbn [fact]. lia.
Qed.
Lemma div_chain l n : fold_left (fun r d => r / fact d) l n = n / nprod (map fact l).
Proof.
  revert n; induction l as [|d l IH]; intros n; cbn [fold_left map nprod fold_right]; [rewrite Nat.div_1_r; reflexivity|].
  rewrite IH. fold (nprod (map fact l)). apply Nat.div_div; [apply fact_neq_0|].
  clear. induction l as [|a l IH]; [discriminate|]. cbn [map nprod fold_right]. fold (nprod (map fact l)). pose proof (fact_neq_0 a). apply Nat.neq_mul_0. split; assumption.
Qed.
Lemma multiplicity_spec e : e <> [] -> moment_multiplicity e = length (moment_permutations e).
Proof.
  intros H. unfold moment_multiplicity. rewrite div_chain. unfold counter_values. rewrite map_map.
  change (fact (length e) / factprod e (nodup Nat.eq_dec e) = length (moment_permutations e)).
  pose proof (perms_count (length e) e (nodup Nat.eq_dec e) eq_refl) as P.
  rewrite <- P; [|destruct e; [contradiction|discriminate]|apply NoDup_nodup|intros a Ha; apply nodup_In; exact Ha].
  apply Nat.div_mul. assert (F : fact (length e) <> 0) by apply fact_neq_0. intros Z. rewrite Z, Nat.mul_0_r in P.
  rewrite <- P in F; [contradiction|destruct e; [contradiction|discriminate]|apply NoDup_nodup|intros a Ha; apply nodup_In; exact Ha].
Qed.

(* ---- unique ---- *)
Lemma unique_from_spec l : forall seen, NoDup (unique_from seen l) /\ forall x, In x (unique_from seen l) <-> In x l /\ ~ In x seen.
Proof.
  induction l as [|a l IH]; intros seen; cbn [unique_from]; [split; [constructor|intros x; cbn; tauto]|].
  destruct (tuple_in a seen) eqn:E.
  - apply tuple_in_In in E. destruct (IH seen) as [H1 H2]. split; [exact H1|]. intros x. rewrite H2. cbn [In]. split; [tauto|]. intros [[->|]]; [contradiction|tauto].
  - assert (Ha : ~ In a seen) by (intros H; apply tuple_in_In in H; congruence). destruct (IH (a :: seen)) as [H1 H2]. split.
    + constructor; [|exact H1]. rewrite H2. cbn. tauto.
    + intros x. cbn [In]. rewrite H2. cbn [In]. split.
      * intros [->|[Hx Hs]]; [tauto|]. split; tauto.
      * intros [[->|Hx] Hs]; [tauto|]. destruct (list_eq_dec Nat.eq_dec a x) as [->|]; [tauto|]. right. tauto.
Qed.
Lemma unique_spec l : NoDup (unique l) /\ forall x, In x (unique l) <-> In x l.
Proof. destruct (unique_from_spec l []) as [H1 H2]. split; [exact H1|]. intros x. unfold unique. rewrite H2. cbn. tauto. Qed.

Lemma extend_spec l : (forall e, In e l -> e <> []) ->
  NoDup (extend_moments_with_permutations l) /\ forall p, In p (extend_moments_with_permutations l) <-> exists e, In e l /\ Permutation p e.
Proof.
  intros Hne. unfold extend_moments_with_permutations. destruct (unique_spec (flat_map moment_permutations l)) as [H1 H2]. split; [exact H1|].
  intros p. rewrite H2, in_flat_map. split; intros (e & He & Hp); exists e; (split; [exact He|]); apply (moment_permutations_spec e (Hne e He)); exact Hp.
Qed.

(* first permutation = ascending order *)
Lemma remove_first_NoDup_In a x l : In x (remove_first a l) -> In x l.
Proof. induction l as [|b l IH]; cbn; [tauto|]. destruct (Nat.eqb_spec a b); cbn; tauto. Qed.

Lemma sorted_unique l l' : StronglySorted lt l -> StronglySorted lt l' -> (forall x, In x l <-> In x l') -> l = l'.
Proof.
  revert l'; induction l as [|a l IH]; intros [|b l'] H1 H2 H.
  - reflexivity.
  - exfalso. apply (proj2 (H b)). left; reflexivity.
  - exfalso. apply (proj1 (H a)). left; reflexivity.
  - inversion H1 as [|? ? S1 F1]; subst. inversion H2 as [|? ? S2 F2]; subst. rewrite Forall_forall in F1, F2.
    assert (a = b).
    { destruct (proj1 (H a) (or_introl eq_refl)) as [->|Ha]; [reflexivity|]. destruct (proj2 (H b) (or_introl eq_refl)) as [->|Hb]; [reflexivity|].
      specialize (F1 b Hb). specialize (F2 a Ha). lia. }
    subst b. f_equal. apply IH; [exact S1|exact S2|]. intros x. split; intros Hx.
    + destruct (proj1 (H x) (or_intror Hx)) as [->|]; [specialize (F1 x Hx); lia|assumption].
    + destruct (proj2 (H x) (or_intror Hx)) as [->|]; [specialize (F2 x Hx); lia|assumption].
Qed.
Lemma set_of_perm l l' : Permutation l l' -> set_of l = set_of l'.
Proof.
  intros H. apply sorted_unique; try apply set_of_sorted. intros x. rewrite !set_of_In. split; apply Permutation_in; [exact H|symmetry; exact H].
Qed.
Lemma flat_map_ext_in' {A B} (f g : A -> list B) l : (forall x, In x l -> f x = g x) -> flat_map f l = flat_map g l.
Proof. intros H. rewrite !flat_map_concat_map. f_equal. apply map_ext_in. exact H. Qed.
Lemma perms_class n : forall e e', length e = n -> Permutation e e' -> unique_permutations_n n e = unique_permutations_n n e'.
Proof.
  induction n as [|n IH]; intros e e' He Hp; [reflexivity|]. pose proof (Permutation_length Hp) as HL.
  destruct e as [|a [|b e]]; [discriminate| |].
  - apply Permutation_length_1_inv in Hp. subst e'. reflexivity.
  - destruct e' as [|a' [|b' e']]; [discriminate|discriminate|]. rewrite !up_step. rewrite (set_of_perm _ _ Hp).
    apply flat_map_ext_in'. intros x Hx. apply (proj1 (set_of_In _ _)) in Hx. f_equal.
    assert (Hx' : In x (a :: b :: e)) by (apply (Permutation_in _ (Permutation_sym Hp)), Hx). apply IH.
    + pose proof (remove_first_length x _ Hx'). lia.
    + apply (Permutation_cons_inv (a := x)). rewrite <- (remove_first_perm x _ Hx'), <- (remove_first_perm x _ Hx). exact Hp.
Qed.
Lemma moment_permutations_class e e' : Permutation e e' -> moment_permutations e = moment_permutations e'.
Proof. intros H. unfold moment_permutations. rewrite <- (Permutation_length H). apply perms_class; [reflexivity|exact H]. Qed.

Lemma pick_In l m : (forall e, In e l -> e <> []) ->
  In m (pick_representative_moments l) <-> In m l /\ exists r, moment_permutations m = m :: r.
Proof.
  intros Hne. unfold pick_representative_moments. destruct (unique_spec l) as [U1 U2]. rewrite filter_In, U2, negb_true_iff.
  assert (Hk : In m l -> tuple_in m (flat_map (fun m0 => tl (moment_permutations m0)) l) = true <-> In m (tl (moment_permutations m))).
  { intros Hm. rewrite tuple_in_In, in_flat_map. split.
    - intros (e & He & Hin). destruct (moment_permutations_spec e (Hne e He)) as [P _].
      assert (Permutation m e). { apply P. destruct (moment_permutations e); [contradiction|right; exact Hin]. }
      rewrite (moment_permutations_class m e) by assumption. exact Hin.
    - intros Hin. exists m. split; assumption. }
  split.
  - intros [Hm Hf]. split; [exact Hm|]. destruct (moment_permutations_spec m (Hne m Hm)) as [P _].
    assert (Hin : In m (moment_permutations m)) by (apply P; reflexivity).
    destruct (moment_permutations m) as [|x r] eqn:E; [contradiction|]. destruct Hin as [->|Hin]; [exists r; reflexivity|].
    exfalso. pose proof (proj2 (Hk Hm)) as Hk2. cbn [tl] in Hk2. rewrite (Hk2 Hin) in Hf. discriminate.
  - intros [Hm (r & Hr)]. split; [exact Hm|]. apply not_true_iff_false. intros E.
    apply (proj1 (Hk Hm)) in E. rewrite Hr in E. cbn [tl] in E. pose proof (proj2 (moment_permutations_spec m (Hne m Hm))) as ND. rewrite Hr in ND.
    apply NoDup_cons_iff in ND as [ND _]. contradiction.
Qed.
Lemma pick_spec l : (forall e, In e l -> e <> []) -> (forall e p, In e l -> Permutation p e -> In p l) ->
  NoDup (pick_representative_moments l) /\
  (forall m, In m (pick_representative_moments l) -> In m l) /\
  (forall e, In e l -> exists m, In m (pick_representative_moments l) /\ Permutation m e /\
      forall m', In m' (pick_representative_moments l) -> Permutation m' e -> m' = m).
Proof.
  intros Hne Hcl. split; [unfold pick_representative_moments; apply NoDup_filter, unique_spec|].
  split; [intros m Hm; apply (pick_In l m Hne) in Hm; tauto|].
  intros e He. destruct (moment_permutations_spec e (Hne e He)) as [P _].
  destruct (moment_permutations e) as [|m r] eqn:E. { exfalso. apply (proj2 (P e)). reflexivity. }
  assert (Hm : Permutation m e) by (apply P; left; reflexivity). exists m. split; [|split; [exact Hm|]].
  - apply (pick_In l m Hne). split; [apply (Hcl e m He Hm)|]. exists r. rewrite (moment_permutations_class m e Hm). exact E.
  - intros m' Hm' Hp. apply (pick_In l m' Hne) in Hm' as [_ (r' & Hr')]. rewrite (moment_permutations_class m' e Hp), E in Hr'. injection Hr' as ->. reflexivity.
Qed.

(* ---- fixed sum tuples ---- *)
Lemma helper_spec allowed k : forall total t, 0 < k ->
  In t (fixed_sum_helper allowed k total) <-> length t = k /\ nsum t = total /\ Forall (fun x => In x allowed) t.
Proof.
  induction k as [|k IH]; intros total t Hk; [lia|]. destruct k as [|k].
  - cbn [fixed_sum_helper]. destruct (nat_in total allowed) eqn:E.
    + apply nat_in_In in E. cbn [In]. split.
      * intros [<-|[]]. cbn. split; [reflexivity|]. split; [lia|]. repeat constructor. exact E.
      * intros (H1 & H2 & H3). destruct t as [|x [|? ?]]; try discriminate. cbn in H2. left. f_equal. lia.
    + split; [intros []|]. intros (H1 & H2 & H3). destruct t as [|x [|? ?]]; try discriminate. cbn in H2. inversion H3; subst.
      rewrite Nat.add_0_r in E. apply (proj2 (nat_in_In x allowed)) in H2 || (exfalso; apply (proj2 (nat_in_In x allowed)) in H4; congruence).
  - change (fixed_sum_helper allowed (S (S k)) total) with
      (flat_map (fun i => if i <=? total then map (cons i) (fixed_sum_helper allowed (S k) (total - i)) else []) allowed).
    rewrite in_flat_map. split.
    + intros (i & Hi & Hin). destruct (Nat.leb_spec i total); [|contradiction]. apply in_map_iff in Hin as (q & <- & Hq).
      apply IH in Hq as (H1 & H2 & H3); [|lia]. cbn [length nsum fold_right]. fold (nsum q). split; [lia|]. split; [lia|]. constructor; assumption.
    + intros (H1 & H2 & H3). destruct t as [|x q]; [discriminate|]. inversion H3; subst. exists x. split; [assumption|].
      cbn [nsum fold_right]. fold (nsum q). destruct (Nat.leb_spec x (x + nsum q)); [|lia]. apply in_map. apply IH; [lia|].
      cbn in H1. split; [lia|]. split; [lia|assumption].
Qed.
Lemma NoDup_app_disj {A} (l1 l2 : list A) : NoDup l1 -> NoDup l2 -> (forall y, In y l1 -> ~ In y l2) -> NoDup (l1 ++ l2).
Proof.
  revert l2; induction l1 as [|y l1 IHl]; intros l2 H1 H2 H; [exact H2|]. cbn. apply NoDup_cons_iff in H1 as [H1 H1']. constructor.
  - intros Hin. apply in_app_or in Hin as [Hin|Hin]; [contradiction|]. apply (H y); [left; reflexivity|exact Hin].
  - apply IHl; [exact H1'|exact H2|]. intros z Hz. apply H. right; exact Hz.
Qed.
Lemma NoDup_map_cons {A} (x : A) q : NoDup q -> NoDup (map (cons x) q).
Proof.
  induction q as [|y q IHq]; intros H; [constructor|]. apply NoDup_cons_iff in H as [H H']. cbn. constructor; [|apply IHq, H'].
  intros Hin. apply in_map_iff in Hin as (z & Hz & Hin). injection Hz as ->. contradiction.
Qed.
Lemma NoDup_flat_cons {A} (F : A -> list (list A)) (s : list A) (HF : forall x, NoDup (F x)) : NoDup s ->
  NoDup (flat_map (fun i => map (cons i) (F i)) s).
Proof.
  induction s as [|x s IH]; intros ND; [constructor|]. apply NoDup_cons_iff in ND as [Hx ND]. cbn [flat_map]. apply NoDup_app_disj; [apply NoDup_map_cons, HF|apply IH, ND|].
  intros y Hy Hin. apply in_map_iff in Hy as (q & <- & _). apply in_flat_map in Hin as (x' & Hx' & Hin).
  apply in_map_iff in Hin as (q' & Hq' & _). injection Hq' as -> _. contradiction.
Qed.
Lemma helper_NoDup allowed k : NoDup allowed -> forall total, NoDup (fixed_sum_helper allowed k total).
Proof.
  intros ND. induction k as [|k IH]; intros total; [constructor|]. destruct k as [|k].
  - cbn. destruct (nat_in total allowed); repeat constructor. intros [].
  - change (fixed_sum_helper allowed (S (S k)) total) with
      (flat_map (fun i => if i <=? total then map (cons i) (fixed_sum_helper allowed (S k) (total - i)) else []) allowed).
    rewrite (flat_map_ext _ (fun i => map (cons i) (if i <=? total then fixed_sum_helper allowed (S k) (total - i) else []))).
    + apply NoDup_flat_cons; [|exact ND]. intros x. destruct (x <=? total); [apply IH|constructor].
    + intros i. destruct (i <=? total); reflexivity.
Qed.
Lemma nsum_ge x l : In x l -> x <= nsum l.
Proof. induction l as [|a l IH]; intros []; cbn [nsum fold_right]; fold (nsum l); [subst; lia|]. specialize (IH H). lia. Qed.

Lemma is_descending_sorted l : is_descending l = true <-> StronglySorted (fun a b => b <= a) l.
Proof.
  induction l as [|a l IH]; [split; [constructor|reflexivity]|]. split.
  - intros H. destruct l as [|b l]; [repeat constructor|]. cbn [is_descending] in H. apply andb_true_iff in H as [H1 H2]. apply Nat.leb_le in H1.
    apply IH in H2. constructor; [exact H2|]. inversion H2; subst. constructor; [exact H1|]. eapply Forall_impl; [|eassumption]. cbn; intros; lia.
  - intros H. inversion H as [|? ? H1 H2]; subst. apply IH in H1. destruct l as [|b l]; [reflexivity|]. cbn [is_descending] in *. rewrite H1, andb_true_r.
    inversion H2; subst. apply Nat.leb_le. assumption.
Qed.

Lemma of_order_spec order dim incl : 0 < dim -> exists l, moments_of_order order dim incl = Ok l /\ NoDup l /\
  forall t, In t l <-> length t = dim /\ nsum t = order /\ (incl = false -> StronglySorted (fun a b => b <= a) t).
Proof.
  intros Hd. unfold moments_of_order, fixed_sum_tuples.
  assert (H0 : nat_in 0 (seq 0 (order + 1)) = true) by (apply nat_in_In, in_seq; lia). rewrite H0. cbn [negb].
  destruct dim as [|d]; [lia|]. cbn [rbind].
  set (l := filter _ _).
  assert (Hl : forall t, In t l <-> length t = S d /\ nsum t = order /\ (incl = false -> StronglySorted (fun a b => b <= a) t)).
  { intros t. unfold l. rewrite filter_In, helper_spec by lia. split.
    - intros [(H1 & H2 & _) H3]. split; [exact H1|]. split; [exact H2|]. intros ->. cbn [negb implb] in H3. apply is_descending_sorted, H3.
    - intros (H1 & H2 & H3). split.
      + split; [exact H1|]. split; [exact H2|]. apply Forall_forall. intros x Hx. apply in_seq. pose proof (nsum_ge x t Hx). lia.
      + destruct incl; [reflexivity|]. cbn [negb implb]. apply is_descending_sorted, H3. reflexivity. }
  assert (Hf : forallb (fun t => (length t =? S d) && (nsum t =? order)) l = true).
  { apply forallb_forall. intros t Ht. apply Hl in Ht as (H1 & H2 & _). rewrite H1, H2, !Nat.eqb_refl. reflexivity. }
  rewrite Hf. exists l. split; [reflexivity|]. split; [|exact Hl]. unfold l. apply NoDup_filter, helper_NoDup, seq_NoDup.
Qed.
Lemma up_to_spec order dim incl : 0 < dim -> exists l, moments_up_to_order order dim incl = Ok l /\ NoDup l /\
  (forall t, In t l <-> length t = dim /\ nsum t <= order /\ (incl = false -> StronglySorted (fun a b => b <= a) t)) /\
  StronglySorted (fun a b => nsum a <= nsum b) l.
Proof.
  intros Hd. unfold moments_up_to_order.
  assert (G : forall n s, exists ls, mapM (fun o => moments_of_order o dim incl) (seq s n) = Ok ls /\ NoDup (concat ls) /\
     (forall t, In t (concat ls) <-> length t = dim /\ s <= nsum t < s + n /\ (incl = false -> StronglySorted (fun a b => b <= a) t)) /\
     StronglySorted (fun a b => nsum a <= nsum b) (concat ls)).
  { induction n as [|n IH]; intros s.
    - exists []. cbn. split; [reflexivity|]. split; [constructor|]. split; [|constructor]. intros t. split; [intros []|lia].
    - destruct (of_order_spec s dim incl Hd) as (l & E & ND & Hl). destruct (IH (S s)) as (ls & E' & ND' & Hls & HS').
      exists (l :: ls). cbn [seq mapM]. rewrite E. cbn [rbind]. rewrite E'. cbn [rbind concat]. split; [reflexivity|].
      split. { apply NoDup_app_disj; [exact ND|exact ND'|]. intros y Hy Hy'. apply Hl in Hy as (_ & Hy & _). apply Hls in Hy' as (_ & Hy' & _). lia. }
      split.
      + intros t. rewrite in_app_iff, Hl, Hls. split; [intros [(H1 & H2 & H3)|(H1 & H2 & H3)]; (split; [assumption|split; [lia|assumption]])|].
        intros (H1 & H2 & H3). destruct (Nat.eq_dec (nsum t) s) as [Hs|Hs]; [left; tauto|right]. split; [exact H1|]. split; [lia|exact H3].
      + assert (A : forall (a b : list (list nat)), StronglySorted (fun x y => nsum x <= nsum y) a -> StronglySorted (fun x y => nsum x <= nsum y) b ->
           (forall x y, In x a -> In y b -> nsum x <= nsum y) -> StronglySorted (fun x y => nsum x <= nsum y) (a ++ b)).
        { clear. induction a as [|x a IHa]; intros b Ha Hb H; [exact Hb|]. inversion Ha; subst. cbn. constructor.
          - apply IHa; [assumption|exact Hb|]. intros u v Hu Hv. apply H; [right; exact Hu|exact Hv].
          - apply Forall_app. split; [assumption|]. apply Forall_forall. intros y Hy. apply H; [left; reflexivity|exact Hy]. }
        apply A; [|exact HS'|].
        * assert (Hall : forall x, In x l -> nsum x = s) by (intros x Hx; apply Hl in Hx; tauto). clear -Hall.
          induction l as [|x l IHl]; constructor; [apply IHl; intros y Hy; apply Hall; right; exact Hy|]. apply Forall_forall. intros y Hy.
          rewrite (Hall x (or_introl eq_refl)), (Hall y (or_intror Hy)). lia.
        * intros x y Hx Hy. apply Hl in Hx as (_ & Hx & _). apply Hls in Hy as (_ & Hy & _). lia. }
  destruct (G (order + 1) 0) as (ls & E & ND & Hls & HS). rewrite E. cbn [rbind]. exists (concat ls). split; [reflexivity|]. split; [exact ND|]. split; [|exact HS].
  intros t. rewrite Hls. split; intros (H1 & H2 & H3); (split; [assumption|split; [lia|assumption]]).
Qed.
Lemma product_spec ls : forall t, In t (product ls) <-> Forall2 (fun x l => In x l) t ls.
Proof.
  induction ls as [|l ls IH]; intros t; cbn [product].
  - split; [intros [<-|[]]; constructor|]. intros H. inversion H. left; reflexivity.
  - rewrite in_flat_map. split.
    + intros (a & Ha & Hin). apply in_map_iff in Hin as (q & <- & Hq). constructor; [exact Ha|apply IH, Hq].
    + intros H. inversion H; subst. eexists. split; [eassumption|]. apply in_map, IH. assumption.
Qed.
Lemma product_NoDup ls : Forall (@NoDup nat) ls -> NoDup (product ls).
Proof.
  induction 1 as [|l ls H HF IH]; cbn [product]; [repeat constructor; intros []|]. apply NoDup_flat_cons; [intros; exact IH|exact H].
Qed.
Lemma component_spec order dim : NoDup (moments_up_to_component_order order dim) /\
  forall t, In t (moments_up_to_component_order order dim) <-> length t = dim /\ Forall (fun x => x <= order) t.
Proof.
  unfold moments_up_to_component_order. split.
  - apply product_NoDup. apply Forall_forall. intros l Hl. apply repeat_spec in Hl. subst. apply seq_NoDup.
  - intros t. rewrite product_spec. revert t; induction dim as [|d IH]; intros t; cbn [repeat].
    + split; [intros H; inversion H; split; [reflexivity|constructor]|]. intros [H _]. destruct t; [constructor|discriminate].
    + split.
      * intros H. inversion H as [|x l' q ls' Hx Hq]; subst. apply IH in Hq as [H1 H2]. cbn. split; [lia|]. constructor; [apply in_seq in Hx; lia|exact H2].
      * intros [H1 H2]. destruct t as [|x q]; [discriminate|]. inversion H2; subst. constructor; [apply in_seq; lia|]. apply IH. split; [injection H1; auto|assumption].
Qed.
Lemma contained_spec e mo ex : NoDup (contained_moments e mo ex) /\
  forall t, In t (contained_moments e mo ex) <-> Forall2 le t e /\ mo <= nsum t /\ (ex = true -> t <> e).
Proof.
  unfold contained_moments. split.
  - apply NoDup_filter, product_NoDup. apply Forall_forall. intros l Hl. apply in_map_iff in Hl as (i & <- & _). apply seq_NoDup.
  - intros t. rewrite filter_In, product_spec, andb_true_iff, Nat.leb_le, orb_true_iff, !negb_true_iff.
    assert (H1 : Forall2 (fun x l => In x l) t (map (fun i => seq 0 (i + 1)) e) <-> Forall2 le t e).
    { revert t; induction e as [|n e IH]; intros t; cbn [map]; split; intros H; inversion H; subst; constructor; try (apply IH; assumption).
      - match goal with H : In _ (seq _ _) |- _ => apply in_seq in H; lia end.
      - apply in_seq. lia. }
    rewrite H1. assert (H2 : tuple_eqb t e = false <-> t <> e).
    { split; [intros E He; apply (proj2 (tuple_eqb_eq _ _)) in He; congruence|]. intros He. destruct (tuple_eqb t e) eqn:E; [apply tuple_eqb_eq in E; contradiction|reflexivity]. }
    rewrite H2. destruct ex; intuition congruence.
Qed.

(* ---- indices ---- *)
Lemma incr_spec i l : i < length l -> exists l', incr i l = Ok l' /\ length l' = length l /\ forall j, nth j l' 0 = nth j l 0 + (if Nat.eqb i j then 1 else 0).
Proof.
  revert i; induction l as [|x l IH]; intros [|i] H; cbn [length] in H; try lia.
  - exists (S x :: l). split; [reflexivity|]. split; [reflexivity|]. intros [|j]; cbn; lia.
  - destruct (IH i ltac:(lia)) as (l' & E & HL & Hn). exists (x :: l'). cbn [incr]. rewrite E. split; [reflexivity|]. split; [cbn; lia|].
    intros [|j]; cbn; [lia|]. apply Hn.
Qed.
Lemma incr_err i l : length l <= i -> incr i l = Err IndexError.
Proof. revert i; induction l as [|x l IH]; intros [|i] H; cbn [length] in H; try lia; try reflexivity. cbn [incr]. rewrite IH by lia. reflexivity. Qed.
Lemma from_indices_gen idx : forall l, Forall (fun i => i < length l) idx ->
  exists l', fold_left (fun r i => rbind r (incr i)) idx (Ok l) = Ok l' /\ length l' = length l /\
    forall j, nth j l' 0 = nth j l 0 + count_occ Nat.eq_dec idx j.
Proof.
  induction idx as [|i idx IH]; intros l H; cbn [fold_left].
  - exists l. split; [reflexivity|]. split; [reflexivity|]. intros; cbn; lia.
  - inversion H as [|? ? H1 H2]; subst. cbn [rbind]. destruct (incr_spec i l H1) as (l1 & E & HL & Hn). rewrite E.
    destruct (IH l1) as (l' & E' & HL' & Hn'). { rewrite HL. exact H2. } exists l'. split; [exact E'|]. split; [lia|].
    intros j. rewrite Hn', Hn. destruct (Nat.eqb_spec i j) as [->|]; [rewrite count_occ_cons_eq by reflexivity|rewrite count_occ_cons_neq by assumption]; lia.
Qed.
Lemma count_indices_from e : forall i j, count_occ Nat.eq_dec (indices_from i e) j = if i <=? j then nth (j - i) e 0 else 0.
Proof.
  induction e as [|n e IH]; intros i j; cbn [indices_from].
  - cbn. destruct (i <=? j); [destruct (j - i); reflexivity|reflexivity].
  - rewrite count_occ_app, IH.
    assert (R : count_occ Nat.eq_dec (repeat i n) j = if Nat.eqb i j then n else 0).
    { destruct (Nat.eqb_spec i j) as [->|E]; [apply count_occ_repeat_eq; reflexivity|apply count_occ_repeat_neq; congruence]. }
    rewrite R. destruct (Nat.eqb_spec i j) as [->|E].
    + destruct (Nat.leb_spec (S j) j); [lia|]. rewrite Nat.leb_refl, Nat.sub_diag. cbn. lia.
    + destruct (Nat.leb_spec (S i) j); destruct (Nat.leb_spec i j); try lia. replace (j - i) with (S (j - S i)) by lia. reflexivity.
Qed.
Lemma indices_from_range e : forall i, Forall (fun j => i <= j < i + length e) (indices_from i e).
Proof.
  induction e as [|n e IH]; intros i; cbn [indices_from length]; [constructor|]. apply Forall_app. split.
  - apply Forall_forall. intros j Hj. apply repeat_spec in Hj. lia.
  - eapply Forall_impl; [|apply IH]. cbn. intros; lia.
Qed.
Lemma indices_from_sorted e : forall i, StronglySorted le (indices_from i e).
Proof.
  induction e as [|n e IH]; intros i; cbn [indices_from]; [constructor|].
  induction n as [|n IHn]; [apply IH|]. cbn. constructor; [exact IHn|]. apply Forall_app. split.
  - apply Forall_forall. intros j Hj. apply repeat_spec in Hj. lia.
  - eapply Forall_impl; [|apply indices_from_range]. cbn. intros; lia.
Qed.
Lemma roundtrip_exponents e : get_exponent_tuple_from_indices (get_moment_indices e) (length e) = Ok e.
Proof.
  unfold get_exponent_tuple_from_indices, get_moment_indices.
  destruct (from_indices_gen (indices_from 0 e) (repeat 0 (length e))) as (l' & E & HL & Hn).
  { rewrite repeat_length. eapply Forall_impl; [|apply indices_from_range]. cbn. intros; lia. }
  rewrite E. f_equal. rewrite repeat_length in HL. apply (nth_ext _ _ 0 0); [exact HL|]. intros j Hj. rewrite Hn, count_indices_from, nth_repeat. cbn. rewrite Nat.sub_0_r. reflexivity.
Qed.
Lemma roundtrip_indices idx dim : Forall (fun i => i < dim) idx ->
  exists e, get_exponent_tuple_from_indices idx dim = Ok e /\ length e = dim /\ Permutation (get_moment_indices e) idx /\ StronglySorted le (get_moment_indices e).
Proof.
  intros H. unfold get_exponent_tuple_from_indices. destruct (from_indices_gen idx (repeat 0 dim)) as (l' & E & HL & Hn). { rewrite repeat_length. exact H. }
  rewrite repeat_length in HL. exists l'. split; [exact E|]. split; [exact HL|]. split; [|apply indices_from_sorted].
  apply (Permutation_count_occ Nat.eq_dec). intros j. unfold get_moment_indices. rewrite count_indices_from. cbn. rewrite Nat.sub_0_r, Hn, nth_repeat. reflexivity.
Qed.
Lemma fold_err idx : fold_left (fun r i => rbind r (incr i)) idx (Err IndexError) = Err IndexError.
Proof. induction idx; [reflexivity|assumption]. Qed.
Lemma from_indices_err idx dim : Exists (fun i => dim <= i) idx -> get_exponent_tuple_from_indices idx dim = Err IndexError.
Proof.
  unfold get_exponent_tuple_from_indices. intros H0. assert (H : Exists (fun i => length (repeat 0 dim) <= i) idx) by (rewrite repeat_length; exact H0).
  revert H. generalize (repeat 0 dim). clear H0.
  induction idx as [|i idx IH]; intros l H; inversion H; subst; cbn [fold_left rbind].
  - rewrite incr_err by assumption. apply fold_err.
  - destruct (Nat.lt_ge_cases i (length l)) as [Hi|Hi].
    + destruct (incr_spec i l Hi) as (l1 & E & HL & _). rewrite E. apply IH. rewrite HL. assumption.
    + rewrite incr_err by exact Hi. apply fold_err.
Qed.

(* ---- parity and aliasing ---- *)
Local Open Scope R_scope.
Lemma monomial_neg c e : (length e <= length c)%nat -> monomial (map Z.opp c) e = (if Nat.even (nsum e) then 1 else -1) * monomial c e.
Proof.
  revert c; induction e as [|n e IH]; intros [|x c] H; cbn [length] in H; try lia; try (cbn; ring).
  cbn [map monomial nsum fold_right]. fold (nsum e). rewrite IH by lia. rewrite opp_IZR.
  replace (- IZR x) with ((-1) * IZR x) by ring. rewrite Rpow_mult_distr, pow_m1, Nat.even_add, <- (Nat.negb_odd n).
  destruct (Nat.odd n), (Nat.even (nsum e)); cbn [Bool.eqb negb]; ring.
Qed.
Lemma monomial_ones e : monomial (repeat 1%Z (length e)) e = 1.
Proof. induction e as [|n e IH]; [reflexivity|]. cbn [length repeat monomial]. rewrite IH, pow1. ring. Qed.
Lemma even_mod n : Nat.eqb (n mod 2) 0 = Nat.even n.
Proof.
  destruct (Nat.even n) eqn:E.
  - apply Nat.even_spec in E as [k ->]. rewrite Nat.mul_comm, Nat.mod_mul by discriminate. reflexivity.
  - assert (O : Nat.odd n = true) by (rewrite <- Nat.negb_even, E; reflexivity). apply Nat.odd_spec in O as [k ->].
    rewrite Nat.add_comm, Nat.mul_comm, Nat.mod_add by discriminate. reflexivity.
Qed.
Lemma non_aliased_canon e : map canon e = map canon (non_aliased_moment e) /\ non_aliased_moment e = map canon e.
Proof.
  assert (H : non_aliased_moment e = map canon e).
  { unfold non_aliased_moment. apply map_ext. intros n. unfold canon. destruct n as [|[|[|n]]]; try reflexivity.
    cbn [Nat.ltb Nat.leb Nat.eqb]. replace (2 <? S (S (S n)))%nat with true by (symmetry; apply Nat.ltb_lt; lia).
    rewrite <- Nat.bit0_mod, Nat.bit0_odd. destruct (Nat.odd (S (S (S n)))); reflexivity. }
  split; [|exact H]. rewrite H, map_map. apply map_ext. intros n. unfold canon. destruct (Nat.eqb_spec n 0) as [->|]; [reflexivity|]. destruct (Nat.odd n); reflexivity.
Qed.
Lemma alias_complete e e' : length e = length e' ->
  (forall c, length c = length e -> (forall x, In x c -> In x [-1; 0; 1]%Z) -> monomial c e = monomial c e') -> map canon e = map canon e'.
Proof.
  revert e'; induction e as [|n e IH]; intros [|n' e'] HL H; try discriminate; [reflexivity|]. injection HL as HL. cbn [map]. f_equal.
  - assert (H1 : forall x : Z, In x [-1; 0; 1]%Z -> IZR x ^ n = IZR x ^ n').
    { intros x Hx. specialize (H (x :: repeat 1%Z (length e))). cbn [length monomial] in H. rewrite repeat_length in H. specialize (H eq_refl).
      rewrite monomial_ones in H. rewrite HL, monomial_ones in H.
      assert (Hc : IZR x ^ n * 1 = IZR x ^ n' * 1); [|lra]. apply H. intros y [->|Hy]; [exact Hx|]. apply repeat_spec in Hy. subst. cbn. tauto. }
    pose proof (H1 (-1)%Z (or_introl eq_refl)) as Hm. pose proof (H1 0%Z (or_intror (or_introl eq_refl))) as Hz. rewrite !pow_m1 in Hm.
    unfold canon. destruct n as [|n], n' as [|n']; try reflexivity.
    + rewrite (pow_i (S n')) in Hz by lia. cbn in Hz. lra.
    + rewrite (pow_i (S n)) in Hz by lia. cbn in Hz. lra.
    + cbn [Nat.eqb]. destruct (Nat.odd (S n)), (Nat.odd (S n')); try reflexivity; lra.
  - apply IH; [exact HL|]. intros c Hc Hin. specialize (H (1%Z :: c)). cbn [length monomial] in H. rewrite !pow1, !Rmult_1_l in H. apply H; [lia|].
    intros x [<-|Hx]; [cbn; tauto|apply Hin, Hx].
Qed.

(* ---- names ---- *)
Local Open Scope nat_scope.
Lemma str_digit n : n < 10 -> exists a, str_nat n = String a EmptyString.
Proof. intros H. do 10 (destruct n as [|n]; [eexists; reflexivity|]). lia. Qed.
Lemma str_digit_inj n m : n < 10 -> m < 10 -> str_nat n = str_nat m -> n = m.
Proof.
  intros Hn Hm. do 10 (destruct n as [|n]; [do 10 (destruct m as [|m]; [cbn; intros E; try reflexivity; discriminate|]); lia|]). lia.
Qed.
Lemma append_inj_l s a b : append s a = append s b -> a = b.
Proof. induction s as [|c s IH]; cbn; [auto|]. intros H. injection H as H. auto. Qed.
Lemma symbol_inj name e e' : length e = length e' -> Forall (fun n => n < 10) e -> Forall (fun n => n < 10) e' ->
  statistical_quantity_symbol name e = statistical_quantity_symbol name e' -> e = e'.
Proof.
  intros HL He He' H. unfold statistical_quantity_symbol in H. apply append_inj_l in H. apply append_inj_l in H. revert e' HL He' H.
  induction e as [|n e IH]; intros [|n' e'] HL He' H; try discriminate; [reflexivity|]. injection HL as HL. inversion He; subst. inversion He'; subst.
  cbn [map fold_right] in H. destruct (str_digit n) as [a Ha]; [assumption|]. destruct (str_digit n') as [b Hb]; [assumption|]. rewrite Ha, Hb in H. cbn in H. injection H as Hab H.
  f_equal; [apply str_digit_inj; try assumption; congruence|]. apply IH; assumption.
Qed.

(* lookup in the dictionary *)
Fixpoint glook (o : nat) (d : list (nat * list (list nat))) : list (list nat) :=
  match d with [] => [] | (o', ms) :: d => if Nat.eqb o o' then ms else glook o d end.
Lemma glook_insert o m d k : glook k (group_insert o m d) = if Nat.eqb k o then glook k d ++ [m] else glook k d.
Proof.
  induction d as [|[o' ms] d IH]; cbn [group_insert glook].
  - destruct (Nat.eqb k o); reflexivity.
  - destruct (Nat.eqb_spec o o') as [->|E]; cbn [glook].
    + destruct (Nat.eqb_spec k o'); reflexivity.
    + rewrite IH. destruct (Nat.eqb_spec k o') as [->|]; [destruct (Nat.eqb_spec o' o); [congruence|reflexivity]|reflexivity].
Qed.
Lemma groups_spec l k : glook k (sort_moments_into_groups_of_same_order l) = filter (fun m => Nat.eqb (nsum m) k) l.
Proof.
  unfold sort_moments_into_groups_of_same_order.
  assert (G : forall d, glook k (fold_left (fun d m => group_insert (nsum m) m d) l d) = glook k d ++ filter (fun m => Nat.eqb (nsum m) k) l).
  { induction l as [|m l IH]; intros d; cbn [fold_left filter]; [rewrite app_nil_r; reflexivity|]. rewrite IH, glook_insert, (Nat.eqb_sym k).
    destruct (nsum m =? k); [rewrite <- app_assoc; reflexivity|reflexivity]. }
  rewrite G. reflexivity.
Qed.
