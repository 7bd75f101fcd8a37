(* C32 moment enumeration, C43 moment symbol names. *)
From Coq Require Import String List ZArith Bool Arith Lia Permutation Sorted Reals.
From Verif Require Import StencilModel StencilProofs EqSpec EqProofs MomModel MomProofs.
Import ListNotations.
Local Open Scope nat_scope.

(* all exponent tuples of an order, each once; without permutations only the descending ones *)
Theorem C32_moments_of_order : forall order dim incl, 0 < dim ->
  exists l, moments_of_order order dim incl = Ok l /\ NoDup l /\
    forall t, In t l <-> length t = dim /\ nsum t = order /\ (incl = false -> StronglySorted (fun a b => b <= a) t).
Proof. exact of_order_spec. Qed.
Print Assumptions C32_moments_of_order.

Theorem C32_moments_up_to_order : forall order dim incl, 0 < dim ->
  exists l, moments_up_to_order order dim incl = Ok l /\ NoDup l /\
    (forall t, In t l <-> length t = dim /\ nsum t <= order /\ (incl = false -> StronglySorted (fun a b => b <= a) t)) /\
    StronglySorted (fun a b => nsum a <= nsum b) l.
Proof. exact up_to_spec. Qed.
Print Assumptions C32_moments_up_to_order.

Theorem C32_component_order : forall order dim, NoDup (moments_up_to_component_order order dim) /\
  forall t, In t (moments_up_to_component_order order dim) <-> length t = dim /\ Forall (fun x => x <= order) t.
Proof. exact component_spec. Qed.
Print Assumptions C32_component_order.

Theorem C32_contained_moments : forall e min_order exclude, NoDup (contained_moments e min_order exclude) /\
  forall t, In t (contained_moments e min_order exclude) <-> Forall2 le t e /\ min_order <= nsum t /\ (exclude = true -> t <> e).
Proof. exact contained_spec. Qed.
Print Assumptions C32_contained_moments.

Theorem C32_permutations : forall e, e <> [] ->
  (forall p, In p (moment_permutations e) <-> Permutation p e) /\ NoDup (moment_permutations e).
Proof. exact moment_permutations_spec. Qed.
Print Assumptions C32_permutations.

(* the multiplicity counts the distinct permutations *)
Theorem C32_multiplicity : forall e (ps : list (list nat)), e <> [] -> NoDup ps -> (forall p, In p ps <-> Permutation p e) ->
  moment_multiplicity e = length ps.
Proof.
  intros e ps He ND H. rewrite (multiplicity_spec e He). destruct (moment_permutations_spec e He) as [H1 H2].
  apply Permutation_length, NoDup_Permutation; [exact H2|exact ND|]. intros x. rewrite H1, H. reflexivity.
Qed.
Print Assumptions C32_multiplicity.

(* descending representatives times multiplicities cover all moments of an order *)
Theorem C32_extend_with_permutations : forall l, (forall e, In e l -> e <> []) ->
  NoDup (extend_moments_with_permutations l) /\
  forall p, In p (extend_moments_with_permutations l) <-> exists e, In e l /\ Permutation p e.
Proof. exact extend_spec. Qed.
Print Assumptions C32_extend_with_permutations.

(* one representative of each class, provided the set is closed under permutations *)
Theorem C32_pick_representatives_partial : forall l, (forall e, In e l -> e <> []) -> (forall e p, In e l -> Permutation p e -> In p l) ->
  NoDup (pick_representative_moments l) /\
  (forall m, In m (pick_representative_moments l) -> In m l) /\
  (forall e, In e l -> exists m, In m (pick_representative_moments l) /\ Permutation m e /\
      forall m', In m' (pick_representative_moments l) -> Permutation m' e -> m' = m).
Proof. exact pick_spec. Qed.
Print Assumptions C32_pick_representatives_partial.

(* otherwise whole classes are dropped: the descending representatives of order 2 all vanish *)
Theorem C32_pick_representatives_refuted : exists l, moments_of_order 2 3 false = Ok l /\ l = [[1; 1; 0]; [2; 0; 0]] /\
  pick_representative_moments l = [].
Proof. eexists. split; [reflexivity|]. split; [reflexivity|]. reflexivity. Qed.
Print Assumptions C32_pick_representatives_refuted.

Theorem C32_index_conversions : forall e, get_exponent_tuple_from_indices (get_moment_indices e) (length e) = Ok e.
Proof. exact roundtrip_exponents. Qed.
Print Assumptions C32_index_conversions.

Theorem C32_exponent_conversions : forall idx dim,
  (Forall (fun i => i < dim) idx ->
    exists e, get_exponent_tuple_from_indices idx dim = Ok e /\ length e = dim /\
      Permutation (get_moment_indices e) idx /\ StronglySorted le (get_moment_indices e)) /\
  (Exists (fun i => dim <= i) idx -> get_exponent_tuple_from_indices idx dim = Err IndexError).
Proof. intros. split; [apply roundtrip_indices|apply from_indices_err]. Qed.
Print Assumptions C32_exponent_conversions.

(* a moment is even iff reversing all velocities does not change it *)
Theorem C32_parity : forall e,
  (is_even_tuple e = true <-> forall c, length c = length e -> monomial (map Z.opp c) e = monomial c e) /\
  (is_even_tuple e = false <-> forall c, length c = length e -> monomial (map Z.opp c) e = (- monomial c e)%R).
Proof.
  intros e. unfold is_even_tuple. rewrite even_mod. split; split.
  - intros H c Hc. rewrite monomial_neg by lia. rewrite H. ring.
  - intros H. specialize (H (repeat 1%Z (length e)) (repeat_length _ _)). rewrite monomial_neg, monomial_ones in H by (rewrite repeat_length; lia).
    destruct (Nat.even (nsum e)); [reflexivity|]. exfalso. assert (X : (-1 = 1)%R) by (rewrite <- H; ring). apply eq_IZR in X. discriminate.
  - intros H c Hc. rewrite monomial_neg by lia. rewrite H. ring.
  - intros H. specialize (H (repeat 1%Z (length e)) (repeat_length _ _)). rewrite monomial_neg, monomial_ones in H by (rewrite repeat_length; lia).
    destruct (Nat.even (nsum e)); [|reflexivity]. exfalso. assert (X : (1 = -1)%R) by (rewrite <- (Rmult_1_r 1), H; reflexivity). apply eq_IZR in X. discriminate.
Qed.
Print Assumptions C32_parity.

(* on first-neighbourhood velocities a moment equals its non-aliased version, and two moments are
   indistinguishable exactly when their non-aliased versions agree *)
Theorem C32_non_aliased : forall e,
  (forall c, (forall x, In x c -> In x [-1; 0; 1]%Z) -> monomial c (non_aliased_moment e) = monomial c e) /\
  (forall e', length e' = length e ->
     ((forall c, length c = length e -> (forall x, In x c -> In x [-1; 0; 1]%Z) -> monomial c e = monomial c e')
       <-> non_aliased_moment e = non_aliased_moment e')) /\
  Forall (fun n => n <= 2) (non_aliased_moment e) /\
  non_aliased_moment (non_aliased_moment e) = non_aliased_moment e.
Proof.
  intros e. destruct (non_aliased_canon e) as [H1 H2].
  assert (H3 : forall c, (forall x, In x c -> In x [-1; 0; 1]%Z) -> monomial c (non_aliased_moment e) = monomial c e).
  { intros c Hc. rewrite (monomial_canon c e Hc), H2. reflexivity. }
  split; [exact H3|]. split; [|split].
  - intros e' HL. destruct (non_aliased_canon e') as [_ H2']. rewrite H2, H2'. split.
    + intros H. apply alias_complete; [symmetry; exact HL|exact H].
    + intros H c _ Hc. rewrite (monomial_canon c e Hc), (monomial_canon c e' Hc), H. reflexivity.
  - rewrite H2. apply Forall_forall. intros n Hn. apply in_map_iff in Hn as (m & <- & _). unfold canon. destruct (m =? 0); [lia|]. destruct (Nat.odd m); lia.
  - rewrite (proj2 (non_aliased_canon (non_aliased_moment e))), <- H1. symmetry. exact H2.
Qed.
Print Assumptions C32_non_aliased.

(* grouping by order keeps every moment, in its group, in the original sequence *)
Theorem C32_groups_of_same_order : forall l k,
  glook k (sort_moments_into_groups_of_same_order l) = filter (fun m => Nat.eqb (nsum m) k) l.
Proof. exact groups_spec. Qed.
Print Assumptions C32_groups_of_same_order.

Example C32_non_vacuous : moments_of_order 2 2 true = Ok [[0; 2]; [1; 1]; [2; 0]] /\ moment_multiplicity [2; 0; 0] = 3 /\
  moment_permutations [2; 0; 0] = [[0; 0; 2]; [0; 2; 0]; [2; 0; 0]].
Proof. vm_compute. auto. Qed.

Theorem C43_symbols_distinct : forall name e e', length e = length e' ->
  Forall (fun n => n < 10) e -> Forall (fun n => n < 10) e' ->
  statistical_quantity_symbol name e = statistical_quantity_symbol name e' -> e = e'.
Proof. exact symbol_inj. Qed.
Print Assumptions C43_symbols_distinct.

Theorem C43_symbols_refuted : forall name, exists e e', length e = length e' /\ e <> e' /\
  statistical_quantity_symbol name e = statistical_quantity_symbol name e'.
Proof. intros name. exists [1; 11], [11; 1]. split; [reflexivity|]. split; [discriminate|reflexivity]. Qed.
Print Assumptions C43_symbols_refuted.
