(* C07, C08: stencil tables, indexing, equality and hashing. *)
From Coq Require Import String List ZArith Bool Arith Permutation.
From Verif Require Import StencilModel StencilSpec StreamModel StreamSpec StencilProofs2.
Import ListNotations.
Local Open Scope Z_scope.

(* C07: every predefined stencil has pairwise different velocities of one length, contains the
   opposite of each velocity, starts with the rest velocity and is invariant under all
   coordinate permutations and sign flips. *)
Theorem C07_predefined_well_formed : forall name ord S,
  predefined_stencils name ord = Ok S ->
  symmetric_stencil (dimD S) S /\ nth_error S 0 = Some (vzero (dimD S)) /\
  (forall d d', In d S -> signed_permutation d d' -> In d' S).
Proof. exact predefined_wf. Qed.
Print Assumptions C07_predefined_well_formed.

Theorem C07_orderings_are_permutations : forall name o1 o2 S1 S2,
  predefined_stencils name o1 = Ok S1 -> predefined_stencils name o2 = Ok S2 -> Permutation S1 S2.
Proof. exact predefined_perm. Qed.
Print Assumptions C07_orderings_are_permutations.

(* For every stencil a user can construct: index returns the position and only the position,
   and raises exactly for tuples which are not velocities of the stencil. *)
Theorem C07_index : forall a d i, constructible a ->
  st_index (entries a) d = Ok i <-> nth_error (entries a) i = Some d.
Proof.
  exact (fun a d i H => st_index_iff (entries a) d i (proj1 (constructible_facts a H))
                                     (proj2 (proj2 (constructible_facts a H)))).
Qed.
Print Assumptions C07_index.

Theorem C07_index_raises : forall S d,
  (exists e, st_index S d = Err e) <-> (~ In d S \/ length d <> dimD S).
Proof. exact st_index_err. Qed.
Print Assumptions C07_index_raises.

Theorem C07_inverse_index : forall a d i, constructible a ->
  st_inverse_index (entries a) d = Ok i <-> nth_error (entries a) i = Some (map Z.opp d).
Proof.
  exact (fun a d i H => st_inverse_index_iff (entries a) d i (proj1 (constructible_facts a H))
                                     (proj2 (proj2 (constructible_facts a H)))).
Qed.
Print Assumptions C07_inverse_index.

(* inverse_index is an involution on symmetric stencils *)
Theorem C07_inverse_index_involution : forall D S i d k e,
  symmetric_stencil D S ->
  nth_error S i = Some d -> st_inverse_index S d = Ok k -> nth_error S k = Some e ->
  e = map Z.opp d /\ st_inverse_index S e = Ok i.
Proof. exact inverse_index_involution. Qed.
Print Assumptions C07_inverse_index_involution.

Example C07_nonvacuous :
  (exists S, predefined_stencils "D3Q19" "braunschweig" = Ok S /\ length S = 19%nat) /\
  predefined_stencils "D3Q19" "nonsense" = Err ValueError /\
  constructible {| entries := [[0; 0]; [2; 1]; [-2; -1]]; ordering := None |} /\
  st_inverse_index D3Q27_walberla [1; -1; 1] = Ok 24%nat.
Proof.
  split; [eexists; split; reflexivity|]. split; [reflexivity|]. split.
  - right. exists [[0; 0]; [2; 1]; [-2; -1]]. reflexivity.
  - reflexivity.
Qed.

(* C08: == is an equivalence relation on constructible stencils ... *)
Theorem C08_equality_is_equivalence :
  (forall a, constructible a -> lbstencil_eq a a = true) /\
  (forall a b, constructible a -> constructible b -> lbstencil_eq a b = true -> lbstencil_eq b a = true) /\
  (forall a b c, constructible a -> constructible b -> constructible c ->
     lbstencil_eq a b = true -> lbstencil_eq b c = true -> lbstencil_eq a c = true).
Proof. exact lbstencil_eq_equiv. Qed.
Print Assumptions C08_equality_is_equivalence.

Theorem C08_equality_meaning : forall a b, constructible a -> constructible b ->
  lbstencil_eq a b = true <-> ordering a = ordering b /\ Permutation (entries a) (entries b).
Proof. exact lbstencil_eq_spec. Qed.
Print Assumptions C08_equality_meaning.

(* ... but "equal stencils have equal hashes" fails: two tuple stencils which differ only in
   the order of their entries compare equal and have different (CPython) hashes. *)
Theorem C08_equal_hash_refuted : exists a b,
  constructible a /\ constructible b /\ lbstencil_eq a b = true /\
  lbstencil_hash py_stencil_hash a <> lbstencil_hash py_stencil_hash b.
Proof. exact (ex_intro _ wA (ex_intro _ wB hash_counterexample)). Qed.
Print Assumptions C08_equal_hash_refuted.

(* It holds for stencils constructed by name, for every hash function on tuples. *)
Theorem C08_equal_hash_predefined_partial : forall n1 o1 n2 o2 a b (H : Type) (h : stencil -> H),
  lbstencil_of_name n1 o1 = Ok a -> lbstencil_of_name n2 o2 = Ok b ->
  lbstencil_eq a b = true -> lbstencil_hash h a = lbstencil_hash h b.
Proof. exact predefined_eq_hash. Qed.
Print Assumptions C08_equal_hash_predefined_partial.

Example C08_nonvacuous : exists a b,
  lbstencil_of_name "D2Q9" "walberla" = Ok a /\ lbstencil_of_name "D2Q9" "walberla" = Ok b /\
  lbstencil_eq a b = true /\
  exists c, lbstencil_of_name "D2Q9" "uk" = Ok c /\ lbstencil_eq a c = false.
Proof. do 2 eexists. do 3 (split; [reflexivity|]). eexists. split; reflexivity. Qed.
