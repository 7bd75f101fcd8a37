(* Specification notions for stencils. *)
From Coq Require Import String List ZArith Bool Arith Permutation.
From Verif Require Import StencilModel.
Import ListNotations.
Local Open Scope Z_scope.

(* d' arises from d by permuting coordinates and flipping signs *)
Definition signed_permutation (d d' : vec) : Prop := Permutation (map Z.abs d) (map Z.abs d').

(* a stencil object a user can construct: by name or from a tuple *)
Definition constructible (a : lbstencil) : Prop :=
  (exists name ord, lbstencil_of_name name ord = Ok a) \/ (exists S, lbstencil_of_tuple S = Ok a).

(* CPython's tuple hash (xxHash based, 64 bit) on nested tuples of small ints; only used to exhibit
   concrete hash values in a refutation.  Small ints hash to themselves except -1, which hashes to -2. *)
Definition two64 : Z := 2 ^ 64.
Definition rotl31 (a : Z) : Z := Z.lor ((Z.shiftl a 31) mod two64) (Z.shiftr a 33).
Definition py_tuple_hash (lanes : list Z) : Z :=
  let p1 := 11400714785074694791 in
  let p2 := 14029467366897019727 in
  let p5 := 2870177450012600261 in
  let acc := fold_left (fun acc l => (rotl31 ((acc + (l mod two64) * p2) mod two64) * p1) mod two64) lanes p5 in
  let acc := (acc + Z.lxor (Z.of_nat (List.length lanes)) (Z.lxor p5 3527539)) mod two64 in
  if acc =? two64 - 1 then 1546275796 else if acc <? 2 ^ 63 then acc else acc - two64.
Definition py_int_hash (z : Z) : Z := if z =? -1 then -2 else z.
Definition py_stencil_hash (S : stencil) : Z :=
  py_tuple_hash (map (fun d => py_tuple_hash (map py_int_hash d)) S).
