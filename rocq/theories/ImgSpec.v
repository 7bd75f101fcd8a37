(* Images on a plane of the domain. *)
From Coq Require Import List Bool Arith.
From Verif Require Import ImgModel.
Import ListNotations.

(* a cell of the domain lies in all slices *)
Definition in_slices (dim : nat) (s : slices) (p : nat -> nat) : Prop := forall k, k < dim -> fst (s k) <= p k < snd (s k).
(* number of cells along an axis *)
Definition size (s : slices) (axis : nat) : nat := snd (s axis) - fst (s axis).
(* the cell relative to a block *)
Definition relative (block : slices) (p : nat -> nat) : nat -> nat := fun k => p k - fst (block k).
(* all pixels other than pure white *)
Definition dark (img : image) (row col : nat) : bool := gray img row col <=? 254.

(* [f] spreads n pixels over m cells: in order, from the first to the last, each cell at most half a pixel from its exact position i (n-1)/(m-1) *)
Definition spreads (f : nat -> nat) (n m : nat) : Prop :=
  f 0 = 0 /\ (1 < m -> f (m - 1) = n - 1) /\ (forall i, i < m -> f i < n) /\ (forall i j, i <= j -> f i <= f j) /\
  (forall i, 1 < m -> 2 * (f i * (m - 1)) <= 2 * (i * (n - 1)) + (m - 1) /\ 2 * (i * (n - 1)) <= 2 * (f i * (m - 1)) + (m - 1)).
(* a picture of [size] cells in the middle of [total] cells, starting at [first] *)
Definition centered (first size total : nat) : Prop := size <= total /\ first <= total - size - first <= S first.
(* n / m is, up to half a cell in n, the ratio of a to b *)
Definition same_ratio (n m a b : nat) : Prop := 2 * (n * b) <= 2 * (m * a) + b /\ 2 * (m * a) <= 2 * (n * b) + b.
