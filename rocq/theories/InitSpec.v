(* One-dimensional profiles. *)
From Coq Require Import List ZArith Bool Reals.
Import ListNotations.
Local Open Scope R_scope.

(* cells of the domain along x, without ghost cells *)
Definition cells (nx : nat) : list Z := map Z.of_nat (seq 0 nx).
(* number of cells with the value v *)
Definition count (f : Z -> R) (v : R) (l : list Z) : nat := length (filter (fun x => if Req_EM_T (f x) v then true else false) l).
(* the profile of a single interface of the given width at position a, rising to the right: the logistic function *)
Definition interface (width a x : R) : R := 1 / (1 + exp (- ((x - a) / width))).
