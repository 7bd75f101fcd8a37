(* The Gibbs simplex and its nearest points. *)
From Coq Require Import List Reals.
From Verif Require Import NphSpec.
Local Open Scope R_scope.

Definition on_simplex (n : nat) (y : nat -> R) : Prop := (forall a, (a < n)%nat -> 0 <= y a) /\ total n y = 1.
(* squared distance *)
Definition dist2 (n : nat) (y z : nat -> R) : R := total n (fun a => (y a - z a) * (y a - z a)).
(* y is the point of the simplex nearest to c: every other point z is farther away, by at least the distance of y and z *)
Definition nearest (n : nat) (c y : nat -> R) : Prop :=
  on_simplex n y /\ forall z, on_simplex n z -> dist2 n c y + dist2 n y z <= dist2 n c z.
(* no fraction so small that it is rounded to zero *)
Definition resolved (thr : R) (n : nat) (c : nat -> R) : Prop := forall a, (a < n)%nat -> c a = 0 \/ thr <= Rabs (c a).
(* fractions of absolute value below the threshold count as zero *)
Definition tiny (thr : R) (v : R) : bool := if Rlt_dec (- thr) v then if Rlt_dec v thr then true else false else false.
Definition rounded (thr : R) (c : nat -> R) : nat -> R := fun b => if tiny thr (c b) then 0 else c b.
