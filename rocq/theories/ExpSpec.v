(* Profiles around an interface. *)
From Coq Require Import List ZArith Reals.
Import ListNotations.
Local Open Scope R_scope.

(* the step of a function of the cells lies between the cells x and x + 1 *)
Definition step_between (f : Z -> R) (x : Z) (from to : R) : Prop := f x = from /\ f (x + 1)%Z = to.
(* how far something with this velocity is beyond k full rounds through nx periodic cells after n time steps *)
Definition excess (nx : Z) (velocity : R) (k : nat) (n : Z) : R := velocity * IZR n - INR k * IZR nx.
(* sum of the deviations in n cells from the first one *)
Fixpoint sum_deviation (f g : Z -> R) (first : Z) (n : nat) : R := match n with O => 0 | S n => Rabs (f first - g first) + sum_deviation f g (first + 1)%Z n end.
