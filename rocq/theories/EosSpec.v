(* Specification for equations of state. *)
From Coq Require Import List Reals.
Local Open Scope R_scope.

(* the pressure grows with the density *)
Definition increasing_on (lo hi : R) (p : R -> R) : Prop := forall x y, lo < x -> x < y -> y < hi -> p x < p y.
Definition has_derivative_on (lo hi : R) (f f' : R -> R) : Prop := forall x, lo < x < hi -> derivable_pt_lim f x (f' x).
(* gas and liquid coexist at pressure p: equal pressures, and equal areas of the isotherm over the specific volume above and below p;
   [area] is an antiderivative of the pressure as function of the specific volume *)
Definition coexist (pressure area : R -> R) (gas liquid p : R) : Prop :=
  pressure gas = p /\ pressure liquid = p /\ area (/ gas) - area (/ liquid) = p * (/ gas - / liquid).
(* shape of a subcritical isotherm around the pressure p: below p up to gas, above up to middle, below up to liquid, above afterwards *)
Definition isotherm_shape (pressure : R -> R) (gas middle liquid p hi : R) : Prop :=
  0 < gas < middle /\ middle < liquid < hi /\
  (forall x, 0 < x < gas -> pressure x < p) /\ (forall x, gas < x < middle -> p < pressure x) /\
  (forall x, middle < x < liquid -> pressure x < p) /\ (forall x, liquid < x < hi -> p < pressure x).
