(* Drops at an interface. *)
From Coq Require Import List Arith.
Import ListNotations.

(* only one phase is present, with concentration one *)
Definition pure (phases : nat) (c : list nat) (phase : nat) : Prop :=
  length c = phases /\ phase < phases /\ nth phase c 0 = 1 /\ forall q, q < phases -> q <> phase -> nth q c 0 = 0.
(* the integer position is the relative position of [tenths] tenths of the size, rounded down *)
Definition at_tenths (tenths size pos : nat) : Prop := 10 * pos <= tenths * size < 10 * S pos.
