(* Specification for the velocity setter under a force. *)
From Coq Require Import List Reals.
From Verif Require Import StencilModel RealLib LinLib TransSpec EqSpec CollModel CollSpec IniSpec TrackSpec.
Import ListNotations.
Local Open Scope R_scope.

(* the velocity of populations under a force F: half of the force belongs to the momentum *)
Definition flow_velocity (zc : bool) (S : stencil) (compr : bool) (F g : list R) (a : nat) : R := (momentum g S a + nth a F 0 / 2) / carrier compr (mass zc S g).
(* where the velocity setter ends up *)
Definition settled_velocity (zc : bool) (S : stencil) (compr : bool) (fm : force_model) (F : list R) (rate : R) (v f : list R) (a : nat) : R :=
  nth a v 0 + direct_share fm rate / rate * (nth a F 0 / carrier compr (mass zc S f)).
(* a cell whose velocity setter is repeated: all steps are defined, the mass is kept, the distance of the velocity to [target] shrinks by 1 - rate in every step *)
Definition settles (zc : bool) (S : stencil) (compr : bool) (F : list R) (rate : R) (target : nat -> R) (D : nat) (step : list R -> res (list R)) (f : list R) : Prop :=
  forall t, exists g, repeat_step step t f = Ok g /\ length g = length f /\ mass zc S g = mass zc S f /\
    forall a, (a < D)%nat -> flow_velocity zc S compr F g a - target a = (1 - rate) ^ t * (flow_velocity zc S compr F f a - target a).
(* after some number of steps the velocity never comes close to the prescribed one again *)
Definition stays_away (zc : bool) (S : stencil) (compr : bool) (F v : list R) (a : nat) (step : list R -> res (list R)) (f : list R) : Prop :=
  exists eps T, 0 < eps /\ forall t g, (T <= t)%nat -> repeat_step step t f = Ok g -> eps < Rabs (flow_velocity zc S compr F g a - nth a v 0).
