(* Specification for collisions with prescribed velocity under a force. *)
From Coq Require Import List Reals.
From Verif Require Import CollModel.
Local Open Scope R_scope.

(* the part of the force a collision adds to the momentum when the velocity is given, [rate]: relaxation rate of that momentum component.
   Methods whose velocity contains half of the force (documentation of forcemodels.py) take the other part by relaxation. *)
Definition direct_share (fm : force_model) (rate : R) : R :=
  match fm with Simple | Luo | EDM => 1 | Guo | He | Buick | ShanChen | CentralMoment => 1 - rate / 2 end.
