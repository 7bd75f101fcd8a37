(* What it means that a concentration is carried and diffused by populations: a density that must stay within bounds. *)
From Coq Require Import List ZArith Bool Arith Reals.
From Verif Require Import StencilModel AccessModel StreamModel StreamSpec RealLib EqSpec BoundSpec.
Import ListNotations.
Local Open Scope R_scope.

(* the scalar product of a lattice velocity with the velocity of the flow *)
Definition along (c : vec) (v : list R) : R := rsum (map (fun a => comp c a * nth a v 0) (seq 0 (length v))).
Definition square (v : list R) : R := rsum (map (fun x => x * x) v).
(* the share of a concentration moving with c in a flow of velocity v, relative to the weight of c: to first or to second order in v *)
Definition share (second : bool) (c : vec) (v : list R) : R :=
  1 + 3 * along c v + (if second then 9 / 2 * (along c v * along c v) - 3 / 2 * square v else 0).
(* the concentration and the populations; zero-centred storage keeps the deviations from the weights *)
Definition offset (zc : bool) (w : list R) (i : nat) : R := if zc then nth i w 0 else 0.
Definition concentration (zc : bool) (f : list R) : R := rsum f + if zc then 1 else 0.
Definition population (zc : bool) (w f : list R) (i : nat) : R := nth i f 0 + offset zc w i.
(* rate and velocity for which no cell hands out more than it has *)
Definition admissible (second : bool) (S : stencil) (w : list R) (omega : R) (v : list R) : Prop :=
  0 <= omega /\ forall i, (i < length S)%nat -> 0 <= share second (nth i S []) v /\ omega * (1 - nth i w 0 * share second (nth i S []) v) <= 1.
(* walls that send back an existing population of a velocity with the same weight *)
Definition acc_index (a : pacc) : nat := match a with FOut _ j => j | FIn _ j => j end.
Definition passes_on {L : lattice} (S : stencil) (w : list R) (fluid : cell L -> bool) (B : cell L -> nat -> brule R) : Prop :=
  forall x i, is_link S fluid (x, i) -> exists a, b_reads (B x i) = [a] /\ readable S fluid x a /\ nth (acc_index a) w 0 = nth i w 0 /\
    forall y, b_fun (B x i) [y] = y.
(* sum of the distances of all populations *)
Definition distance {L : lattice} (S : stencil) (cells : list (cell L)) (f g : cell L -> list R) : R :=
  rsum (map (fun x => rsum (map (fun i => Rabs (nth i (f x) 0 - nth i (g x) 0)) (seq 0 (length S)))) cells).
