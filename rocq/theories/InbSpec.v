(* What the faces of a box are, independently of the kernel's conditions. *)
From Coq Require Import String List ZArith Bool Arith.
From Verif Require Import StencilModel AccessModel StreamModel StreamSpec GridModel BoundSpec InbModel.
Import ListNotations.
Local Open Scope Z_scope.

(* inner cells of an array with one ghost layer *)
Definition inner (N : list positive) (x : cell (torus N)) : bool :=
  forallb (fun k => (1 <=? nth k (proj1_sig x) 0) && (nth k (proj1_sig x) 0 <? nth k (map Zpos N) 0 - 1)) (seq 0 (length N)).

(* from x, velocity d leaves the inner cells through the face with outward normal n *)
Definition leaves_through (N : list positive) (x d n : vec) : Prop :=
  exists k, (k < length N)%nat /\
    ((n = axis_vec (length N) k 1 /\ nth k x 0 + nth k d 0 >= nth k (map Zpos N) 0 - 1) \/
     (n = axis_vec (length N) k (-1) /\ nth k x 0 + nth k d 0 < 1)).

(* the rule responsible for a link: that of the last listed face the link leaves through *)
Definition responsible {V} (N : list positive) (S : stencil) (spec : list (side V)) (B : cell (torus N) -> nat -> brule V) : Prop :=
  forall x i before n r after, inner N x = true -> (i < length S)%nat ->
    spec = before ++ (n, r) :: after ->
    leaves_through N (proj1_sig x) (dir S i) n ->
    (forall n' r', In (n', r') after -> ~ leaves_through N (proj1_sig x) (dir S i) n') ->
    B x i = r i.

(* every key is the outward normal of a face, and every face is listed *)
Definition all_faces {V} (N : list positive) (spec : list (side V)) : Prop :=
  (forall n r, In (n, r) spec -> exists k s, (k < length N)%nat /\ (s = 1 \/ s = -1) /\ n = axis_vec (length N) k s) /\
  (forall k s, (k < length N)%nat -> s = 1 \/ s = -1 -> exists r, In (axis_vec (length N) k s, r) spec).

(* the boundary rule uses populations of the cell itself only *)
Definition local_rules {V} (D Q : nat) (spec : list (side V)) : Prop :=
  forall n r i a, In (n, r) spec -> (i < Q)%nat -> In a (b_reads (r i)) -> exists j, (j < Q)%nat /\ a = FOut (vzero D) j.

(* velocities to direct neighbours *)
Definition nearest_neighbours (S : stencil) : Prop := forall d z, In d S -> In z d -> -1 <= z <= 1.
