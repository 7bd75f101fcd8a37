(* Specification vocabulary: a box of N_1 x ... x N_D cells whose first cell has coordinate lo in
   every axis. *)
From Coq Require Import List ZArith Bool.
From Verif Require Import StencilModel.
Import ListNotations.
Local Open Scope Z_scope.

Fixpoint in_box (lo : Z) (N : list Z) (x : vec) : Prop :=
  match N, x with
  | [], [] => True
  | n :: N', a :: x' => lo <= a < lo + n /\ in_box lo N' x'
  | _, _ => False
  end.

(* periodic image in the periodic axes, unchanged in the others *)
Fixpoint wrap_box (lo : Z) (N : list Z) (per : list bool) (x : vec) : vec :=
  match N, per, x with
  | n :: N', p :: per', a :: x' => (if p then lo + (a - lo) mod n else a) :: wrap_box lo N' per' x'
  | _, _, _ => []
  end.

Section Ref.
  Context {V : Type} (v0 : V) (St : stencil) (lo : Z) (N : list Z).
  Context (C : nat -> vec -> list V -> list V).
  Fixpoint box_stream_collide (f0 : vec -> list V) (n : nat) : vec -> list V :=
    match n with
    | O => f0
    | S n' => fun x =>
        C n' x (map (fun j =>
          nth j (box_stream_collide f0 n'
                   (wrap_box lo N (map (fun _ => true) N) (vadd x (vneg (nth j St []))))) v0)
          (seq 0 (length St)))
    end.
End Ref.
