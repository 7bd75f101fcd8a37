(* Specification vocabulary for periodic arrays with ghost layers: array coordinates of a domain of
   N_1 x ... x N_D cells surrounded by one ghost layer; interior cells have coordinates
   1 .. N_k. *)
From Coq Require Import List ZArith Bool.
From Verif Require Import StencilModel.
Import ListNotations.
Local Open Scope Z_scope.

Fixpoint interior (N : list Z) (x : vec) : Prop :=
  match N, x with
  | [], [] => True
  | n :: N', a :: x' => 1 <= a <= n /\ interior N' x'
  | _, _ => False
  end.

(* the cell of the periodic domain a position belongs to: wrapped in the periodic axes only *)
Definition wrap_axis (n : Z) (per : bool) (a : Z) : Z := if per then (a - 1) mod n + 1 else a.
Fixpoint wrap_pos (N : list Z) (per : list bool) (x : vec) : vec :=
  match N, per, x with
  | n :: N', p :: per', a :: x' => wrap_axis n p a :: wrap_pos N' per' x'
  | _, _, _ => []
  end.

(* all velocity components in {-1, 0, 1} *)
Definition nearest_neighbour (S : stencil) : Prop :=
  forall d e, In d S -> In e d -> -1 <= e <= 1.

(* Stream-and-collide on the periodic box, cells named by their coordinates 1 .. N_k. *)
Section PeriodicRef.
  Context {V : Type} (v0 : V) (St : stencil) (N : list Z).
  Context (C : nat -> vec -> list V -> list V).
  Fixpoint periodic_stream_collide (f0 : vec -> list V) (n : nat) : vec -> list V :=
    match n with
    | O => f0
    | S n' => fun x =>
        C n' x (map (fun j =>
          nth j (periodic_stream_collide f0 n'
                   (wrap_pos N (map (fun _ => true) N) (vadd x (vneg (nth j St []))))) v0)
          (seq 0 (length St)))
    end.
End PeriodicRef.
