(* Reference semantics of one lattice Boltzmann simulation, free of memory layout:
   what "stream and collide with boundary rules" means. *)
From Coq Require Import List ZArith Bool Arith.
From Verif Require Import StencilModel AccessModel StreamModel.
Import ListNotations.

(* A stencil one can stream on, D dimensions: no duplicate velocity, every velocity has D components,
   the opposite of every velocity is in the stencil. *)
Definition symmetric_stencil (D : nat) (S : stencil) : Prop :=
  S <> [] /\ NoDup S /\
  (forall d, In d S -> length d = D) /\
  (forall d, In d S -> In (vneg d) S).

(* [i] and [k] are opposite directions. *)
Definition opposite (S : stencil) (i k : nat) : Prop :=
  exists d, nth_error S i = Some d /\ nth_error S k = Some (vneg d).

(* The velocity sets for which lbmpy supports esopull / esopush: reorderings of D2Q9, D3Q15,
   D3Q19, D3Q27 which start with the rest velocity. *)
Definition eso_pairs_stencil (S : stencil) : Prop :=
  exists T, In T [D2Q9_walberla; D3Q15_walberla; D3Q19_walberla; D3Q27_walberla] /\
            length S = length T /\ (forall d, In d S -> In d T) /\
            nth_error S 0 = nth_error T 0.

(* The combinations of pattern, stencil and time step numbering for which lbmpy generates a kernel. *)
Definition supported (p : pattern) (D : nat) (S : stencil) (t : timestep) : Prop :=
  symmetric_stencil D S /\
  match p with
  | PUSH | PULL => True
  | AA | ESOTWIST => t <> BOTH
  | ESOPULL | ESOPUSH => t <> BOTH /\ eso_pairs_stencil S
  end.

Section Ref.
  Context (L : lattice) (V : Type) (v0 : V) (St : stencil).
  Context (fluid : cell L -> bool).
  (* collision at step n, and boundary rule at step n for link (x, i) *)
  Context (C : nat -> cell L -> list V -> list V).
  Context (B : nat -> cell L -> nat -> brule V).

  Definition dir (i : nat) : vec := nth i St [].

  (* position of the opposite direction *)
  Definition opp (i : nat) : nat :=
    match index_of (vneg (dir i)) St with Some k => k | None => i end.

  (* value of a boundary rule's access, given the post-collision populations [f]:
     f_out is the population of that cell; f_in is the population about to
     arrive in that cell, which left its upstream neighbour. *)
  Definition pacc_value (f : cell L -> list V) (x : cell L) (a : pacc) : V :=
    match a with
    | FOut o j => nth j (f (shift x o)) v0
    | FIn o j => nth j (f (shift (shift x o) (vneg (dir j)))) v0
    end.

  (* post-collision populations after n steps *)
  Fixpoint post (f0 : cell L -> list V) (n : nat) : cell L -> list V :=
    match n with
    | O => f0
    | S n' => fun x =>
        C n' x (map (fun j =>
          let y := shift x (vneg (dir j)) in
          if fluid y then nth j (post f0 n' y) v0
          else b_fun (B n' x (opp j)) (map (pacc_value (post f0 n') x) (b_reads (B n' x (opp j)))))
          (seq 0 (length St)))
    end.

  (* A boundary rule may only read populations which exist: f_out of fluid cells, f_in arriving
     from fluid cells. *)
  Definition readable (x : cell L) (a : pacc) : Prop :=
    match a with
    | FOut o j => j < length St /\ length o = ldim L /\ fluid (shift x o) = true
    | FIn o j => j < length St /\ length o = ldim L /\
                 fluid (shift (shift x o) (vneg (dir j))) = true
    end.

  (* the links of a geometry: fluid cell x whose neighbour in direction i is not fluid *)
  Definition is_link (l : link L) : Prop :=
    fluid (fst l) = true /\ snd l < length St /\ fluid (shift (fst l) (dir (snd l))) = false.
End Ref.

Arguments post {L V}.
Arguments readable {L}.
Arguments is_link {L}.

(* ----- no boundaries: plain stream-and-collide on any lattice ----- *)
Section Plain.
  Context (L : lattice) (V : Type) (v0 : V) (St : stencil).
  Context (C : nat -> cell L -> list V -> list V).

  Fixpoint stream_collide (f0 : cell L -> list V) (n : nat) : cell L -> list V :=
    match n with
    | O => f0
    | S n' => fun x =>
        C n' x (map (fun j => nth j (stream_collide f0 n' (shift x (vneg (nth j St [])))) v0)
                    (seq 0 (length St)))
    end.
End Plain.
Arguments stream_collide {L V}.

(* the slot of the pdf array an access addresses from cell x *)
Definition slot {L : lattice} (x : cell L) (a : access) : cell L * nat := (shift x (off a), idx a).

(* [s'] results from updating all cells satisfying P simultaneously: all loads see the old
   source field; the listed slots get the collided values; all other slots of the written field keep
   their contents. *)
Definition simultaneous_update (L : lattice) (V : Type) (p : pattern) (t : timestep) (S : stencil)
    (P : cell L -> Prop) (C : cell L -> list V -> list V) (s s' : state L V) : Prop :=
  exists rs ws, reads_of p t S = Ok rs /\ writes_of p t S = Ok ws /\
    (forall x i a, P x -> nth_error ws i = Some a ->
       nth_error (C x (load L V (src s) x rs)) i = Some (src s' (fst (slot x a)) (snd (slot x a)))) /\
    (forall c k, (forall x a, P x -> In a ws -> slot x a <> (c, k)) ->
       src s' c k = (if is_inplace p then src s else tmp s) c k) /\
    (forall c k, tmp s' c k = (if is_inplace p then tmp s else src s) c k).
