(* Model of src/lbmpy/boundaries/boundaries_in_kernel.py: update kernels which apply the boundary conditions
   of the six (four) faces of the domain themselves, in the cells next to the ghost layer. *)
From Coq Require Import String List ZArith Bool Arith.
From Verif Require Import StencilModel AccessModel StreamModel GridModel.
Import ListNotations.
Local Open Scope Z_scope.

(* boundaries_in_kernel.py:15-20 direction_indices_in_direction *)
Definition same_component (d o : Z) : bool := ((d =? 1) && (o =? 1)) || ((d =? -1) && (o =? -1)).
Definition in_direction (direction offset : vec) : bool :=
  existsb (fun e => same_component (fst e) (snd e)) (combine direction offset).
Definition direction_indices_in_direction (direction : vec) (S : stencil) : list nat :=
  map fst (filter (fun e => in_direction direction (snd e)) (enum S)).

(* boundaries_in_kernel.py:38-41: the axis a face is orthogonal to *)
Definition face_axis (direction : vec) : res nat :=
  if fold_right Z.add 0 (map Z.abs direction) =? 1
  then match index_of [1] (map (fun e => [Z.abs e]) direction) with Some k => Ok k | None => Err ValueError end
  else Err AssertionError.

(* boundaries_in_kernel.py:37-57 border_conditions, evaluated at the loop counters [x]; [shape]: extent of the
   field including ghost layers *)
Definition border_conditions (direction : vec) (shape : list Z) (ghost_layers : Z) (x : vec) : res bool :=
  rbind (face_axis direction) (fun k =>
    let gl := ghost_layers in
    let border := nth k x 0 =? (if nth k direction 0 <? 0 then gl else nth k shape 0 - gl - 1) in
    let others := filter (fun i => negb (Nat.eqb i k)) (seq 0 (List.length direction)) in
    Ok (if gl =? 0 then border
        else border && forallb (fun i => gl <=? nth i x 0) others
                    && forallb (fun i => nth i x 0 <? nth i shape 0 - gl) others)).

Section Kernel.
  (* the array: all cells including ghost layers.  Relative accesses which leave the array wrap around here;
     kernels run on the inner cells, whose accesses stay inside. *)
  Context (N : list positive) (V : Type).
  Notation L := (torus N).

  (* boundaries_in_kernel.py:72-75: f_out(j) of the cell itself is replaced by the post-collision symbol (a
     population addressed through inv_dir[.] is instead read back from the slot it has just been
     stored to: the same value), every other proxy access by the pdf access *)
  Definition in_kernel_read (S : stencil) (outs ins : list access) (m : mem L V) (x : cell L) (f : list V) (a : pacc) : res V :=
    let from_memory := rbind (resolve outs ins a) (fun b => Ok (m (shift x (off b)) (idx b))) in
    match a with
    | FOut o j => if vec_eqb o (vzero (dimD S))
                  then match nth_error f j with Some v => Ok v | None => Err IndexError end
                  else from_memory
    | FIn _ _ => from_memory
    end.

  (* boundaries_in_kernel.py:69-78: the assignment to f_in(inv_dir[i]); a boundary class used here has no index
     array, so its rule depends on the direction only (BoundModel.v) *)
  Definition in_kernel_link (S : stencil) (outs ins : list access) (rule : nat -> brule V) (x : cell L) (f : list V)
      (m : mem L V) (i : nat) : res (mem L V) :=
    rbind (mapM (in_kernel_read S outs ins m x f) (b_reads (rule i))) (fun vs =>
    match nth_error S i with
    | None => Err IndexError
    | Some d =>
      rbind (st_inverse_index S d) (fun k =>
      rbind (resolve outs ins (FIn (vzero (dimD S)) k)) (fun w =>
        Ok (upd L V m (shift x (off w)) (idx w) (b_fun (rule i) vs))))
    end).

  (* boundary_spec: an ordered dictionary from face directions to boundary objects *)
  Definition side := (vec * (nat -> brule V))%type.

  (* boundaries_in_kernel.py:60-84 boundary_conditional, executed at cell x *)
  Definition boundary_conditional (S : stencil) (outs ins : list access) (x : cell L) (f : list V)
      (m : mem L V) (b : side) : res (mem L V) :=
    rbind (border_conditions (fst b) (map Zpos N) 1 (proj1_sig x)) (fun c =>
      if c then foldM (in_kernel_link S outs ins (snd b) x f) (direction_indices_in_direction (fst b) S) m
      else Ok m).

  (* boundaries_in_kernel.py:87-100 update_rule_with_push_boundaries: loads, collision [C x], stores and then one
     conditional block per face, all on the one field; executed for the cells [xs] one after another.
     Simplified: errors are raised per cell, not once during code generation. *)
  Definition kernel_with_boundaries (p : pattern) (t : timestep) (S : stencil) (spec : list side) (xs : list (cell L))
      (C : cell L -> list V -> list V) (m : mem L V) : res (mem L V) :=
    rbind (get_accessor p t) (fun a =>
    rbind (acc_read a S) (fun rs =>
    rbind (acc_write a S) (fun ws =>
    rbind (between_timesteps p t S) (fun oi =>
      foldM (fun m x =>
        let f := C x (load L V m x rs) in
        foldM (boundary_conditional S (fst oi) (snd oi) x f) spec (store L V m x ws f)) xs m)))).

  (* repeated calls, time steps numbered from [prev] on *)
  Fixpoint run_with_boundaries (p : pattern) (S : stencil) (spec : list side) (xs : nat -> list (cell L))
      (C : nat -> cell L -> list V -> list V) (n : nat) (pm : timestep * mem L V) : res (timestep * mem L V) :=
    match n with
    | O => Ok pm
    | Datatypes.S n' => rbind (run_with_boundaries p S spec xs C n' pm) (fun qm =>
              rbind (kernel_with_boundaries p (ts_next (fst qm)) S spec (xs n') (C n') (snd qm)) (fun m =>
                Ok (ts_next (fst qm), m)))
    end.
End Kernel.
