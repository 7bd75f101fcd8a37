(* Model of src/lbmpy/advanced_streaming/communication.py: periodic ghost layer exchange on a
   ghost-layered numpy array. *)
From Coq Require Import String List ZArith Bool Arith.
From Verif Require Import StencilModel AccessModel StreamModel GridModel.
Import ListNotations.
Local Open Scope Z_scope.

(* one entry of a slicing tuple: an integer or slice(start, stop) *)
Inductive sl := SInt (i : Z) | SRange (start stop : Z).

(* pystencils.slicing.get_slice_before_ghost_layer with thickness 1 and ghost_layers >= 1, one component
   (outside /repo, assumed) *)
Definition slice_before_ghost_layer (gl d : Z) : res sl :=
  if d =? -1 then Ok (SRange gl (1 + gl))
  else if d =? 0 then Ok (SRange gl (- gl))
  else if d =? 1 then Ok (SRange (- 1 - gl) (- gl))
  else Err ValueError.

(* pystencils.slicing.shift_slice, one component (outside /repo, assumed) *)
Definition shift_sl (s : sl) (o : Z) : sl :=
  match s with SInt i => SInt (i + o) | SRange a b => SRange (a + o) (b + o) end.
Definition shift_slice (s : list sl) (o : vec) : list sl := map (fun p => shift_sl (fst p) (snd p)) (combine s o).

(* communication.py:250-262 (stop is never None here) *)
Definition fix_length_one (s : sl) : sl :=
  match s with
  | SInt i => SInt i
  | SRange a b => if Z.abs (a - b) =? 1 then SInt a else SRange a b
  end.

(* communication.py:265-277 *)
Definition trim_sl (s : sl) (d : Z) : sl :=
  match s with
  | SInt i => SInt i
  | SRange a b => SRange (if d =? -1 then a + 1 else a) (if d =? 1 then b - 1 else b)
  end.
Definition trim_slice_in_direction (s : list sl) (d : vec) : res (list sl) :=
  if Nat.eqb (length s) (length d)
  then Ok (map (fun p => trim_sl (fst p) (snd p)) (combine s d))
  else Err AssertionError.

(* communication.py:234-243 *)
Fixpoint extend_dir (c : vec) : list vec :=
  match c with
  | [] => [[]]
  | d :: c' => if d =? 0
               then flat_map (fun e => map (cons e) (extend_dir c')) [-1; 0; 1]
               else map (cons d) (extend_dir c')
  end.

(* communication.py:70, 142: itertools.product of dim copies of [-1, 0, 1] *)
Fixpoint full_stencil (D : nat) : list vec :=
  match D with
  | O => [[]]
  | S D' => flat_map (fun e => map (cons e) (full_stencil D')) [-1; 0; 1]
  end.

(* communication.py:246-247 *)
Definition neighbour_transform (c : vec) (gl : Z) : vec := map (fun d => d * (gl + 1)) c.

(* source slice, destination slice, pdf index: arr[dst + (q,)] = arr[src + (q,)] *)
Record copy_op := { cp_src : list sl; cp_dst : list sl; cp_idx : nat }.

(* communication.py:156-180, one streaming direction *)
Definition slices_for (p : pattern) (S : stencil) (ws : list access) (gl : Z) (c s : vec) : res copy_op :=
  rbind (st_index S s) (fun d =>
  match nth_error ws d with
  | None => Err IndexError
  | Some a =>
      rbind (mapM (slice_before_ghost_layer gl) c) (fun origin =>
      let src0 := map fix_length_one origin in
      let tangential := map (fun q => fst q - snd q) (combine s c) in
      rbind (match p with
             | PULL => Ok src0
             | _ => rbind (trim_slice_in_direction src0 tangential) (fun t => Ok (shift_slice t (off a)))
             end) (fun src =>
        Ok {| cp_src := src; cp_dst := shift_slice src (neighbour_transform c gl); cp_idx := idx a |}))
  end).

(* communication.py:150-183.  The iteration order of [set(_extend_dir(c)) & set(stencil)] is
   unspecified: [order c] is an arbitrary rearrangement of it. *)
Definition streaming_dirs (S : stencil) (c : vec) : list vec :=
  filter (fun s => existsb (vec_eqb s) S) (extend_dir c).

Definition get_communication_slices (order : vec -> list vec -> list vec) (p : pattern) (S : stencil)
    (comm_stencil : list vec) (prev : timestep) (gl : Z) : res (list copy_op) :=
  rbind (writes_of p prev S) (fun ws =>
  rbind (mapM (fun c => mapM (slices_for p S ws gl c) (order c (streaming_dirs S c)))
              (filter (fun c => negb (forallb (Z.eqb 0) c)) comm_stencil)) (fun ls =>
    Ok (concat ls))).

(* communication.py:61-68 *)
Definition is_copy_direction (per : list bool) (c : vec) : bool :=
  forallb (fun q => (fst q =? 0) || snd q) (combine c per) &&
  negb (fold_left (fun s q => s + Z.abs (fst q)) (combine c per) 0 =? 0).

(* communication.py:70-84 *)
Definition comm_tables (order : vec -> list vec -> list vec) (p : pattern) (S : stencil)
    (per : list bool) (gl : Z) : res (list (list copy_op)) :=
  let copy_directions := filter (is_copy_direction per) (full_stencil (dimD S)) in
  mapM (fun t => get_communication_slices order p S copy_directions t gl) (get_timesteps p).

(* ---- the array ---- *)
Definition zlat (D : nat) : lattice := grid (repeat None D).

Definition origin (D : nat) : cell (zlat D).
Proof.
  exists (repeat 0 D). induction D as [|D IH]; [reflexivity|exact IH].
Defined.
(* the array element with coordinates x *)
Definition pos (D : nat) (x : vec) : cell (zlat D) := @shift (zlat D) (origin D) x.

Definition zrange (a b : Z) : list Z := map (fun k => a + Z.of_nat k) (seq 0 (Z.to_nat (b - a))).

(* numpy basic indexing along an axis of length M *)
Definition norm_index (M i : Z) : Z := if i <? 0 then i + M else i.
Definition clip (M i : Z) : Z := Z.max 0 (Z.min M (norm_index M i)).
Definition axis_positions (M : Z) (s : sl) : res (list Z) :=
  match s with
  | SInt i => if (- M <=? i) && (i <? M) then Ok [norm_index M i] else Err IndexError
  | SRange a b => Ok (zrange (clip M a) (clip M b))
  end.

Fixpoint pairs_prod (l : list (list (Z * Z))) : list (vec * vec) :=
  match l with
  | [] => [([], [])]
  | ps :: l' => flat_map (fun ab => map (fun r => (fst ab :: fst r, snd ab :: snd r)) (pairs_prod l')) ps
  end.

Definition copy_pairs (shape : list Z) (o : copy_op) : res (list (vec * vec)) :=
  if Nat.eqb (length (cp_src o)) (length shape) && Nat.eqb (length (cp_dst o)) (length shape) then
    rbind (mapM (fun q => axis_positions (fst q) (snd q)) (combine shape (cp_src o))) (fun sp =>
    rbind (mapM (fun q => axis_positions (fst q) (snd q)) (combine shape (cp_dst o))) (fun dp =>
      if forallb (fun q => Nat.eqb (length (fst q)) (length (snd q))) (combine sp dp)
      then Ok (pairs_prod (map (fun q => combine (fst q) (snd q)) (combine sp dp)))
      else Err ValueError))     (* numpy broadcasting of length-one axes is not modelled: error *)
  else Err IndexError.

Section Arr.
  Context (D : nat) (V : Type).
  Notation arr := (mem (zlat D) V).

  (* communication.py:101: arr[dst] = arr[src] (numpy behaves as if the right-hand side were copied
     first) *)
  Definition exec_copy (shape : list Z) (m : arr) (o : copy_op) : res arr :=
    rbind (copy_pairs shape o) (fun l =>
      Ok (fold_left (fun m' ab => upd (zlat D) V m' (pos D (snd ab)) (cp_idx o) (m (pos D (fst ab)) (cp_idx o))) l m)).

  (* communication.py:91-101 *)
  Definition periodicity_handling (order : vec -> list vec -> list vec) (p : pattern) (S : stencil)
      (N : list Z) (per : list bool) (gl : Z) (prev : timestep) (m : arr) : res arr :=
    rbind (comm_tables order p S per gl) (fun tabs =>
    match nth_error tabs (ts_idx prev) with
    | None => Err IndexError
    | Some ops => foldM (exec_copy (map (fun n => n + 2 * gl) N)) ops m
    end).

  (* the cells a kernel loops over: all but the ghost layers *)
  Definition interior_cells (N : list Z) (gl : Z) : list (cell (zlat D)) :=
    map (pos D) (box_raw (map (fun _ => gl) N) (map (fun n => n + gl) N)).

  (* n time steps of (periodic exchange, kernel over the interior), lbstep.py:349-357 order
     sync / kernel / sync / kernel ... *)
  Fixpoint run_periodic (order : vec -> list vec -> list vec) (p : pattern) (S : stencil) (N : list Z) (gl : Z)
      (xs : nat -> list (cell (zlat D))) (C : nat -> cell (zlat D) -> list V -> list V)
      (n : nat) (ps : timestep * state (zlat D) V) : res (timestep * state (zlat D) V) :=
    match n with
    | O => Ok ps
    | Datatypes.S n' =>
        rbind (run_periodic order p S N gl xs C n' ps) (fun ps =>
        rbind (periodicity_handling order p S N (map (fun _ => true) N) gl (fst ps) (src (snd ps))) (fun m =>
        rbind (update (zlat D) V p (ts_next (fst ps)) S (xs n') (C n')
                 {| src := m; tmp := tmp (snd ps) |}) (fun s =>
          Ok (ts_next (fst ps), s))))
    end.

  Definition simulate_periodic (order : vec -> list vec -> list vec) (p : pattern) (t0 : timestep) (S : stencil)
      (N : list Z) (gl : Z) (xs0 : list (cell (zlat D))) (xs : nat -> list (cell (zlat D)))
      (C : nat -> cell (zlat D) -> list V -> list V) (f0 : cell (zlat D) -> list V)
      (m_src m_tmp : arr) (n : nat) (x : vec) : res (list V) :=
    rbind (setter (zlat D) V p t0 S false xs0 f0 m_src) (fun m =>
    rbind (run_periodic order p S N gl xs C n (t0, {| src := m; tmp := m_tmp |})) (fun ts =>
      getter (zlat D) V p (fst ts) S false (src (snd ts)) (pos D x))).
End Arr.
