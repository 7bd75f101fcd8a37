(* Model of src/lbmpy/sparse/mapping.py:13-154 (SparseLbMapper) and src/lbmpy/sparse/update_rule_sparse.py:23-56, 94-102.
   Coordinates are lists of Z; np.uint32 arithmetic that leaves the array is an IndexError of the flag lookup
   (numpy 2 raises OverflowError in the conversion already). *)
From Coq Require Import List ZArith Bool Arith.
From Verif Require Import StencilModel.
Import ListNotations.
Local Open Scope Z_scope.

Definition coord := list Z.
(* comparison of structured arrays: lexicographic *)
Fixpoint coord_leb (a b : coord) : bool :=
  match a, b with
  | [], _ => true
  | _, [] => false
  | x :: a, y :: b => if x <? y then true else if y <? x then false else coord_leb a b
  end.
Definition coord_eqb (a b : coord) : bool := if list_eq_dec Z.eq_dec a b then true else false.
Definition coord_ltb (a b : coord) : bool := coord_leb a b && negb (coord_eqb a b).

(* all coordinates of an array of this shape, C order (np.argwhere) *)
Fixpoint all_cells (shape : list nat) : list coord :=
  match shape with
  | [] => [[]]
  | n :: shape => flat_map (fun x => map (cons (Z.of_nat x)) (all_cells shape)) (seq 0 n)
  end.

(* np.argsort on (index, coordinate) pairs; simplification: stable (equal coordinates are rejected by the lookup) *)
Fixpoint insert_sorted (p : nat * coord) (l : list (nat * coord)) : list (nat * coord) :=
  match l with
  | [] => [p]
  | q :: l => if coord_leb (snd p) (snd q) then p :: q :: l else q :: insert_sorted p l
  end.
Definition argsort (l : list coord) : list nat := map fst (fold_right insert_sorted [] (combine (seq 0 (length l)) l)).
(* np.searchsorted(arr, c, sorter=..., side): position in the sorted order before / after all equal entries *)
Definition search_left (l : list coord) (c : coord) : nat := length (filter (fun x => coord_ltb x c) l).
Definition search_right (l : list coord) (c : coord) : nat := length (filter (fun x => coord_leb x c) l).

Section Mapper.
  Variables (S : stencil) (shape : list nat) (flags : coord -> Z) (fluid_flag no_slip_flag other_mask : Z).

  Definition has_flag (mask : Z) (c : coord) : bool := negb (Z.land (flags c) mask =? 0).
  (* flag_arr[tuple(c)] raises IndexError outside *)
  Definition in_array (c : coord) : bool :=
    (length c =? length shape)%nat && forallb (fun p => (0 <=? fst p) && (fst p <? Z.of_nat (snd p))) (combine c shape).
  (* mapping.py:87-104 *)
  Definition fluid_coordinates : list coord := filter (has_flag fluid_flag) (all_cells shape).
  Definition boundary_coordinates : list coord := filter (has_flag other_mask) (all_cells shape).
  Definition coordinates : list coord := fluid_coordinates ++ boundary_coordinates.
  Definition num_cells : nat := length coordinates.
  (* 51-61 *)
  Definition cell_idx (c : coord) : res nat :=
    let left := search_left coordinates c in let right := search_right coordinates c in
    if negb (left + 1 =? right)%nat then Err IndexError
    else match nth_error (argsort coordinates) left with Some i => Ok i | None => Err IndexError end.
  (* 63-68; index -1 is the last entry *)
  Definition cell_idx_bulk (c : coord) : res nat :=
    let left := search_left coordinates c in let right := search_right coordinates c in
    let pos := if (left + 1 =? right)%nat then left else (length (argsort coordinates) - 1)%nat in
    match nth_error (argsort coordinates) pos with Some i => Ok i | None => Err IndexError end.

  (* 110-111 *)
  Definition pdf_index (cell dir : nat) : nat := (cell + dir * num_cells)%nat.
  (* 113-114 *)
  Definition inverse_idx (i : nat) : res nat :=
    match index_of (vneg (nth i S [])) S with Some k => Ok k | None => Err ValueError end.
  (* 136-143: (at_border, coordinate) *)
  Definition wrap_coordinate (g : nat) (n : nat) (x : Z) : bool * Z :=
    if x =? Z.of_nat g - 1 then (true, x + (Z.of_nat n - 2 * Z.of_nat g))
    else if x =? Z.of_nat n - Z.of_nat g then (true, x - (Z.of_nat n - 2 * Z.of_nat g))
    else (false, x).
  Definition wrap (g : nat) (c : coord) : bool * coord :=
    let ws := map (fun p => wrap_coordinate g (snd p) (fst p)) (combine c shape) in
    (existsb fst ws, map snd ws).
  (* 126-149, one cell and direction *)
  Definition pull_index (g : nat) (dir_idx : nat) (direction : vec) (own_cell_idx : nat) (cell : coord) : res nat :=
    let inv_neighbor := vadd cell (vneg direction) in
    if negb (in_array inv_neighbor) then Err IndexError
    else if has_flag (Z.lor other_mask fluid_flag) inv_neighbor
    then rbind (cell_idx inv_neighbor) (fun n => Ok (pdf_index n dir_idx))
    else if has_flag no_slip_flag inv_neighbor
    then rbind (inverse_idx dir_idx) (fun k => Ok (pdf_index own_cell_idx k))
    else let '(at_border, z) := wrap g inv_neighbor in
      if at_border
      then if negb (in_array z) then Err IndexError
           else if has_flag (Z.lor other_mask fluid_flag) z then rbind (cell_idx z) (fun n => Ok (pdf_index n dir_idx)) else Err AssertionError
      else Err ValueError.
  (* 121-125 and the inner loop *)
  Definition direction_indices (g : nat) (p : nat * vec) : res (list nat) :=
    if forallb (Z.eqb 0) (snd p)
    then if (fst p =? 0)%nat then Ok [] else Err AssertionError
    else mapM (fun q => pull_index g (fst p) (snd p) (fst q) (snd q)) (combine (seq 0 (length fluid_coordinates)) fluid_coordinates).
  (* 106-154; result (as a function): reshape to [Q-1, num_fluid] and swap axes, entry (n, j) is result[j * num_fluid + n] *)
  Definition create_index_array (g : nat) : res (nat -> nat -> nat) :=
    rbind (mapM (direction_indices g) (combine (seq 0 (length S)) S)) (fun rows =>
    let result := concat rows in
    if negb (length result =? (length S - 1) * length fluid_coordinates)%nat then Err ValueError
    else Ok (fun n j => nth (j * length fluid_coordinates + n) result 0%nat)).

  (* ---- update_rule_sparse.py:8-20: strides of a list with one cell dimension and one value dimension
     (pystencils compute_strides: the layout lists dimensions from slowest to fastest) ---- *)
  Inductive list_layout := AoS | SoA.
  Definition list_strides (l : list_layout) : nat * nat :=
    match l with AoS => (length S, 1%nat) | SoA => (1%nat, num_cells) end.
  (* src(i) in cell n *)
  Definition list_access (l : list_layout) (n i : nat) : nat := (n * fst (list_strides l) + i * snd (list_strides l))%nat.
  (* src.absolute_access((k,), ()) *)
  Definition absolute_access (l : list_layout) (k : nat) : nat := (k * fst (list_strides l))%nat.
  (* update_rule_sparse.py:23-56, 94-102: the populations list cell n starts from; src is the flat array behind the list *)
  Definition pre_collision {V : Type} (l : list_layout) (idx : nat -> nat -> nat) (src : nat -> V) (n : nat) : list V :=
    map (fun i => if (i =? 0)%nat then src (list_access l n 0) else src (absolute_access l (idx n (i - 1)%nat))) (seq 0 (length S)).
  Inductive sparse_kernel := SStreamPullCollide | SCollideOnly | SStreamPullOnly.
  (* values written to cell n: to dst, except collide_only which writes to src *)
  Definition sparse_update {V : Type} (l : list_layout) (k : sparse_kernel) (collide : list V -> list V) (idx : nat -> nat -> nat) (src : nat -> V) (n : nat) : list V :=
    match k with
    | SStreamPullOnly => pre_collision l idx src n
    | SStreamPullCollide | SCollideOnly => collide (pre_collision l idx src n)
    end.
End Mapper.
