(* Model of add_black_and_white_image, geometry.py:193-261: which cells become boundary cells.
   Slices and blocks of cells are given by a start and a stop for each axis, an image by its gray values.
   scipy.ndimage.zoom of order 0 takes the nearest pixel, after its documentation; exact numbers instead of floats, halves are rounded up. *)
From Coq Require Import List Bool Arith.
Import ListNotations.

(* gray values by row (from the top) and column *)
Record image := Image { rows : nat; cols : nat; gray : nat -> nat -> nat }.
Definition slices := nat -> nat * nat.
Definition extent (s : slices) (axis : nat) : nat := snd (s axis) - fst (s axis).

(* np.rot90(img_arr, 3), geometry.py:224: entry (i, j) with i < cols and j < rows *)
Definition rotated (img : image) (i j : nat) : nat := gray img (rows img - 1 - j) i.

(* a / b rounded to the nearest number *)
Definition round_div (a b : nat) : nat := (2 * a + b) / (2 * b).
(* zoom, geometry.py:226-229: number of entries along each axis, and the entry of the original array for entry o of m entries *)
Definition zoomed_shape (img : image) (target_size : nat * nat) (keep_aspect_ratio : bool) : nat * nat :=
  let '(t0, t1) := target_size in
  if keep_aspect_ratio then
    if t0 * rows img <=? t1 * cols img then (t0, round_div (rows img * t0) (cols img)) else (round_div (cols img * t1) (rows img), t1)
  else (t0, t1).
Definition nearest (n m o : nat) : nat := if m <=? 1 then 0 else round_div (o * (n - 1)) (m - 1).
(* binarize, geometry.py:232-234 *)
Definition binarized (img : image) (shape : nat * nat) (i j : nat) : bool :=
  rotated img (nearest (cols img) (fst shape) i) (nearest (rows img) (snd shape) j) <=? 254.
(* resize, geometry.py:237-241: the shape, a tuple, always differs from the target size, a list *)
Definition resized (img : image) (target_size : nat * nat) (keep_aspect_ratio : bool) (i j : nat) : bool :=
  let shape := zoomed_shape img target_size keep_aspect_ratio in
  let mid0 := (fst target_size - fst shape) / 2 in
  let mid1 := (snd target_size - snd shape) / 2 in
  if (mid0 <=? i) && (i <? fst shape + mid0) && (mid1 <=? j) && (j <? snd shape + mid1) then binarized img shape (i - mid0) (j - mid1) else false.

(* slice_intersection of pystencils; None: some axis has no common cell *)
Definition slice_intersection (dim : nat) (s t : slices) : option slices :=
  let r := fun k => (Nat.max (fst (s k)) (fst (t k)), Nat.min (snd (s k)) (snd (t k))) in
  if forallb (fun k => fst (r k) <? snd (r k)) (seq 0 dim) then Some r else None.

(* callback, geometry.py:243-258: for a block of cells, the value of the mask at a cell, given relative to the block.
   [axis0] and [axis1] are the axes of the plane in increasing order: lines 255-256 go through the axes, not through the plane.
   None: ValueError, the part of the image has not the shape of the part of the mask.
   Simplification: numpy would repeat a part of length 1. *)
Definition callback (dim : nat) (img : image) (keep_aspect_ratio : bool) (plane : nat * nat) (image_slice block : slices) (cell : nat -> nat) : option bool :=
  let target_size := (extent image_slice (fst plane), extent image_slice (snd plane)) in
  let zoomed_image := resized img target_size keep_aspect_ratio in
  match slice_intersection dim block image_slice with
  | None => Some false
  | Some r =>
      let axis0 := Nat.min (fst plane) (snd plane) in
      let axis1 := Nat.max (fst plane) (snd plane) in
      let fits a n := snd (r a) - fst (image_slice a) <=? n in
      let inside a := (fst (r a) - fst (block a) <=? cell a) && (cell a <? snd (r a) - fst (block a)) in
      let index a := fst (r a) - fst (image_slice a) + (cell a - (fst (r a) - fst (block a))) in
      if fits axis0 (fst target_size) && fits axis1 (snd target_size) then
        Some (if inside axis0 && inside axis1 then zoomed_image (index axis0) (index axis1) else false)
      else None
  end.
