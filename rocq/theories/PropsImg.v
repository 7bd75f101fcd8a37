(* C78: add_black_and_white_image turns the dark pixels of an upright image into boundary cells. *)
From Coq Require Import List Bool Arith Lia.
From Verif Require Import ImgModel ImgSpec ImgProofs.
Import ListNotations.

(* The cells set do not depend on how the domain is divided into blocks. *)
Theorem C78_blocks : forall dim img keep plane s block block' p, fst plane < snd plane -> snd plane < dim -> in_slices dim s p -> in_slices dim block p -> in_slices dim block' p ->
  callback dim img keep plane s block (relative block p) = callback dim img keep plane s block' (relative block' p).
Proof. intros dim img keep plane s block block' p H1 H2 Hs Hb Hb'. rewrite !callback_ok by (assumption || lia). reflexivity. Qed.
Print Assumptions C78_blocks.

(* The image is extruded along all other axes. *)
Theorem C78_extruded : forall dim img keep plane s block p q, fst plane < snd plane -> snd plane < dim -> in_slices dim s p -> in_slices dim block p -> in_slices dim s q -> in_slices dim block q ->
  p (fst plane) = q (fst plane) -> p (snd plane) = q (snd plane) ->
  callback dim img keep plane s block (relative block p) = callback dim img keep plane s block (relative block q).
Proof. intros dim img keep plane s block p q H1 H2 Hs Hb Hs' Hb' E1 E2. rewrite !callback_ok by (assumption || lia). now rewrite E1, E2. Qed.
Print Assumptions C78_extruded.

(* An image of the size of the region is copied pixel by pixel: columns to the right, rows from the top. *)
Theorem C78_exact : forall dim img plane s block p row col, fst plane < snd plane -> snd plane < dim -> in_slices dim s p -> in_slices dim block p ->
  size s (fst plane) = cols img -> size s (snd plane) = rows img -> row < rows img -> col < cols img ->
  p (fst plane) = fst (s (fst plane)) + col -> p (snd plane) = fst (s (snd plane)) + (rows img - 1 - row) ->
  callback dim img false plane s block (relative block p) = Some (dark img row col).
Proof.
  intros dim img plane s block p row col H1 H2 Hs Hb E0 E1 Hr Hc P0 P1. change size with extent in *. rewrite callback_ok by (assumption || lia). rewrite E0, E1, P0, P1, resized_full by lia. f_equal. f_equal; rewrite nearest_id by lia; lia.
Qed.
Print Assumptions C78_exact.

(* Every other image is stretched over the whole region. *)
Theorem C78_stretched : forall dim img plane s block, fst plane < snd plane -> snd plane < dim -> 0 < rows img -> 0 < cols img ->
  exists f g, spreads f (cols img) (size s (fst plane)) /\ spreads g (rows img) (size s (snd plane)) /\
  forall p, in_slices dim s p -> in_slices dim block p ->
    callback dim img false plane s block (relative block p) = Some (dark img (rows img - 1 - g (p (snd plane) - fst (s (snd plane)))) (f (p (fst plane) - fst (s (fst plane))))).
Proof.
  intros dim img plane s block H1 H2 Hr Hc. change size with extent. exists (nearest (cols img) (extent s (fst plane))), (nearest (rows img) (extent s (snd plane))). split; [now apply nearest_spreads|]. split; [now apply nearest_spreads|].
  intros p Hs Hb. rewrite callback_ok by (assumption || lia). pose proof (Hs (fst plane) ltac:(lia)). pose proof (Hs (snd plane) ltac:(lia)). rewrite resized_full by (unfold extent; lia). reflexivity.
Qed.
Print Assumptions C78_stretched.

(* With keep_aspect_ratio the image is as large as possible, keeps its proportions, lies in the middle, and no cell beside it is set. *)
Theorem C78_aspect_ratio : forall dim img plane s block, fst plane < snd plane -> snd plane < dim -> 0 < rows img -> 0 < cols img ->
  exists width height left bottom f g,
  (width = size s (fst plane) /\ same_ratio height width (rows img) (cols img) \/ height = size s (snd plane) /\ same_ratio width height (cols img) (rows img)) /\
  centered left width (size s (fst plane)) /\ centered bottom height (size s (snd plane)) /\ spreads f (cols img) width /\ spreads g (rows img) height /\
  forall p, in_slices dim s p -> in_slices dim block p ->
    let x := p (fst plane) - fst (s (fst plane)) in let y := p (snd plane) - fst (s (snd plane)) in
    (left <= x < left + width /\ bottom <= y < bottom + height -> callback dim img true plane s block (relative block p) = Some (dark img (rows img - 1 - g (y - bottom)) (f (x - left)))) /\
    (~ (left <= x < left + width /\ bottom <= y < bottom + height) -> callback dim img true plane s block (relative block p) = Some false).
Proof.
  intros dim img plane s block H1 H2 Hr Hc. change size with extent. set (t0 := extent s (fst plane)). set (t1 := extent s (snd plane)). set (z := zoomed_shape img (t0, t1) true).
  destruct (shape_le img t0 t1 true Hr Hc) as [L0 L1]. fold z in L0, L1.
  exists (fst z), (snd z), ((t0 - fst z) / 2), ((t1 - snd z) / 2), (nearest (cols img) (fst z)), (nearest (rows img) (snd z)).
  split; [|split; [now apply half_centered|split; [now apply half_centered|split; [now apply nearest_spreads|split; [now apply nearest_spreads|]]]]].
  - unfold z, zoomed_shape. destruct (t0 * rows img <=? t1 * cols img); cbn [fst snd]; [left|right]; (split; [reflexivity|]).
    + destruct (round_div_near (rows img * t0) (cols img) Hc). unfold same_ratio. split; lia.
    + destruct (round_div_near (cols img * t1) (rows img) Hr). unfold same_ratio. split; lia.
  - intros p Hs Hb x y. rewrite callback_ok by (assumption || lia). fold t0. fold t1. fold x. fold y. destruct (resized_keep img t0 t1 x y) as [A B]. fold z in A, B. split; intros Q; f_equal; [now apply A|now apply B].
Qed.
Print Assumptions C78_aspect_ratio.

(* No cell beside the region is set, also in blocks which reach over its border. *)
Theorem C78_outside : forall dim img keep plane s block p a, fst plane < snd plane -> snd plane < dim -> a = fst plane \/ a = snd plane -> in_slices dim block p -> ~ (fst (s a) <= p a < snd (s a)) ->
  callback dim img keep plane s block (relative block p) = Some false.
Proof. exact callback_outside. Qed.
Print Assumptions C78_outside.

(* The docstring says "where image is black": almost white pixels are set as well, only pure white is not. *)
Theorem C78_black_refuted : forall dim img plane s block p row col, fst plane < snd plane -> snd plane < dim -> in_slices dim s p -> in_slices dim block p ->
  size s (fst plane) = cols img -> size s (snd plane) = rows img -> row < rows img -> col < cols img ->
  p (fst plane) = fst (s (fst plane)) + col -> p (snd plane) = fst (s (snd plane)) + (rows img - 1 - row) -> gray img row col = 254 ->
  callback dim img false plane s block (relative block p) = Some true.
Proof. intros dim img plane s block p row col H1 H2 Hs Hb E0 E1 Hr Hc P0 P1 G. rewrite (C78_exact dim img plane s block p row col) by assumption. unfold dark. now rewrite G. Qed.
Print Assumptions C78_black_refuted.

(* The order of the axes in [plane] has no effect on a square region: (1, 0) does not exchange the axes of the image. *)
Theorem C78_plane_order_refuted : forall dim img keep a b s block cell, size s a = size s b ->
  callback dim img keep (b, a) s block cell = callback dim img keep (a, b) s block cell.
Proof. intros dim img keep a b s block cell E. change size with extent in E. unfold callback. cbn [fst snd]. rewrite E, (Nat.min_comm b a), (Nat.max_comm b a). reflexivity. Qed.
Print Assumptions C78_plane_order_refuted.

(* On other regions it ends in a ValueError, here 4 cells in x and 2 in y. *)
Theorem C78_plane_shape_refuted : forall img keep (cell : nat -> nat), let s := fun k => match k with 0 => (0, 4) | _ => (0, 2) end in
  callback 2 img keep (1, 0) s s cell = None.
Proof. reflexivity. Qed.
Print Assumptions C78_plane_shape_refuted.

(* Two pixels wide, one high, the left one black, in the plane of x and z of a domain with three axes: only the cells with x = 3 are set in the region x from 3 to 4. *)
Example C78_example : let img := Image 1 2 (fun _ c => if c =? 0 then 0 else 255) in let s := fun k => match k with 0 => (3, 5) | 1 => (0, 7) | _ => (1, 2) end in
  let block := fun k => match k with 0 => (2, 6) | _ => (0, 4) end in let p := fun k => match k with 0 => 3 | 1 => 2 | _ => 1 end in
  in_slices 3 s p /\ in_slices 3 block p /\ size s 0 = cols img /\ size s 2 = rows img /\ callback 3 img false (0, 2) s block (relative block p) = Some true /\
  callback 3 img false (0, 2) s block (relative block (fun k => match k with 0 => 4 | 1 => 2 | _ => 1 end)) = Some false.
Proof.
  intros img s block p. repeat split; try reflexivity; destruct k as [|[|[|k]]]; cbn; lia.
Qed.
