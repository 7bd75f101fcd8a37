(* Model of the triple point search (src/lbmpy/phasefield/post_processing.py:9-133).
   Contour lines are given as lists of vertices: skimage.measure.find_contours is not modelled.
   Floating point numbers are real numbers extended by infinities and NaN, without rounding and with one zero (which of the two
   infinities a division by zero gives is not observable here, see find_intersections: both end in NaN). *)
From Coq Require Import List Bool Arith Reals.
Import ListNotations.
Local Open Scope R_scope.

Definition point := (R * R)%type.
Definition segment := (point * point)%type.

(* IEEE values and operations, as numpy performs them with warnings ignored (post_processing.py:21-22) *)
Inductive fl := Fin (r : R) | PInf | NInf | NaN.
Definition fneg (a : fl) : fl := match a with Fin x => Fin (- x) | PInf => NInf | NInf => PInf | NaN => NaN end.
Definition fadd (a b : fl) : fl :=
  match a, b with
  | Fin x, Fin y => Fin (x + y)
  | NaN, _ | _, NaN | PInf, NInf | NInf, PInf => NaN
  | PInf, _ | _, PInf => PInf
  | NInf, _ | _, NInf => NInf
  end.
Definition fsub (a b : fl) : fl := fadd a (fneg b).
(* an infinity times a number *)
Definition fscale (i : fl) (x : R) : fl := if Req_EM_T x 0 then NaN else if Rlt_dec 0 x then i else fneg i.
Definition fmul (a b : fl) : fl :=
  match a, b with
  | Fin x, Fin y => Fin (x * y)
  | NaN, _ | _, NaN => NaN
  | Fin x, i | i, Fin x => fscale i x
  | PInf, PInf | NInf, NInf => PInf
  | PInf, NInf | NInf, PInf => NInf
  end.
Definition fdiv (a b : fl) : fl :=
  match a, b with
  | Fin x, Fin y => if Req_EM_T y 0 then fscale PInf x else Fin (x / y)
  | NaN, _ | _, NaN => NaN
  | Fin _, _ => Fin 0
  | i, Fin y => if Rlt_dec y 0 then fneg i else i
  | _, _ => NaN
  end.
Definition flt (a b : fl) : bool :=
  match a, b with
  | Fin x, Fin y => if Rlt_dec x y then true else false
  | NaN, _ | _, NaN => false
  | NInf, NInf | PInf, PInf => false
  | NInf, _ | _, PInf => true
  | PInf, _ | _, NInf => false
  end.
Definition fle (a b : fl) : bool :=
  match a, b with
  | Fin x, Fin y => if Rle_dec x y then true else false
  | NaN, _ | _, NaN => false
  | NInf, NInf | PInf, PInf => true
  | NInf, _ | _, PInf => true
  | PInf, _ | _, NInf => false
  end.

(* get_angle, post_processing.py:9-15.  None: NaN, from the division by the norm of a zero vector.  Simplification: arccos of exact
   numbers, whose argument is never outside of [-1, 1]. *)
Definition get_angle (center p1 p2 : point) : option R :=
  let v1 := (fst p1 - fst center, snd p1 - snd center) in
  let v2 := (fst p2 - fst center, snd p2 - snd center) in
  let norm (v : point) := sqrt (fst v ^ 2 + snd v ^ 2) in
  if Req_EM_T (norm v1) 0 then None else if Req_EM_T (norm v2) 0 then None else
  let scalar_prod := fst v1 / norm v1 * (fst v2 / norm v2) + snd v1 / norm v1 * (snd v2 / norm v2) in
  Some (acos scalar_prod * 180 / PI).

(* find_intersections, post_processing.py:18-53 *)
(* :26-30 *)
Definition arr_min (x1 x2 : R) : R := if Rlt_dec x1 x2 then x1 else x2.
Definition arr_max (x1 x2 : R) : R := if Rgt_dec x1 x2 then x1 else x2.
(* :35-36 *)
Definition slope (s : segment) : fl := fdiv (Fin (snd (snd s) - snd (fst s))) (Fin (fst (snd s) - fst (fst s))).
(* :38-47, the entry of the arrays for one segment of each line *)
Definition candidate (s1 s2 : segment) : fl * fl :=
  let x11 := fst (fst s1) in let y11 := snd (fst s1) in
  let x21 := fst (fst s2) in let y21 := snd (fst s2) in
  let m1 := slope s1 in
  let m2inv := fdiv (Fin 1) (slope s2) in
  let yi := fdiv (fadd (fmul m1 (fsub (fsub (Fin x21) (Fin x11)) (fmul m2inv (Fin y21)))) (Fin y11)) (fsub (Fin 1) (fmul m1 m2inv)) in
  let xi := fadd (fmul (fsub yi (Fin y21)) m2inv) (Fin x21) in
  (xi, yi).
(* :49-52 *)
Definition within (a b : R) (v : fl) : bool := flt (Fin (arr_min a b)) v && fle v (Fin (arr_max a b)).
Definition x_cond (s1 s2 : segment) : bool :=
  let xi := fst (candidate s1 s2) in within (fst (fst s1)) (fst (snd s1)) xi && within (fst (fst s2)) (fst (snd s2)) xi.
Definition y_cond (s1 s2 : segment) : bool :=
  let yi := snd (candidate s1 s2) in within (snd (fst s1)) (snd (snd s1)) yi && within (snd (fst s2)) (snd (snd s2)) yi.
(* path_vertices[:-1] with path_vertices[1:] *)
Definition segments (path : list point) : list segment := combine path (tl path).
(* meshgrid: one row for each segment of the second line; masks select row by row *)
Definition mesh (path1 path2 : list point) : list (segment * segment) :=
  flat_map (fun s2 => map (fun s1 => (s1, s2)) (segments path1)) (segments path2).
Definition find_intersections (path1 path2 : list point) : list fl * list fl :=
  (map (fun p => fst (candidate (fst p) (snd p))) (filter (fun p => x_cond (fst p) (snd p)) (mesh path1 path2)),
   map (fun p => snd (candidate (fst p) (snd p))) (filter (fun p => y_cond (fst p) (snd p)) (mesh path1 path2))).

(* get_line_intersections, post_processing.py:56-65.  None: an exception, numpy refuses to build an array from two lists of different
   lengths (versions before 1.24 build an array of two lists instead, that is of no use either). *)
Definition get_line_intersections (line1 line2 : list (list point)) : option (list (fl * fl)) :=
  let res := flat_map (fun c1 => map (fun c2 => find_intersections c1 c2) line2) line1 in
  let xs := flat_map fst res in
  let ys := flat_map snd res in
  if Nat.eqb (length xs) (length ys) then Some (combine xs ys) else None.

(* find_closest_point, post_processing.py:68-70, on rows of an array.  None: the exception of argmin for an empty array.
   argmin returns the first of several minima. *)
Definition dist_sq (p q : point) : R := (fst q - fst p) ^ 2 + (snd q - snd p) ^ 2.
Fixpoint first_min (p best : point) (l : list point) : point :=
  match l with [] => best | q :: l' => if Rlt_dec (dist_sq p q) (dist_sq p best) then first_min p q l' else first_min p best l' end.
Definition find_closest_point (p : point) (points : list point) : option (point * R) :=
  match points with [] => None | q :: l => let c := first_min p q l in Some (c, sqrt (dist_sq p c)) end.

(* rows of a numpy array of triple points; np.array([[], []]) has two rows without entries *)
Inductive row := Point (p : point) | NoEntries.

(* get_triple_point_centers, post_processing.py:73-93, from the three lists of intersections (finite, see C72_sound) of line 82 *)
Fixpoint collect (threshold : R) (i0 i1 i2 : list point) : list row :=
  match i0 with
  | [] => []
  | p :: l =>
      match find_closest_point p i1, find_closest_point p i2 with
      | Some (c1, d1), Some (c2, d2) =>
          if Rgt_dec d1 threshold then collect threshold l i1 i2 else if Rgt_dec d2 threshold then collect threshold l i1 i2 else
          Point ((fst p + fst c1 + fst c2) / 3, (snd p + snd c1 + snd c2) / 3) :: collect threshold l i1 i2
      | _, _ => collect threshold l i1 i2 (* not reached: i1 and i2 are not empty *)
      end
  end.
Definition get_triple_point_centers (threshold : R) (i0 i1 i2 : list point) : list row :=
  if (length i0 =? 0)%nat || (length i1 =? 0)%nat || (length i2 =? 0)%nat then [NoEntries; NoEntries] else collect threshold i0 i1 i2.

(* get_triple_points, post_processing.py:116-133, from the centers and the intersections p0p1, p1p2, p2p0 of the second set of contour
   lines.  None: an exception; a row without entries cannot be subtracted from an array of points. *)
Definition triple_point := (point * list point * list (option R))%type.
Definition triple_point_of (p0p1 p1p2 p2p0 : list point) (center : row) : option triple_point :=
  match center with
  | NoEntries => None
  | Point c =>
      match find_closest_point c p2p0, find_closest_point c p0p1, find_closest_point c p1p2 with
      | Some (b0, _), Some (b1, _), Some (b2, _) => Some (c, [b0; b1; b2], [get_angle c b0 b1; get_angle c b1 b2; get_angle c b2 b0])
      | _, _, _ => None
      end
  end.
Fixpoint all_some {A : Type} (l : list (option A)) : option (list A) :=
  match l with [] => Some [] | Some a :: l' => match all_some l' with Some r => Some (a :: r) | None => None end | None :: _ => None end.
Definition get_triple_points (centers : list row) (p0p1 p1p2 p2p0 : list point) : option (list triple_point) :=
  if (length centers =? 0)%nat then Some [] else all_some (map (triple_point_of p0p1 p1p2 p2p0) centers).
