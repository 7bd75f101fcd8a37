(* Model of the last step of phasefield/contact_angle_circle_fitting.py: the angles of a liquid lens from the circles fitted to its two interfaces.
   Contour lines (skimage) and the least squares fit (scipy) are not modelled, the circles are given; real numbers instead of floats.
   circle_intersections is in EnergyModel. *)
From Coq Require Import List Bool Arith Reals.
From Verif Require Import EnergyModel.
Import ListNotations.
Local Open Scope R_scope.

(* namedtuple Circle, contact_angle_circle_fitting.py:83 *)
Record circle := Circle { center : R * R; radius : R }.

(* rotate90_ccw, rotate90_cw, normalize: contact_angle_circle_fitting.py:129-136 *)
Definition rotate90_ccw (v : R * R) : R * R := (- snd v, fst v).
Definition rotate90_cw (v : R * R) : R * R := (snd v, - fst v).
Definition normalize (v : R * R) : R * R := let n := sqrt (fst v ^ 2 + snd v ^ 2) in (fst v / n, snd v / n).
Definition minus (v w : R * R) : R * R := (fst v - fst w, snd v - snd w).
Definition dot (v w : R * R) : R := fst v * fst w + snd v * snd w.

(* sorted(intersections, key=x)[0] and sorted(circles, key=center y): stable, contact_angle_circle_fitting.py:126-127 *)
Definition leftmost (p q : R * R) : R * R := if Rlt_dec (fst q) (fst p) then q else p.
Definition by_height (c d : circle) : circle * circle := if Rlt_dec (snd (center d)) (snd (center c)) then (d, c) else (c, d).

(* liquid_lens_neumann_angles, contact_angle_circle_fitting.py:118-146, from the circles of the interfaces between the drop and the first (c0) and second (c1) enclosing phase.
   None: ValueError (not two intersections, line 123), AssertionError (line 124) or NaN *)
Definition liquid_lens_neumann_angles (c0 c1 : circle) : option (list R) :=
  match circle_intersections (center c0) (center c1) (radius c0) (radius c1) with
  | Some [p; q] =>
      if Rlt_dec (Rabs (snd p - snd q)) (1 / 10) then
        let left_intersection := leftmost p q in
        let lower_circle := fst (by_height c0 c1) in
        let upper_circle := snd (by_height c0 c1) in
        let vector_20 := normalize (rotate90_ccw (minus (center lower_circle) left_intersection)) in
        let vector_01 := (-1, 0) in
        let vector_12 := normalize (rotate90_cw (minus (center upper_circle) left_intersection)) in
        Some (map (fun vv => acos (dot (fst vv) (snd vv)) * 180 / PI) [(vector_20, vector_01); (vector_01, vector_12); (vector_12, vector_20)])
      else None
  | _ => None
  end.
