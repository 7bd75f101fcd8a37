(* Plane geometry: segments, their common points, polar coordinates. *)
From Coq Require Import List Reals.
From Verif Require Import PostModel.
Import ListNotations.
Local Open Scope R_scope.

Definition at_fraction (s : segment) (t : R) : point := (fst (fst s) + t * (fst (snd s) - fst (fst s)), snd (fst s) + t * (snd (snd s) - snd (fst s))).
Definition on_segment (s : segment) (p : point) : Prop := exists t, 0 <= t <= 1 /\ p = at_fraction s t.
Definition inside (s : segment) (p : point) : Prop := exists t, 0 < t < 1 /\ p = at_fraction s t.
Definition common (s1 s2 : segment) (p : point) : Prop := on_segment s1 p /\ on_segment s2 p.

Definition dx (s : segment) : R := fst (snd s) - fst (fst s).
Definition dy (s : segment) : R := snd (snd s) - snd (fst s).
Definition horizontal (s : segment) : Prop := dy s = 0.
Definition vertical (s : segment) : Prop := dx s = 0.
Definition oblique (s : segment) : Prop := dx s <> 0 /\ dy s <> 0.
Definition parallel (s1 s2 : segment) : Prop := dx s1 * dy s2 = dx s2 * dy s1.
Definition rising (s : segment) : Prop := 0 < dx s * dy s.
Definition falling (s : segment) : Prop := dx s * dy s < 0.
(* the left end of a segment *)
Definition left_end (s : segment) (p : point) : Prop := (p = fst s \/ p = snd s) /\ fst p <= fst (fst s) /\ fst p <= fst (snd s).
Definition end_of (s : segment) (p : point) : Prop := p = fst s \/ p = snd s.

(* segments of a polyline, and all pairs of a segment of one and a segment of another family of polylines *)
Fixpoint sides (path : list point) : list segment := match path with p :: ((q :: _) as l) => (p, q) :: sides l | _ => [] end.
Definition side_pairs (line1 line2 : list (list point)) : list (segment * segment) :=
  flat_map (fun c1 => flat_map (fun c2 => flat_map (fun s2 => map (fun s1 => (s1, s2)) (sides c1)) (sides c2)) line2) line1.

(* the list of the common points of a list of pairs of segments, one for each pair that has one *)
Inductive crossings : list (segment * segment) -> list point -> Prop :=
| crossings_nil : crossings [] []
| crossings_skip s1 s2 l r : (forall p, ~ common s1 s2 p) -> crossings l r -> crossings ((s1, s2) :: l) r
| crossings_take s1 s2 p l r : common s1 s2 p -> crossings l r -> crossings ((s1, s2) :: l) (p :: r).

(* no segment is parallel to an axis and no two segments touch: they cross inside of both or not at all *)
Definition generic_pair (s1 s2 : segment) : Prop :=
  oblique s1 /\ oblique s2 /\ forall p, common s1 s2 p -> ~ parallel s1 s2 /\ inside s1 p /\ inside s2 p.

Definition finite_points (l : list (fl * fl)) (r : list point) : Prop := l = map (fun p => (Fin (fst p), Fin (snd p))) r.

(* the point at an angle (in radians) and distance from a center *)
Definition polar (c : point) (r phi : R) : point := (fst c + r * cos phi, snd c + r * sin phi).
Definition distance (p q : point) : R := sqrt ((fst q - fst p) ^ 2 + (snd q - snd p) ^ 2).
(* the first of the closest points of a list *)
Definition closest (p : point) (points : list point) (c : point) : Prop :=
  exists l1 l2, points = l1 ++ c :: l2 /\ (forall q, In q l1 -> distance p c < distance p q) /\ (forall q, In q l2 -> distance p c <= distance p q).
