(* Rotations and reflections of the lattice, and what it means for states, walls and moments to be turned with it. *)
From Coq Require Import List ZArith Bool Reals.
From Verif Require Import StencilModel AccessModel StreamModel StreamSpec GridModel RealLib LinLib TransSpec EqSpec CollModel CollSpec BoundSpec.
Import ListNotations.
Local Open Scope R_scope.

(* reflection of axis a, exchange of the axes a and a+1: these generate all rotations and reflections which map the lattice to itself *)
Inductive axis_op := Reflect (a : nat) | Exchange (a : nat).
Fixpoint at_axis {T} (h : T -> T) (a : nat) (l : list T) : list T :=
  match a, l with O, x :: l => h x :: l | Datatypes.S a, x :: l => x :: at_axis h a l | _, [] => [] end.
Fixpoint exchange {T} (a : nat) (l : list T) : list T :=
  match a, l with O, x :: y :: l => y :: x :: l | Datatypes.S a, x :: l => x :: exchange a l | _, l => l end.
Definition act {T} (neg : T -> T) (g : axis_op) (l : list T) : list T := match g with Reflect a => at_axis neg a l | Exchange a => exchange a l end.
(* a turn: a sequence of such operations, the last one first *)
Definition turn (w : list axis_op) (v : vec) : vec := fold_right (act Z.opp) v w.
Definition turnR (w : list axis_op) (u : list R) : list R := fold_right (act Ropp) u w.

(* the populations f' are those of f, turned: the population moving in the turned direction *)
Definition turned (w : list axis_op) (S : stencil) (f f' : list R) : Prop :=
  length f = length S /\ length f' = length S /\
  forall i j, (i < length S)%nat -> (j < length S)%nat -> dir S j = turn w (dir S i) -> nth j f' 0 = nth i f 0.
(* sigma turns (and may move) the cells of lattice L into those of L' *)
Definition turns_cells {L L' : lattice} (w : list axis_op) (sigma : cell L -> cell L') : Prop :=
  ldim L' = ldim L /\ forall x v, length v = ldim L -> sigma (shift x v) = shift (sigma x) (turn w v).
Definition turned_state {L L' : lattice} (w : list axis_op) (S : stencil) (sigma : cell L -> cell L') (fluid : cell L -> bool) (f : cell L -> list R) (f' : cell L' -> list R) : Prop :=
  forall x, fluid x = true -> turned w S (f x) (f' (sigma x)).
(* boundary rules which give the same value on the turned link, in the turned state *)
Definition turned_walls {L L' : lattice} (w : list axis_op) (S : stencil) (sigma : cell L -> cell L') (fluid : cell L -> bool) (B : cell L -> nat -> brule R) (B' : cell L' -> nat -> brule R) : Prop :=
  forall f f', turned_state w S sigma fluid f f' -> forall x i j, is_link S fluid (x, i) -> (j < length S)%nat -> dir S j = turn w (dir S i) ->
    rule_value S f' (sigma x) (B' (sigma x) j) = rule_value S f x (B x i).

(* x^e at the turned point: sign times a monomial at x *)
Definition act_sign (g : axis_op) (e : list nat) : R := match g with Reflect a => (-1) ^ nth a e 0%nat | Exchange _ => 1 end.
Definition act_exp (g : axis_op) (e : list nat) : list nat := match g with Reflect _ => e | Exchange a => exchange a e end.
Fixpoint turn_exp (w : list axis_op) (e : list nat) : list nat := match w with [] => e | g :: w => turn_exp w (act_exp g e) end.
Fixpoint turn_sign (w : list axis_op) (e : list nat) : R := match w with [] => 1 | g :: w => act_sign g e * turn_sign w (act_exp g e) end.
(* the polynomial p, taken at the turned point *)
Definition turn_poly (w : list axis_op) (p : poly) : poly := map (fun t => (fst t * turn_sign w (snd t), turn_exp w (snd t))) p.
(* every turned moment polynomial is, as a formal polynomial, a combination of moment polynomials of the same rate *)
Definition symmetric_rates (w : list axis_op) (ps : list poly) (d : list R) : Prop :=
  length d = length ps /\ exists a : nat -> nat -> R, forall k q, nth_error ps k = Some q ->
    (forall phi, poly_value phi (turn_poly w q) = rsum (map (fun l => a k l * poly_value phi (nth l ps [])) (seq 0 (length ps)))) /\
    (forall l, (l < length ps)%nat -> a k l <> 0 -> nth l d 0 = nth k d 0).
(* equilibrium moments of the turned velocity *)
Definition symmetric_equilibrium (w : list axis_op) (D : nat) (eqm : R -> list R -> list nat -> R) : Prop :=
  forall rho u e, length u = D -> length e = D -> eqm rho (turnR w u) e = turn_sign w e * eqm rho u (turn_exp w e).
(* force models and forces of the turned flow *)
Definition turn_force (w : list axis_op) (force : option (force_model * list R)) : option (force_model * list R) :=
  match force with None => None | Some (fm, F) => Some (fm, turnR w F) end.
(* the axes of a grid exchange their extents *)
Definition turn_shape (w : list axis_op) (s : GridModel.gshape) : GridModel.gshape := fold_right (act (fun o => o)) s w.
(* collision rules which turn with the populations, for admissible populations (say, of nonzero density) *)
Definition turned_collisions {L L' : lattice} (w : list axis_op) (S : stencil) (sigma : cell L -> cell L') (fluid : cell L -> bool) (admissible : list R -> Prop)
  (C : nat -> cell L -> list R -> list R) (C' : nat -> cell L' -> list R -> list R) : Prop :=
  forall n x f f', fluid x = true -> admissible f -> turned w S f f' -> turned w S (C n x f) (C' n (sigma x) f').
