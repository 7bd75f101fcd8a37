(* Specification for coupled phase-field simulations on a periodic domain. *)
From Coq Require Import List ZArith Bool Arith Reals.
From Verif Require Import StencilModel RealLib EqModel EqSpec CollModel CollSpec StreamModel GridModel CoupModel.
Import ListNotations.
Local Open Scope R_scope.

Section Totals.
  Context (N : list positive).
  (* amount of phase i in the domain: of a field of order parameters, and stored in the populations *)
  Definition phase_total (i : nat) (phi : cell (torus N) -> list R) : R := rsum (map (fun x => nth i (phi x) 0) (torus_cells N)).
  Definition stored_total (i : nat) (st : cell (torus N) -> ph_cell) : R := rsum (map (fun x => rsum (nth i (c_ch (st x)) [])) (torus_cells N)).
  (* mass and momentum of the fluid, total force *)
  Definition fluid_mass (st : cell (torus N) -> ph_cell) : R := rsum (map (fun x => rsum (c_hyd (st x))) (torus_cells N)).
  Definition fluid_momentum (S : stencil) (a : nat) (st : cell (torus N) -> ph_cell) : R := rsum (map (fun x => momentum (c_hyd (st x)) S a) (torus_cells N)).
  Definition total_force (a : nat) (st : cell (torus N) -> ph_cell) : R := rsum (map (fun x => nth a (c_force (st x)) 0) (torus_cells N)).
End Totals.
(* arrays of the right sizes *)
Definition sized (S : stencil) (K : nat) (c : ph_cell) : Prop :=
  length (c_phi c) = K /\ length (c_ch c) = K /\ (forall f, In f (c_ch c) -> length f = sizeQ S) /\ length (c_hyd c) = sizeQ S.
(* a hydrodynamic collision: keeps the mass and adds the force to the momentum, for the populations of the set [ok] (compressible methods: density not zero) *)
Definition hydro_method (S : stencil) (ok : list R -> Prop) (hydro : list R -> list R -> res (list R)) : Prop :=
  forall F f, length F = dimD S -> length f = sizeQ S -> ok f -> exists f', hydro F f = Ok f' /\ length f' = sizeQ S /\ adds_impulse (dimD S) S F f f'.
(* a first-derivative stencil: the derivative of a constant is zero *)
Definition derivative_stencil (D : nat) (fd : nat -> list (vec * R)) : Prop :=
  forall a, (a < D)%nat -> (forall ow, In ow (fd a) -> length (fst ow) = D) /\ rsum (map snd (fd a)) = 0.
Definition covers (K : nat) (p : per_phase) : Prop := match p with One _ => True | Each l => (K <= length l)%nat end.
(* sum of the populations of all phases of a cell *)
Definition all_phases (S : stencil) (c : ph_cell) : list R := map (fun q => rsum (map (fun f => nth q f 0) (c_ch c))) (seq 0 (sizeQ S)).
