(* What it means for moment polynomials to be orthogonal, independent, a basis, and to describe shear or bulk modes. *)
From Coq Require Import List ZArith QArith Qreals Reals.
From Verif Require Import StencilModel RealLib LinLib TransSpec MomModel ModeModel.
Import ListNotations.
Local Open Scope R_scope.

(* a polynomial with rational coefficients as a real polynomial *)
Definition toR (p : qpoly) : poly := map (fun t => (Q2R (fst t), snd t)) p.
(* sum_i c_i p_i(x) *)
Definition lin (c : list R) (ps : list qpoly) (x : list R) : R :=
  rsum (map (fun cp => fst cp * peval (toR (snd cp)) x) (combine c ps)).
(* p is a linear combination of ps, as a polynomial function *)
Definition in_span (p : qpoly) (ps : list qpoly) : Prop :=
  exists c, length c = length ps /\ forall x, peval (toR p) x = lin c ps x.
Definition same_span (ps qs : list qpoly) : Prop :=
  (forall p, In p ps -> in_span p qs) /\ (forall q, In q qs -> in_span q ps).
(* sum_q w_q p(c_q) p'(c_q) *)
Definition inner (w : list Q) (S : stencil) (p p' : qpoly) : R :=
  rsum (map (fun wc => Q2R (fst wc) * peval (toR p) (vecR (snd wc)) * peval (toR p') (vecR (snd wc))) (combine w S)).
Definition orthogonal (w : list Q) (S : stencil) (ps : list qpoly) : Prop :=
  forall i j, (i < length ps)%nat -> (j < length ps)%nat -> i <> j -> inner w S (nth i ps []) (nth j ps []) = 0.
(* no nontrivial combination vanishes on all directions of the stencil *)
Definition independent_on (S : stencil) (ps : list qpoly) : Prop :=
  forall c, length c = length ps -> (forall d, In d S -> lin c ps (vecR d) = 0) -> Forall (fun a => a = 0) c.
(* populations and moments determine each other *)
Definition moment_basis (S : stencil) (ps : list qpoly) : Prop :=
  length ps = length S /\
  forall m, length m = length S ->
  exists! f, length f = length S /\ map (fun p => poly_moment f S (rzero (dimD S)) (toR p)) ps = m.

(* coefficient of x^e in p *)
Definition coefficient (p : qpoly) (e : list nat) : Q := qsum (map fst (filter (fun t => tuple_eqb (snd t) e) p)).
(* exponents of x_a^2 *)
Definition square (a : nat) : list nat := map (fun j => if Nat.eqb a j then 2%nat else 0%nat) (seq 0 3).
(* expanded: every monomial once, with nonzero coefficient, in three symbols *)
Definition expanded (p : qpoly) : Prop :=
  NoDup (map snd p) /\ Forall (fun t => ~ (fst t == 0)%Q /\ length (snd t) = 3%nat) p.
Definition degree_two (p : qpoly) : Prop := (forall t, In t p -> (nsum (snd t) <= 2)%nat) /\ exists t, In t p /\ nsum (snd t) = 2%nat.
(* second-order polynomials whose x_a^2 (a < dim) have one common nonzero coefficient: the trace, plus anything off-diagonal *)
Definition trace_like (dim : nat) (p : qpoly) : Prop :=
  degree_two p /\ exists c, ~ (c == 0)%Q /\ forall a, (a < dim)%nat -> (coefficient p (square a) == c)%Q.
(* no x_a x_b with a <> b *)
Definition no_cross_terms (p : qpoly) : Prop := forall t, In t p -> nsum (snd t) = 2%nat -> exists a, snd t = square a.

(* stencils with the same directions in any order *)
Definition reordering_of (name : list vec) (S : stencil) : Prop := NoDup S /\ forall d, In d S <-> In d name.

(* ---- which relaxation rate a mode gets ---- *)
Section RateSpec.
  Context {M V : Type} (rep : M -> qpoly) (vzero vone : V).
  Definition low_order (m : M) : bool := (get_order (rep m) <=? 1)%nat.
  Definition shear (dim : nat) (m : M) : bool := is_shear_moment (rep m) dim.
  Definition bulk (dim : nat) (m : M) : bool := is_bulk_moment (rep m) dim.
  (* neither conserved nor hydrodynamic *)
  Definition other (dim : nat) (m : M) : bool := negb (low_order m) && negb (shear dim m) && negb (bulk dim m).
  Definition some (P : M -> bool) (nested : list (list M)) : nat := if existsb P (concat nested) then 1%nat else 0%nat.
  Definition other_groups (dim : nat) (nested : list (list M)) : nat := length (filter (existsb (other dim)) nested).
  (* rates = [shear rate (if there is a shear mode)] ++ [bulk rate (if there is a bulk mode)] ++ rates of the groups with other modes *)
  Definition rate_by_group (dim : nat) (conserved : bool) (rates : list V) (nested : list (list M)) (g : nat) (m : M) : V :=
    if low_order m then (if conserved then vzero else nth 0 rates vzero)
    else if shear dim m then nth 0 rates vzero
    else if bulk dim m then nth (some (shear dim) nested) rates vzero
    else nth (some (shear dim) nested + some (bulk dim) nested + other_groups dim (firstn g nested)) rates vzero.
  (* how many rates are read *)
  Definition rates_needed (dim : nat) (nested : list (list M)) : nat :=
    some (shear dim) nested + some (bulk dim) nested +
    match nested with [] => 0 | _ => 1 + other_groups dim (removelast nested) end.
End RateSpec.

(* the stencils with predefined moment sets, in any order of the directions *)
Definition standard_stencils : list stencil := [D2Q9_walberla; D3Q7_walberla; D3Q15_walberla; D3Q19_walberla; D3Q27_walberla].
Definition standard (S : stencil) : Prop := exists T, In T standard_stencils /\ reordering_of T S.
(* all monomials of p have degree k *)
Definition homogeneous (k : nat) (p : qpoly) : Prop := p <> [] /\ forall t, In t p -> nsum (snd t) = k.
(* mass, momentum, shear, bulk, and then modes of higher order *)
Definition hydrodynamic_grouping (D : nat) (groups : list (list qpoly)) (conserved shears bulks : list qpoly) (rest : list (list qpoly)) : Prop :=
  groups = firstn 1 groups ++ [conserved] ++ [shears] ++ [bulks] ++ rest /\
  (exists p, firstn 1 groups = [[p]] /\ homogeneous 0 p) /\
  (length conserved = D /\ Forall (homogeneous 1) conserved) /\
  Forall (fun p => degree_two p /\ ~ trace_like D p) shears /\
  (length bulks = 1%nat /\ Forall (fun p => trace_like D p /\ no_cross_terms p) bulks) /\
  Forall (Forall (fun p => exists t, In t p /\ (2 < nsum (snd t))%nat)) rest.
