(* Model: quadratic_equilibrium_construction.py: the generic quadratic equilibrium, finding its coefficients from given equilibria, moment constraints.
   Expressions in the velocity are polynomials with real coefficients: lists of exponent tuples with coefficients, a tuple may occur several times (sympy adds such terms). *)
From Coq Require Import List ZArith Bool Arith Reals.
From Verif Require Import StencilModel RealLib EqModel EqSpec.
Import ListNotations.
Local Open Scope R_scope.

Definition upoly := list (list nat * R).
Definition tuple_dec : forall e f : list nat, {e = f} + {e <> f} := list_eq_dec Nat.eq_dec.
(* sp.poly(p, *u): the coefficient of a monomial *)
Definition ucoeff (p : upoly) (e : list nat) : R := rsum (map (fun t => if tuple_dec (fst t) e then snd t else 0) p).
Definition uneg (p : upoly) : upoly := map (fun t => (fst t, - snd t)) p.
Definition uscale (r : R) (p : upoly) : upoly := map (fun t => (fst t, r * snd t)) p.
(* value at a velocity *)
Fixpoint umono (e : list nat) (u : list R) : R := match e, u with n :: e, x :: u => x ^ n * umono e u | _, _ => 1 end.
Definition ueval (p : upoly) (u : list R) : R := rsum (map (fun t => snd t * umono (fst t) u) p).

(* quadratic_equilibrium_construction.py:111-112: the symbols A_i, B_i, C_i, D_i *)
Inductive letter := LA | LB | LC | LD.
Definition letter_dec : forall a b : letter, {a = b} + {a <> b}.
Proof. decide equality. Defined.
Definition dof := (letter * Z)%type.
Definition dof_dec : forall a b : dof, {a = b} + {a <> b}.
Proof. decide equality; [apply Z.eq_dec|apply letter_dec]. Defined.

(* quadratic_equilibrium_construction.py:25-28 and 62-65, expanded: a + b (u.d) + c (u.d)^2 + k (u.u) *)
Definition unit_exp (D i : nat) : list nat := map (fun j => if Nat.eqb i j then 1%nat else 0%nat) (seq 0 D).
Definition pair_exp (D i j : nat) : list nat := map (fun k => ((if Nat.eqb i k then 1 else 0) + (if Nat.eqb j k then 1 else 0))%nat) (seq 0 D).
Definition generic_equation (D : nat) (d : vec) (a b c k : R) : upoly :=
  (repeat 0%nat D, a) :: map (fun i => (unit_exp D i, b * IZR (nth i d 0%Z))) (seq 0 D)
  ++ flat_map (fun i => map (fun j => (pair_exp D i j, c * (IZR (nth i d 0%Z) * IZR (nth j d 0%Z)))) (seq 0 D)) (seq 0 D)
  ++ map (fun i => (pair_exp D i i, k)) (seq 0 D).
(* lines 15-30 for given values of the symbols *)
Definition generic_ansatz (D : nat) (S : stencil) (g : dof -> R) : list upoly :=
  map (fun d => let s := abs_sum d in generic_equation D d (g (LA, s)) (g (LB, s)) (g (LC, s)) (g (LD, s))) S.

(* lines 67-70: sp.solve for [a, b, c, d] of the equations "each coefficient of the difference is zero".  The system is linear; from two dimensions on its solution is
   unique, except that b and c do not occur for the resting direction and get no value.  The solution, if there is one, is computed here from values of the polynomial
   at the origin and at unit vectors (sympy eliminates); whether it solves the equations is then checked for every coefficient.  No solution: ValueError. *)
Definition axis (D i : nat) (x : R) : list R := map (fun j => if Nat.eqb i j then x else 0) (seq 0 D).
Definition two_axes (D i j : nat) : list R := map (fun k => if Nat.eqb i k then 1 else if Nat.eqb j k then 1 else 0) (seq 0 D).
Definition even_part (D : nat) (p : upoly) (i : nat) : R := (ueval p (axis D i 1) + ueval p (axis D i (-1))) / 2 - ueval p (repeat 0 D).
Definition solve_candidate (D : nat) (d : vec) (p : upoly) : R * option (R * R) * R :=
  let at_i := fun i => IZR (nth i d 0%Z) in
  let a := ueval p (repeat 0 D) in
  match find (fun i => negb (Z.eqb (nth i d 0%Z) 0)) (seq 0 D) with
  | None => (a, None, even_part D p 0)
  | Some i =>
    let b := (ueval p (axis D i 1) - ueval p (axis D i (-1))) / 2 / at_i i in
    match find (fun j => negb (Nat.eqb i j) && negb (Z.eqb (nth j d 0%Z) 0)) (seq 0 D) with
    | Some j => let c := (ueval p (two_axes D i j) - ueval p (axis D i 1) - ueval p (axis D j 1) + a) / 2 / (at_i i * at_i j) in (a, Some (b, c), even_part D p i - c * at_i i ^ 2)
    | None => let k := even_part D p (if Nat.eqb i 0 then 1 else 0)%nat in (a, Some (b, (even_part D p i - k) / at_i i ^ 2), k)
    end
  end.
Definition solves (D : nat) (d : vec) (p : upoly) (a b c k : R) : bool :=
  let g := generic_equation D d a b c k in
  forallb (fun e => if Req_EM_T (ucoeff p e) (ucoeff g e) then true else false) (map fst p ++ map fst g).
Definition solve_direction (D : nat) (d : vec) (p : upoly) : res (list (dof * R)) :=
  let s := abs_sum d in
  match solve_candidate D d p with
  | (a, None, k) => if solves D d p a 0 0 k then Ok [((LA, s), a); ((LD, s), k)] else Err ValueError
  | (a, Some (b, c), k) => if solves D d p a b c k then Ok [((LA, s), a); ((LB, s), b); ((LC, s), c); ((LD, s), k)] else Err ValueError
  end.

(* lines 71-75: the dictionary; a value that differs from one found before is an error (values compared as numbers, not as expressions) *)
Fixpoint lookup (r : list (dof * R)) (x : dof) : option R := match r with [] => None | (y, v) :: r => if dof_dec y x then Some v else lookup r x end.
Fixpoint merge (r : list (dof * R)) (l : list (dof * R)) : res (list (dof * R)) :=
  match l with
  | [] => Ok r
  | (x, v) :: l => match lookup r x with
                   | Some w => if Req_EM_T w v then merge r l else Err ValueError
                   | None => merge ((x, v) :: r) l
                   end
  end.
(* lines 42-77 *)
Definition match_ansatz (D : nat) (S : stencil) (eqs : list upoly) : res (list (dof * R)) :=
  fold_left (fun acc dp => rbind acc (fun r => rbind (solve_direction D (fst dp) (snd dp)) (merge r))) (combine S eqs) (Ok []).

(* moments.py discrete_moment of polynomials and lines 80-92: the coefficients that have to vanish.  [values]: exponents of the moment and desired value *)
Definition moment_difference (S : stencil) (eqs : list upoly) (m : list nat) (v : upoly) : upoly :=
  flat_map (fun dp => uscale (monomial (fst dp) m) (snd dp)) (combine S eqs) ++ uneg v.
Definition moment_constraints (S : stencil) (eqs : list upoly) (values : list (list nat * upoly)) : list R :=
  flat_map (fun mv => let r := moment_difference S eqs (fst mv) (snd mv) in map (ucoeff r) (map fst r)) values.

(* lines 95-108 (compressible): moments of the continuous Maxwellian with c_s^2 = p / rho, terms of degree higher than 2 in the velocity dropped.
   Moments of a normal distribution as polynomials in the mean: m_0 = 1, m_1 = u, m_(n+2) = u m_(n+1) + (n+1) c_s^2 m_n *)
Fixpoint normal_terms (n : nat) (cs2 : R) : list (nat * R) :=
  match n with
  | O => [(0%nat, 1)]
  | Datatypes.S m => match m with
                     | O => [(1%nat, 1)]
                     | Datatypes.S k => map (fun t => (Datatypes.S (fst t), snd t)) (normal_terms m cs2) ++ map (fun t => (fst t, INR m * cs2 * snd t)) (normal_terms k cs2)
                     end
  end.
Fixpoint maxwellian_terms (e : list nat) (cs2 : R) : upoly :=
  match e with [] => [([], 1)] | n :: e => flat_map (fun t => map (fun s => (fst t :: fst s, snd t * snd s)) (maxwellian_terms e cs2)) (normal_terms n cs2) end.
Definition hydrodynamic_value (rho p : R) (e : list nat) : upoly :=
  filter (fun t => fold_right Nat.add 0%nat (fst t) <=? 2)%nat (uscale rho (maxwellian_terms e (p / rho))).
