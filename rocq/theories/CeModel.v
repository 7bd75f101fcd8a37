(* Model of src/lbmpy/chapman_enskog/chapman_enskog.py: the Chapman-Enskog analysis of a method, from the Taylor expanded
   lattice Boltzmann equation to the viscosities it reports.

   sympy expressions are modelled by sums of products in expanded form: a term is a real coefficient, a power of the density
   and a list of further factors (velocities and first derivatives of density and velocity).  The symbolic relaxation rates
   and the constants are real numbers.  Like terms are not collected: collecting does not change any value below. *)
From Coq Require Import List ZArith Bool Arith Reals.
From Verif Require Import StencilModel RealLib LinLib EqSpec.
Import ListNotations.
Local Open Scope R_scope.

(* ---- equilibria: polynomials in the density and the velocities --------------------------------------------------- *)

(* coefficient, power of rho, velocity factors; chapman_enskog.py:242 (rhs of the equilibrium assignments, expanded) *)
Definition eterm := (R * nat * list nat)%type.
Definition epoly := list eterm.
Definition eterm_scale (x : R) (t : eterm) : eterm := let '(c, k, l) := t in (x * c, k, l).
(* the value of a polynomial *)
Definition eterm_value (rho : R) (u : nat -> R) (t : eterm) : R :=
  let '(c, k, l) := t in c * rho ^ k * fold_right Rmult 1 (map u l).
Definition epoly_value (rho : R) (u : nat -> R) (p : epoly) : R := rsum (map (eterm_value rho u) p).

(* product of the velocity components listed in [idx]; CeMoment.indices, chapman_enskog.py:210-212 (a moment is written by
   its index tuple instead of its exponent tuple) *)
Definition comp_product (c : vec) (idx : list nat) : R := fold_right Rmult 1 (map (comp c) idx).
(* LbMethodEqMoments.get_pre_collision_moment, chapman_enskog.py:252-256 *)
Definition equilibrium_moment (S : stencil) (eq : list epoly) (idx : list nat) : epoly :=
  flat_map (fun pc => map (eterm_scale (comp_product (snd pc) idx)) (fst pc)) (combine eq S).

(* maxwellian_equilibrium.py:85-121 with order <= 2, as a polynomial: the equilibrium of one direction of a stencil with
   dimension D and c_s^2 = cs2 *)
Definition quadratic_equilibrium (D : nat) (c : vec) (w cs2 : R) (compressible : bool) : epoly :=
  let k := if compressible then 1%nat else 0%nat in
  [(w, 1%nat, [])] ++
  map (fun a => (w * comp c a / cs2, k, [a])) (seq 0 D) ++
  flat_map (fun a => map (fun b => (w * comp c a * comp c b / (2 * cs2 ^ 2), k, [a; b])) (seq 0 D)) (seq 0 D) ++
  map (fun a => (- w / (2 * cs2), k, [a; a])) (seq 0 D).
Definition quadratic_equilibria (D : nat) (S : stencil) (ws : list R) (cs2 : R) (compressible : bool) : list epoly :=
  map (fun wc => quadratic_equilibrium D (snd wc) (fst wc) cs2 compressible) (combine ws S).

(* ---- expressions with derivatives --------------------------------------------------------------------------------- *)

(* u_a, Diff(u_a, b), Diff(rho, b) and the first order time derivatives Diff(u_a, t, 1), Diff(rho, t, 1) *)
Inductive sym := SU (a : nat) | GU (a b : nat) | GR (b : nat) | TU (a : nat) | TR.
Definition sym_eq_dec (s s' : sym) : {s = s'} + {s <> s'}.
Proof. decide equality; apply Nat.eq_dec. Defined.
(* coefficient, power of rho (negative after solving for a time derivative), factors *)
Definition dterm := (R * Z * list sym)%type.
Definition dexp := list dterm.

Definition dterm_scale (x : R) (t : dterm) : dterm := let '(c, k, l) := t in (x * c, k, l).
Definition dscale (x : R) (p : dexp) : dexp := map (dterm_scale x) p.
Definition dneg (p : dexp) : dexp := dscale (-1) p.
Definition dterm_mul (t t' : dterm) : dterm := let '(c, k, l) := t in let '(c', k', l') := t' in (c * c', (k + k')%Z, l ++ l').
(* sp.expand of a product *)
Definition dmul (p q : dexp) : dexp := flat_map (fun t => map (dterm_mul t) q) p.

(* where a derivative is taken: along the first time scale (None) or along an axis *)
Definition target := option nat.
Definition diff_rho (x : target) : sym := match x with None => TR | Some b => GR b end.
Definition diff_u (x : target) (a : nat) : sym := match x with None => TU a | Some b => GU a b end.
(* all ways to single out one factor *)
Fixpoint picks (l : list nat) : list (nat * list nat) :=
  match l with [] => [] | a :: l => (a, l) :: map (fun p => (fst p, a :: snd p)) (picks l) end.
(* pystencils.fd.expand_diff_products on a product (used at chapman_enskog.py:407-408 and 561-564) *)
Definition diff_term (x : target) (t : eterm) : dexp :=
  let '(c, k, l) := t in
  match k with
  | O => []
  | Datatypes.S k' => [(c * INR k, Z.of_nat k', diff_rho x :: map SU l)]
  end ++ map (fun p => (c, Z.of_nat k, diff_u x (fst p) :: map SU (snd p))) (picks l).
Definition diff_poly (x : target) (p : epoly) : dexp := flat_map (diff_term x) p.

(* ---- the analysis --------------------------------------------------------------------------------------------------- *)

Section Analysis.
  (* dimension; equilibrium moments by index tuple *)
  Variables (D : nat) (eqm : list nat -> epoly).
  (* relaxation rates of the shear moments and of the trace of the second moments *)
  Variables (shear_rate bulk_rate : R).

  (* left hand side of the first order equation in epsilon, multiplied with the velocities [idx] and summed over the
     directions: Diff(Pi^(0)_idx, t, 1) + sum_c Diff(Pi^(0)_(idx, c), c, 1); chapman_enskog.py:42-47 with 339-396 *)
  Definition transport (idx : list nat) : dexp :=
    diff_poly None (eqm idx) ++ flat_map (fun c => diff_poly (Some c) (eqm (idx ++ [c]))) (seq 0 D).

  (* match_continuity_eq, chapman_enskog.py:566-571: u_0 Diff(rho, 0) is a term of the continuity equation, that is, has
     coefficient 1 in it *)
  Definition is_compressible : bool :=
    if Req_EM_T (rsum (map (fun t : dterm => let '(c, k, l) := t in
                                if Z.eqb k 0 then if list_eq_dec sym_eq_dec l [GR 0; SU 0] then c else 0 else 0)
                           (flat_map (fun c => diff_poly (Some c) (eqm [c])) (seq 0 D)))) 1
    then true else false.

  (* chain_solve_and_substitute, chapman_enskog.py:411-438, on the equations of density and momentum: the collision terms
     vanish (solvability conditions, chapman_enskog.py:318-322), the density equation is solved for Diff(rho, t, 1) and,
     after its substitution, the momentum equation of axis a for Diff(u_a, t, 1).  Simplification: the equilibrium density
     is rho and the equilibrium momentum rho u_a (compressible) or u_a, so that sp.solve divides by rho or by 1. *)
  Definition solved_rho : dexp := dneg (flat_map (fun c => diff_poly (Some c) (eqm [c])) (seq 0 D)).
  Definition momentum_flux (a : nat) : dexp := dneg (flat_map (fun c => diff_poly (Some c) (eqm [a; c])) (seq 0 D)).
  Definition solved_u (compressible : bool) (a : nat) : dexp :=
    if compressible then dmul [(1, (-1)%Z, [])] (momentum_flux a ++ dneg (dmul [(1, 0%Z, [SU a])] solved_rho))
    else momentum_flux a.
  (* eq.subs(subs_dict) followed by the expansion of products, chapman_enskog.py:425-427 *)
  Definition solved_sym (compressible : bool) (s : sym) : dexp :=
    match s with TR => solved_rho | TU a => solved_u compressible a | _ => [(1, 0%Z, [s])] end.
  Definition substitute_term (compressible : bool) (t : dterm) : dexp :=
    let '(c, k, l) := t in fold_right (fun s acc => dmul (solved_sym compressible s) acc) [(c, k, [])] l.
  Definition substitute (compressible : bool) (p : dexp) : dexp := flat_map (substitute_term compressible) p.

  (* second moments of the first order equation without time derivatives: Upsilon^(1)_ab; chapman_enskog.py:620-628 *)
  Definition upsilon (compressible : bool) (a b : nat) : dexp := substitute compressible (transport [a; b]).
  Definition upsilon_trace (compressible : bool) : dexp := flat_map (fun c => upsilon compressible c c) (seq 0 D).

  (* higher_order_moments, chapman_enskog.py:58 and 619-629: Pi^(1)_ab solving Upsilon^(1) = - rates * Pi^(1)
     (get_post_collision_moment, chapman_enskog.py:258-281).  Simplification: the second moments of the method are the
     mixed ones and the differences of the squares, with the shear rate, and their sum, with the bulk rate (every method
     without own bulk rate has both rates equal); sp.solve then inverts this two-rate relation. *)
  Definition first_order_moment (compressible : bool) (a b : nat) : dexp :=
    if Nat.eqb a b
    then dscale (- (1 / shear_rate)) (upsilon compressible a a ++ dscale (- (1 / INR D)) (upsilon_trace compressible)) ++
         dscale (- (1 / bulk_rate)) (dscale (1 / INR D) (upsilon_trace compressible))
    else dscale (- (1 / shear_rate)) (upsilon compressible a b).
  (* the viscous stress tensor, chapman_enskog.py:60-66 with 573-606: what stands under the spatial derivatives of the
     recombined momentum equations besides the Euler flux and the pressure: Pi^(1)_ab + Upsilon^(1)_ab / 2 *)
  Definition viscous_stress (compressible : bool) (a b : nat) : dexp :=
    first_order_moment compressible a b ++ dscale (1 / 2) (upsilon compressible a b).

  (* count_vars, chapman_enskog.py:441-458, for the velocities *)
  Definition counts_u (s : sym) : nat := match s with SU _ | GU _ _ | TU _ => 1 | _ => 0 end%nat.
  Definition count_u (l : list sym) : nat := fold_right Nat.add 0%nat (map counts_u l).
  Definition has_rho_gradient (l : list sym) : bool := existsb (fun s => match s with GR _ => true | _ => false end) l.
  (* remove_error_terms, chapman_enskog.py:461-472: density gradients are replaced by 0 and the terms with more than one
     velocity dropped.  The sum of an expression that is a single product is not modelled as python's loop over its
     factors: the expanded stress of a method with symbolic rates always has several terms. *)
  Definition keep (t : dterm) : bool := let '(_, _, l) := t in negb (has_rho_gradient l) && (count_u l <=? 1)%nat.
  Definition remove_error_terms (p : dexp) : dexp := filter keep p.
  Definition stress_without_errors (a b : nat) : dexp := remove_error_terms (viscous_stress is_compressible a b).

  (* sympy's coeff: the factor of a symbol (a function of the density) *)
  Definition coeff (s : sym) (p : dexp) (rho : R) : R :=
    rsum (map (fun t : dterm => let '(c, k, l) := t in if list_eq_dec sym_eq_dec l [s] then c * powerRZ rho k else 0) p).
  (* get_dynamic_viscosity, chapman_enskog.py:92-97 and 105-110: minus the quotient of the mixed stress by
     Diff(u_i, j) + Diff(u_j, i), here read off as the coefficient of Diff(u_i, j) *)
  Definition shear_candidate (a b : nat) (rho : R) : R := - coeff (GU a b) (stress_without_errors a b) rho.
  Definition dynamic_viscosity (rho : R) : R := shear_candidate 0 1 rho.
  (* chapman_enskog.py:99-103 *)
  Definition kinematic_viscosity (rho : R) : R := if is_compressible then dynamic_viscosity rho / rho else dynamic_viscosity rho.
  (* get_bulk_viscosity_candidates, chapman_enskog.py:141-158: the coefficient of Diff(u_k, l) in the bulk term of axis i *)
  Definition bulk_candidate (i k l : nat) (rho : R) : R :=
    coeff (GU k l) (stress_without_errors i i) rho + (if (k =? i)%nat && (l =? i)%nat then 2 * dynamic_viscosity rho else 0).
  (* get_bulk_viscosity, chapman_enskog.py:160-167 *)
  Definition bulk_viscosity (rho : R) : R := bulk_candidate 0 0 0 rho + 2 * dynamic_viscosity rho / 3.
End Analysis.

(* ---- does the method approximate the Navier-Stokes equations? ------------------------------------------------------ *)

Section Check.
  Variables (D : nat) (eqm : list nat -> epoly).
  (* rates of the mixed second moments, of the differences of the squares and of the sum of the squares.  A method that
     relaxes the squares themselves has equal rates for differences and sum. *)
  Variables (mixed_rate normal_rate bulk_rate : R).
  Definition second_rate (a b : nat) : R := if Nat.eqb a b then normal_rate else mixed_rate.
  (* the viscous stress without error terms: as above with the rate of the component *)
  Definition sigma (a b : nat) : dexp := stress_without_errors D eqm (second_rate a b) bulk_rate a b.
  (* pairs i < j; symmetric_product without diagonal *)
  Definition axis_pairs : list (nat * nat) := filter (fun p => (fst p <? snd p)%nat) (list_prod (seq 0 D) (seq 0 D)).
  (* chapman_enskog.py:120 *)
  Definition viscosity_reference (rho : R) : R := coeff (GU 0 1) (sigma 0 1) rho.
  (* chapman_enskog.py:121-130, the conditions for one pair of axes: equal coefficients, none in front of Diff(u_k, k) *)
  Definition pair_conditions (rho : R) (p : nat * nat) : list R :=
    let '(i, j) := p in
    (coeff (GU i j) (sigma i j) rho - viscosity_reference rho) :: map (fun k => coeff (GU k k) (sigma i j) rho) (seq 0 D).
  (* chapman_enskog.py:131-132: what is left of the mixed component when Diff(u_i, j), Diff(u_j, i) and all Diff(u_k, k) are 0 *)
  Definition vanishes (i j : nat) (s : sym) : bool :=
    match s with GU a b => (a =? b)%nat || (a =? i)%nat && (b =? j)%nat || (a =? j)%nat && (b =? i)%nat | _ => false end.
  Definition remaining (i j : nat) : dexp := filter (fun t : dterm => let '(_, _, l) := t in negb (existsb (vanishes i j) l)) (sigma i j).
  (* get_bulk_viscosity_candidates with the viscosity -viscosity_reference, chapman_enskog.py:141-158.  The loop visits the
     derivatives that occur in the expanded term, that is, those with a coefficient other than 0.  Simplification: every term
     of the stress contains a derivative, so that nothing is left after the loop. *)
  Definition bulk_coefficient (rho : R) (i : nat) (kl : nat * nat) : R :=
    coeff (GU (fst kl) (snd kl)) (sigma i i) rho + (if (fst kl =? i)%nat && (snd kl =? i)%nat then - 2 * viscosity_reference rho else 0).
  Definition occurring (l : list R) : list R := filter (fun x => if Req_EM_T x 0 then false else true) l.
  Definition bulk_candidates (rho : R) : list R :=
    match flat_map (fun i => occurring (map (bulk_coefficient rho i) (list_prod (seq 0 D) (seq 0 D)))) (seq 0 D) with [] => [0] | l => l end.
  (* chapman_enskog.py:134-137 *)
  Definition bulk_conditions (rho : R) : list R := match bulk_candidates rho with [] => [] | c :: l => map (fun c' => c - c') l end.
  (* does_approximate_navier_stokes, chapman_enskog.py:112-139: the conditions that are numbers for a given density, and the
     remaining expressions that have to vanish *)
  Definition navier_stokes_conditions (rho : R) : list R := 0 :: flat_map (pair_conditions rho) axis_pairs ++ bulk_conditions rho.
  Definition navier_stokes_remaining : list dexp := map (fun p => remaining (fst p) (snd p)) axis_pairs.
End Check.

(* relaxation_rate_from_kinematic_viscosity, chapman_enskog.py:169-172: the solution of the linear equation in 1/rate for a
   viscosity cs2 (1/rate - 1/2) *)
Definition relaxation_rate_from_kinematic_viscosity (cs2 nu : R) : R := 2 * cs2 / (2 * nu + cs2).

(* ---- Taylor expansion and ansatz -------------------------------------------------------------------------------------- *)

Section Expansion.
  (* fields over arbitrary points; [L] is the operator Diff(., t) + c . Diff(., x) of one direction *)
  Context {X : Type}.
  Definition field := X -> R.
  Definition fadd (f g : field) : field := fun x => f x + g x.
  Definition fsub (f g : field) : field := fun x => f x - g x.
  Definition fscal (a : R) (f : field) : field := fun x => a * f x.
  (* get_taylor_expanded_lb_equation, chapman_enskog.py:477-506 (taylor_order = 2): the factors of dt and dt^2 of
     (dt L + dt^2 L^2 / 2) f - dt Omega f, after subtracting dt/2 L of it, dropping dt^3 and setting dt = 1 *)
  Definition taylor_equation (shift : bool) (L : field -> field) (f omega : field) : field :=
    let first := fsub (L f) omega in
    let second := fscal (1 / 2) (L (L f)) in
    fadd first (if shift then fsub second (fscal (1 / 2) (L first)) else second).
  (* chapman_enskog_derivative_expansion, derivative.py:6-12, for time orders 1, 2 and space order 1 (ansatz defaults,
     chapman_enskog.py:509-510): [L1] is Diff(., t, 1) + c . Diff(., x, 1), [T2] is Diff(., t, 2) *)
  Definition expanded_operator (L1 T2 : field -> field) (eps : R) (f : field) : field :=
    fadd (fscal eps (L1 f)) (fscal (eps ^ 2) (T2 f)).
  (* chapman_enskog.py:535-548 *)
  Definition expanded_pdf (f0 f1 f2 : field) (eps : R) : field := fadd f0 (fadd (fscal eps f1) (fscal (eps ^ 2) f2)).
  Definition expanded_omega (o1 o2 : field) (eps : R) : field := fadd (fscal eps o1) (fscal (eps ^ 2) o2).
  (* chapman_enskog.py:549-552: coefficients of eps and eps^2 of the expanded equation *)
  Definition order1 (L1 : field -> field) (f0 o1 : field) : field := fsub (L1 f0) o1.
  Definition order2 (L1 T2 : field -> field) (f0 f1 o1 o2 : field) : field :=
    fadd (fadd (T2 f0) (L1 f1)) (fsub (fscal (1 / 2) (L1 o1)) o2).
End Expansion.

(* chapman_enskog_derivative_expansion, derivative.py:6-12: the sum replacing Diff(., x), where [d i] stands for
   Diff(., x, i), and chapman_enskog_derivative_recombination, derivative.py:15-23: what replaces the derivative with the
   highest superscript stop - 1 *)
Definition expanded_derivative (d : nat -> R) (eps : R) (start stop : nat) : R :=
  rsum (map (fun i => eps ^ i * d i) (seq start (stop - start))).
Definition recombined_highest (diff : R) (d : nat -> R) (eps : R) (start stop : nat) : R :=
  (diff - rsum (map (fun i => eps ^ i * d i) (seq start (stop - 1 - start)))) / eps ^ (stop - 1).

(* the collision operator Omega f = - M^-1 diag(rates) M f; chapman_enskog.py:258-281 *)
Definition collision_operator (M Minv : mat) (rates f : list R) : list R := mv Minv (map Ropp (rmul rates (mv M f))).
