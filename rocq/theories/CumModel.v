(* Model of src/lbmpy/cumulants.py, src/lbmpy/moment_transforms/cumulanttransforms.py and of the differentiation in
   src/lbmpy/continuous_distribution_measures.py.
   sympy expressions in the wave numbers are modelled by a syntax with sympy's differentiation rules; ev is the value
   after substituting wave number values and values for the derivatives of the undefined function K or C. *)
From Coq Require Import List ZArith Bool Arith Reals.
From Verif Require Import StencilModel RealLib LinLib TransSpec MomModel.
Import ListNotations.
Local Open Scope R_scope.

(* multi-index of a list of differentiation variables 0, ..., D-1: sympy stores a derivative by the number of
   differentiations in each variable (cumulanttransforms.py:27-32 moment_index_from_derivative) *)
Definition tally (D : nat) (w : list nat) : list nat := map (count_occ Nat.eq_dec w) (seq 0 D).

Inductive expr : Type :=
| EConst (r : R)
| EVar (i : nat)                 (* wave number Xi_i *)
| EFun (w : list nat)            (* derivative of the undefined function in the variables w *)
| EAdd (a b : expr) | EMul (a b : expr) | EInv (a : expr) | ELog (a : expr) | EExp (a : expr).

(* sympy's rules for Expr.diff *)
Fixpoint diff (i : nat) (e : expr) : expr :=
  match e with
  | EConst _ => EConst 0
  | EVar j => EConst (if Nat.eqb i j then 1 else 0)
  | EFun w => EFun (i :: w)
  | EAdd a b => EAdd (diff i a) (diff i b)
  | EMul a b => EAdd (EMul (diff i a) b) (EMul a (diff i b))
  | EInv a => EMul (EConst (-1)) (EMul (EMul (EInv a) (EInv a)) (diff i a))
  | ELog a => EMul (diff i a) (EInv a)
  | EExp a => EMul (EExp a) (diff i a)
  end.
(* e.diff(x1, x2, ...): one variable after the other *)
Fixpoint diffs (w : list nat) (e : expr) : expr := match w with [] => e | i :: w => diffs w (diff i e) end.

(* Value at the wave numbers xi.  Logarithms and reciprocals are only defined for positive / nonzero values; the theorems
   carry that hypothesis (the only argument that occurs is the zeroth moment). *)
Fixpoint ev (D : nat) (xi : list R) (env : list nat -> R) (e : expr) : R :=
  match e with
  | EConst r => r
  | EVar i => nth i xi 0
  | EFun w => env (tally D w)
  | EAdd a b => ev D xi env a + ev D xi env b
  | EMul a b => ev D xi env a * ev D xi env b
  | EInv a => / ev D xi env a
  | ELog a => ln (ev D xi env a)
  | EExp a => exp (ev D xi env a)
  end.
(* value at wave number 0 *)
Definition ev0 (D : nat) (env : list nat -> R) (e : expr) : R := ev D (rzero D) env e.
Definition esum (l : list expr) : expr := fold_right EAdd (EConst 0) l.
(* sum(w * u for w, u in zip(wave_numbers, u)) *)
Definition elin (u : list R) : expr := esum (map (fun iu => EMul (EVar (fst iu)) (EConst (snd iu))) (combine (seq 0 (length u)) u)).

(* cumulanttransforms.py:157-181.  diff(x, n, ...) differentiates n times in x, hence in the variables
   get_moment_indices exp (multi_differentiation builds the same list). kappa = values of the central moment symbols. *)
Definition cumulant_from_central_moments (D : nat) (u : list R) (rho : R) (kappa : list nat -> R) (e : list nat) : R :=
  rho * ev0 D kappa (diffs (get_moment_indices e) (EAdd (elin u) (ELog (EFun [])))).
(* cumulanttransforms.py:183-214; c = values of the cumulant symbols, c_idx / rho is substituted *)
Definition central_moment_from_cumulants (D : nat) (u : list R) (rho : R) (c : list nat -> R) (e : list nat) : R :=
  ev0 D (fun i => c i / rho) (diffs (get_moment_indices e) (EExp (EAdd (EFun []) (EMul (EConst (-1)) (elin u))))).

(* cumulanttransforms.py:83-101; a set, here a list without duplicates; the order (sorted) is not modelled here *)
Definition required_central_moments (D q : nat) (cumulant_exponents : list (list nat)) : res (list (list nat)) :=
  rbind (moments_up_to_order 1 D true) (fun low =>
  let l := unique (low ++ flat_map (fun c => contained_moments c 0 false) cumulant_exponents) in
  if Nat.eqb (length l) q then Ok l else Err AssertionError).

(* cumulanttransforms.py:103-129 (return_monomials False) and 131-155; environments map an exponent to its symbol's value *)
Definition cumulant_forward (D : nat) (u : list R) (rho : R) (exps : list (list nat)) (P : mat) (kappa : list nat -> R) : list R :=
  mv P (map (cumulant_from_central_moments D u rho kappa) exps).
Definition lookup (exps : list (list nat)) (vals : list R) (e : list nat) : R :=
  match find (fun p => tuple_eqb e (fst p)) (combine exps vals) with Some p => snd p | None => 0 end.
(* value of a symbol nothing is assigned to: not used when exps contains all needed exponents (see the theorems) *)
Definition cumulant_backward (D : nat) (u : list R) (rho : R) (exps : list (list nat)) (Pinv : mat) (cs : list R) (required : list (list nat)) : list R :=
  map (central_moment_from_cumulants D u rho (lookup exps (mv Pinv cs))) required.

(* cumulants.py:32-42 __partition; only called with non-empty sequences *)
Fixpoint insert_blocks (first : nat) (before smaller : list (list nat)) : list (list (list nat)) :=
  match smaller with
  | [] => []
  | b :: rest => (before ++ (first :: b) :: rest) :: insert_blocks first (before ++ [b]) rest
  end.
Fixpoint partition (l : list nat) : list (list (list nat)) :=
  match l with
  | [] => []
  | [a] => [[[a]]]
  | a :: l => flat_map (fun smaller => insert_blocks a [] smaller ++ [[a] :: smaller]) (partition l)
  end.

Inductive outer := Log | Exp.
Definition outer_value (F : outer) (x : R) : R := match F with Log => ln x | Exp => exp x end.
(* sp.diff(outer_function(x), x, ..., x), n times *)
Definition outer_derivative (F : outer) (n : nat) (x : R) : R :=
  match F, n with
  | Exp, _ => exp x
  | Log, O => ln x
  | Log, S k => (-1) ^ k * INR (fact k) * / x ^ S k
  end.
(* cumulants.py:45-100; env = values of the symbols (dependent_var_dict or default symbols) *)
Definition unit_index (D : nat) (e : list nat) : bool := existsb (fun i => tuple_eqb e (tally D [i])) (seq 0 D).
Definition cumulant_raw_moment_transform (index : list nat) (env : list nat -> R) (F : outer) (centralized : bool) : R :=
  let dim := length index in
  match get_moment_indices index with
  | [] => outer_value F (env (repeat 0%nat dim))
  | l =>
    let env' e := if centralized && unit_index dim e then 0 else env e in
    rsum (map (fun p => outer_derivative F (length p) (env' (repeat 0%nat dim)) * fold_right Rmult 1 (map (fun b => env' (tally dim b)) p)) (partition l))
  end.
(* cumulants.py:166-189 *)
Definition cumulant_as_function_of_raw_moments index env := cumulant_raw_moment_transform index env Log false.
Definition raw_moment_as_function_of_cumulants index env := cumulant_raw_moment_transform index env Exp false.
Definition cumulant_as_function_of_central_moments index env := cumulant_raw_moment_transform index env Log true.
Definition central_moment_as_function_of_cumulants index env := cumulant_raw_moment_transform index env Exp true.

(* cumulants.py:104-108 *)
Definition laplace_transformation (f : list R) (S : stencil) : expr :=
  esum (map (fun fc => EMul (EConst (fst fc)) (EExp (elin (vecR (snd fc))))) (combine f S)).
(* cumulants.py:115-140, tuple case; multi_differentiation: continuous_distribution_measures.py:87-112 *)
Definition discrete_cumulant (f : list R) (e : list nat) (S : stencil) : R :=
  ev0 (dimD S) (fun _ => 0) (diffs (get_moment_indices e) (ELog (laplace_transformation f S))).
(* polynomial case: sum of coefficient * cumulant of each monomial *)
Definition discrete_cumulant_poly (f : list R) (p : poly) (S : stencil) : R :=
  rsum (map (fun t => fst t * discrete_cumulant f (snd t) S) p).

(* The moment generating function of the Maxwellian rho (2 pi cs2)^(-D/2) exp(-(v-u)^2/(2 cs2)), as sympy integrates it:
   rho exp(xi.u + cs2/2 xi.xi) (continuous_distribution_measures.py:13-57) *)
Definition maxwellian_mgf (rho : R) (u : list R) (cs2 : R) : expr :=
  EMul (EConst rho) (EExp (EAdd (elin u) (EMul (EConst (cs2 / 2)) (esum (map (fun i => EMul (EVar i) (EVar i)) (seq 0 (length u))))))).
(* continuous_distribution_measures.py:116-137, 140-168 (tuple case) *)
Definition continuous_moment (D : nat) (mgf : expr) (e : list nat) : R := ev0 D (fun _ => 0) (diffs (get_moment_indices e) mgf).
Definition continuous_cumulant (D : nat) (mgf : expr) (e : list nat) : R := ev0 D (fun _ => 0) (diffs (get_moment_indices e) (ELog mgf)).
(* continuous_hydro_maxwellian.py:225-231: rescale *)
Definition maxwellian_cumulant (D : nat) (rho : R) (u : list R) (cs2 : R) (e : list nat) : R :=
  rho * continuous_cumulant D (maxwellian_mgf rho u cs2) e.
