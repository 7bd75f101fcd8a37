(* Model of the replacement of the shear relaxation rate by a local rate: utils.py (extract_shear_relaxation_rate) and the part of turbulence_models.py that exchanges the rate.
   The symbols for numeric rates are in MacroModel, the values of the local rates in RateModel.
   Simplification: an expression is a tree with the constructors below, real numbers instead of floats; assignments are equations between symbols and expressions,
   so their topological sorting is not needed. *)
From Coq Require Import String List Bool Arith Reals.
Import ListNotations.
Local Open Scope R_scope.
Open Scope string_scope.

Inductive expr := Num (r : R) | Sym (s : string) | Add (a b : expr) | Mul (a b : expr) | Inv (a : expr) | Sqrt (a : expr).
Definition expr_eq_dec : forall a b : expr, {a = b} + {a <> b}.
Proof. decide equality; [apply Req_EM_T|apply string_dec]. Defined.

(* an assignment: left hand side and right hand side *)
Definition assignment := (string * expr)%type.

(* extract_shear_relaxation_rate, utils.py:16-28.  The rate of a method is a Python number or a sympy expression (symbols and sympy numbers too).
   The loop compares with the current rate, which is a symbol after the first hit. *)
Inductive rate := Python (r : R) | Sympy (e : expr).
Definition extract_step (state : expr * bool) (eq : assignment) : expr * bool :=
  if expr_eq_dec (snd eq) (fst state) then (Sym (fst eq), true) else state.
Definition extract_shear_relaxation_rate (all_assignments : list assignment) (shear_relaxation_rate : rate) : expr * bool :=
  match shear_relaxation_rate with
  | Python r => fold_left extract_step all_assignments (Num r, false)
  | Sympy e => (e, true)
  end.

(* fast_subs of pystencils with one replaced expression *)
Fixpoint subs (a b e : expr) : expr :=
  if expr_eq_dec e a then b else
  match e with
  | Add x y => Add (subs a b x) (subs a b y)
  | Mul x y => Mul (subs a b x) (subs a b y)
  | Inv x => Inv (subs a b x)
  | Sqrt x => Sqrt (subs a b x)
  | _ => e
  end.
(* new_with_substitutions with substitute_on_lhs=False *)
Definition new_with_substitutions (a b : expr) (rule : list assignment) : list assignment := map (fun eq => (fst eq, subs a b (snd eq))) rule.

(* add_smagorinsky_model, turbulence_models.py:49-74 (without output fields); [norm] is the expression for Pi, line 68.  None: ValueError *)
Definition smagorinsky_equations (omega_s norm : expr) (smagorinsky_constant : R) : list assignment :=
  [("tau_0_", Mul (Num 1) (Inv omega_s));
   ("Pi", norm);
   ("sgs_omega", Mul (Num 2) (Inv (Add (Sym "tau_0_") (Sqrt (Add (Mul (Num (18 * smagorinsky_constant ^ 2)) (Sym "Pi")) (Mul (Sym "tau_0_") (Sym "tau_0_")))))))].
Definition add_smagorinsky_model (rule : list assignment) (shear_rate : rate) (norm : expr) (smagorinsky_constant : R) : option (list assignment) :=
  let '(omega_s, found) := extract_shear_relaxation_rate rule shear_rate in
  if negb found then None else
  Some (new_with_substitutions omega_s (Sym "sgs_omega") rule ++ smagorinsky_equations omega_s norm smagorinsky_constant)%list.
