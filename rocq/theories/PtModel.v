(* Model of the pressure tensor of src/lbmpy/phasefield/analytical.py:196-207, 231-248, 275-387 and of phasefield/kerneleqs.py:69-81 (index use).
   Simplifications: a free energy is given in expanded form (the code calls expand): bulk terms are polynomial, the coefficients of terms with
   derivatives do not contain order parameters.  Order parameters are numbered. *)
From Coq Require Import List Bool Arith Reals.
From Verif Require Import StencilModel RealLib.
Import ListNotations.
Local Open Scope R_scope.

(* expressions with derivatives; pystencils Diff(e, a).  Leaf i ds: order parameter i, differentiated along the directions ds *)
Inductive expr :=
| Const (r : R)
| Leaf (i : nat) (ds : list nat)
| Add (e1 e2 : expr)
| Mul (e1 e2 : expr)
| Pow (e : expr) (n : nat)
| Diff (e : expr) (a : nat).
Definition par (i : nat) : expr := Leaf i [].
Definition sum_of (l : list expr) : expr := fold_right Add (Const 0) l.
Definition scale (k : R) (e : expr) : expr := Mul (Const k) e.
Definition sub (e1 e2 : expr) : expr := Add e1 (scale (-1) e2).

(* pystencils expand_diff_full: linearity and product rule until only derivatives of order parameters are left *)
Fixpoint derive (a : nat) (e : expr) : expr :=
  match e with
  | Const _ => Const 0
  | Leaf i ds => Leaf i (a :: ds)
  | Add e1 e2 => Add (derive a e1) (derive a e2)
  | Mul e1 e2 => Add (Mul (derive a e1) e2) (Mul e1 (derive a e2))
  | Pow e n => Mul (Mul (Const (INR n)) (Pow e (n - 1))) (derive a e)
  | Diff e _ => e                                                                    (* not reached: arguments are expanded first *)
  end.
Fixpoint expand (e : expr) : expr :=
  match e with
  | Const r => Const r
  | Leaf i ds => Leaf i ds
  | Add e1 e2 => Add (expand e1) (expand e2)
  | Mul e1 e2 => Mul (expand e1) (expand e2)
  | Pow e n => Pow (expand e) n
  | Diff e a => derive a (expand e)
  end.

(* one summand of an expanded free energy: a number, powers of the order parameters, and the order parameters of the Diff factors *)
Record term := { factor : R; powers : list nat; diffs : list nat }.
Definition monomial (k : R) (pows : list nat) : expr := Mul (Const k) (fold_right (fun p e => Mul (Pow (par (fst p)) (snd p)) e) (Const 1) (combine (seq 0 (length pows)) pows)).
Definition is_bulk (t : term) : bool := match diffs t with [] => true | _ => false end.
(* 196-207 separate_into_bulk_and_interface: derivatives set to zero *)
Definition bulk_part (energy : list term) : expr := sum_of (map (fun t => monomial (factor t) (powers t)) (filter is_bulk energy)).
(* 290-309 extract_gamma *)
Definition sorted_pair (i j : nat) : nat * nat := if i <=? j then (i, j) else (j, i).
Definition pair_eqb (p q : nat * nat) : bool := (fst p =? fst q) && (snd p =? snd q).
Fixpoint extract_gamma_terms (num_parameters : nat) (energy : list term) : res (list ((nat * nat) * R)) :=
  match energy with
  | [] => Ok []
  | t :: rest =>
    match diffs t with
    | [] => extract_gamma_terms num_parameters rest
    | [i; j] => if (i <? num_parameters) && (j <? num_parameters)
                then rbind (extract_gamma_terms num_parameters rest) (fun g => Ok ((sorted_pair i j, if i =? j then factor t * 2 else factor t) :: g))
                else Err ValueError                                                  (* order_parameters.index *)
    | _ => Err ValueError
    end
  end.
Definition extract_gamma (num_parameters : nat) (energy : list term) : res (nat -> nat -> R) :=
  if length energy <? 2 then Err AssertionError                                      (* 280: the energy has to be a sum *)
  else rbind (extract_gamma_terms num_parameters energy) (fun g =>
    Ok (fun i j => rsum (map snd (filter (fun p => pair_eqb (fst p) (i, j)) g)))).

(* pystencils functional_derivative: derivative with respect to the order parameter minus the divergence of the derivative with respect to its
   gradient; 246-257 replaces the abstract Laplacian by the sum over the dimensions *)
Definition lower_power (i : nat) (pows : list nat) : list nat := map (fun p => if fst p =? i then (snd p - 1)%nat else snd p) (combine (seq 0 (length pows)) pows).
Definition bulk_derivative (i : nat) (t : term) : expr := monomial (factor t * INR (nth i (powers t) 0%nat)) (lower_power i (powers t)).
Definition laplacian_of (dim : nat) (j : nat) : expr := sum_of (map (fun g => Diff (Diff (par j) g) g) (seq 0 dim)).
Definition interface_derivative (dim i : nat) (t : term) : expr :=
  match diffs t with
  | [j; k] => scale (- factor t) (Add (if j =? i then laplacian_of dim k else Const 0) (if k =? i then laplacian_of dim j else Const 0))
  | _ => Const 0
  end.
(* 231-240 chemical_potentials_from_free_energy with given order parameters *)
Definition chemical_potential (dim : nat) (energy : list term) (i : nat) : expr :=
  Add (sum_of (map (bulk_derivative i) (filter is_bulk energy))) (sum_of (map (interface_derivative dim i) (filter (fun t => negb (is_bulk t)) energy))).
(* 243-248 force_from_phi_and_mu *)
Definition force_from_phi_and_mu (n : nat) (mu : nat -> expr) (a : nat) : expr := sum_of (map (fun i => scale (-1) (Mul (par i) (Diff (mu i) a))) (seq 0 n)).

(* 312-319 pressure_tensor_bulk_component with bulk_chemical_potential=None *)
Definition pressure_tensor_bulk_component (n : nat) (energy : list term) : expr :=
  sub (sum_of (map (fun i => Mul (par i) (sum_of (map (bulk_derivative i) (filter is_bulk energy)))) (seq 0 n))) (bulk_part energy).
Definition gamma_of (gamma : nat -> nat -> R) (i j : nat) : R := if i <? j then gamma i j else gamma j i.
Definition gradient_product (dim i j : nat) : expr := sum_of (map (fun g => Mul (Diff (par i) g) (Diff (par j) g)) (seq 0 dim)).
(* c_i times the Laplacian of c_j *)
Definition times_laplacian (dim i j : nat) : expr := sum_of (map (fun g => Mul (par i) (Diff (Diff (par j) g) g)) (seq 0 dim)).
(* 322-335 pressure_tensor_interface_component *)
Definition interface_entry (dim a b i j : nat) : expr :=
  let t := Add (Mul (Diff (par i) a) (Diff (par j) b)) (Mul (Diff (par i) b) (Diff (par j) a)) in
  if a =? b then sub (sub (sub t (gradient_product dim i j)) (times_laplacian dim i j)) (times_laplacian dim j i) else t.
Definition interface_component (n dim : nat) (gamma : nat -> nat -> R) (a b : nat) : expr :=
  sum_of (map (fun i => sum_of (map (fun j => scale (gamma_of gamma i j / 2) (interface_entry dim a b i j)) (seq 0 n))) (seq 0 n)).
(* 338-350 pressure_tensor_interface_component_new *)
Definition interface_entry_new (dim a b i j : nat) : expr :=
  let t := scale 2 (Mul (Diff (par i) a) (Diff (par j) b)) in
  if a =? b then sub (sub t (gradient_product dim i j)) (scale 2 (times_laplacian dim i j)) else t.
Definition interface_component_new (n dim : nat) (gamma : nat -> nat -> R) (a b : nat) : expr :=
  sum_of (map (fun i => sum_of (map (fun j => scale (gamma_of gamma i j / 2) (interface_entry_new dim a b i j)) (seq 0 n))) (seq 0 n)).
(* 353-366 pressure_tensor_from_free_energy *)
Definition pressure_tensor (n dim : nat) (include_bulk include_interface : bool) (energy : list term) : res (nat -> nat -> expr) :=
  let entry interface i j := Add (interface i j) (if include_bulk && (i =? j) then pressure_tensor_bulk_component n energy else Const 0) in
  if include_interface then rbind (extract_gamma n energy) (fun gamma => Ok (entry (interface_component n dim gamma)))
  else Ok (entry (fun _ _ => Const 0)).
(* 369-382 force_from_pressure_tensor without pbs *)
Definition force_from_pressure_tensor (dim : nat) (p : nat -> nat -> expr) (b : nat) : expr :=
  expand (scale (-1) (sum_of (map (fun a => Diff (p a b) a) (seq 0 dim)))).
(* 385-387 pressure_tensor_bulk_sqrt_term for c_s^2 = 1/3, and 377-378: what the force gains; [pbs] and its derivative are taken at one point *)
Definition bulk_sqrt_term (density bulk_pressure : R) : R := sqrt (Rabs (density * (1 / 3) - bulk_pressure)).
Definition pbs_force (pbs pbs_derivative : R) : R := 2 * pbs_derivative * pbs.

(* 275-285 symmetric_tensor_linearization: sorted index pairs numbered in the order of multidimensional_sum(2, dim) *)
Definition symmetric_pairs (dim : nat) : list (nat * nat) := filter (fun p => fst p <=? snd p) (list_prod (seq 0 dim) (seq 0 dim)).
Fixpoint position (p : nat * nat) (l : list (nat * nat)) : res nat :=
  match l with
  | [] => Err KeyError
  | q :: r => if pair_eqb q p then Ok 0%nat else rbind (position p r) (fun k => Ok (Datatypes.S k))
  end.
(* kerneleqs.py:74 index_map[i, j] if i < j else index_map[j, i] *)
Definition tensor_slot (dim i j : nat) : res nat := if i <? j then position (i, j) (symmetric_pairs dim) else position (j, i) (symmetric_pairs dim).
