(* Model of src/lbmpy/moment_transforms/{raw,central}momenttransforms.py and of the matrix part of moments.py.
   The assignment collections the transforms return are modelled by the values they compute: every symbol is
   replaced by the value of the expression assigned to it.  Matrix inverses (sympy's .inv(), which raises if there is
   none) are passed in by the caller; the theorems say which matrix they invert.  Simplification strategies, which
   rewrite an assignment collection without changing its values, are not part of this file (but see split_backward). *)
From Coq Require Import List ZArith Bool Arith Reals.
From Verif Require Import StencilModel RealLib LinLib TransSpec MomModel.
Import ListNotations.
Local Open Scope R_scope.

Definition mono_poly (e : list nat) : poly := [(1, e)].
(* moments.py:417-440; an exponent tuple e is the polynomial mono_poly e (427-432), shift_velocity None is the zero vector *)
Definition moment_matrix (ps : list poly) (S : stencil) (shift : list R) : mat :=
  map (fun p => map (fun c => peval p (rsub (vecR c) shift)) S) ps.
Definition monomial_matrix (es : list (list nat)) (S : stencil) (shift : list R) : mat :=
  map (fun e => map (fun c => rmono (rsub (vecR c) shift) e) S) es.
(* moments.py:382-414 discrete_moment, polynomial case *)
Definition discrete_moment (f : list R) (p : poly) (S : stencil) (shift : list R) : R :=
  rsum (map (fun fc => peval p (rsub (vecR (snd fc)) shift) * fst fc) (combine f S)).

(* list.index; ValueError if absent *)
Fixpoint tuple_index (e : list nat) (l : list (list nat)) : option nat :=
  match l with [] => None | a :: l => if tuple_eqb e a then Some 0%nat else option_map Datatypes.S (tuple_index e l) end.
Definition set_nth (i : nat) (a : R) (l : list R) : list R := firstn i l ++ match skipn i l with [] => [] | _ :: t => a :: t end.
(* moments.py:572-596 monomial_to_polynomial_transformation_matrix: entries are assigned, later terms overwrite *)
Definition mono_to_poly_row (monos : list (list nat)) (p : poly) : res (list R) :=
  fold_left (fun acc t => rbind acc (fun row =>
     match tuple_index (snd t) monos with Some i => Ok (set_nth i (fst t) row) | None => Err ValueError end))
   p (Ok (rzero (length monos))).
Definition mono_to_poly (monos : list (list nat)) (ps : list poly) : res mat := mapM (mono_to_poly_row monos) ps.

(* moments.py:292-310 aliases_from_moment_list: rows_dict maps a row to the first moment having it.
   Rows of a raw monomial matrix are integer vectors. *)
Fixpoint zmonomial (c : vec) (e : list nat) : Z :=
  match c, e with x :: c, n :: e => (x ^ Z.of_nat n * zmonomial c e)%Z | _, _ => 1%Z end.
Definition zrow (S : stencil) (e : list nat) : list Z := map (fun c => zmonomial c e) S.
Fixpoint first_with_row (S : stencil) (row : list Z) (l : list (list nat)) : option (list nat) :=
  match l with [] => None | m :: l => if vec_eqb (zrow S m) row then Some m else first_with_row S row l end.
(* moments.py:336 aliases.get(m, m); a moment that is not in the list has no alias *)
Definition unalias (S : stencil) (monos : list (list nat)) (m : list nat) : list nat :=
  if tuple_in m monos then match first_with_row S (zrow S m) monos with Some m' => m' | None => m end else m.
(* moments.py:313-345 non_aliased_polynomial_raw_moments (monos = the sorted monomials of all polynomials) *)
(* sympy's Add: like terms are merged, terms with coefficient 0 dropped *)
Fixpoint merge_term (t : R * list nat) (p : poly) : poly :=
  match p with
  | [] => [t]
  | t' :: p' => if tuple_eqb (snd t) (snd t') then (fst t + fst t', snd t') :: p' else t' :: merge_term t p'
  end.
Definition nonzero_term (t : R * list nat) : bool := if Req_EM_T (fst t) 0 then false else true.
Definition sympy_add (p : poly) : poly := filter nonzero_term (fold_right merge_term [] p).
Definition non_aliased_polynomial (S : stencil) (monos : list (list nat)) (p : poly) : poly :=
  sympy_add (map (fun t => (fst t, unalias S monos (snd t))) p).
Definition non_aliased_polynomial_raw_moments (S : stencil) (monos : list (list nat)) (ps : list poly) : list poly :=
  map (non_aliased_polynomial S monos) ps.

(* rawmomenttransforms.py:103 / 158-161: matrix transform *)
Definition matrix_forward (M : mat) (shift f : list R) : list R := radd (mv M f) shift.
Definition matrix_backward (Minv : mat) (shift m : list R) : list R := mv Minv (rsub m shift).

(* rawmomenttransforms.py:297-318 collect_partial_sums, recursion over the remaining exponents (exponents[dimension:]) *)
Fixpoint collect_raw (S : stencil) (f : list R) (fixed : vec) (e : list nat) : R :=
  match e with
  | [] => match index_of fixed S with Some i => nth i f 0 | None => 0 end
  | n :: e' => rsum (map (fun d => collect_raw S f (fixed ++ [d]) e' * IZR d ^ n) [-1; 0; 1]%Z)
  end.
(* rawmomenttransforms.py:320-334 *)
Definition chimera_forward_monomials (S : stencil) (exps : list (list nat)) (shift f : list R) : list R :=
  radd (map (collect_raw S f []) exps) shift.
Definition chimera_forward (S : stencil) (exps : list (list nat)) (P : mat) (shift f : list R) : list R :=
  radd (mv P (map (collect_raw S f []) exps)) shift.
(* rawmomenttransforms.py:389-405 *)
Definition chimera_backward_monomials (Minv : mat) (shift m : list R) : list R := mv Minv (rsub m shift).
Definition chimera_backward (Minv Pinv : mat) (shift m : list R) : list R := mv Minv (mv Pinv (rsub m shift)).

(* moments.py:443-466 set_up_shift_matrix (before the two assertions): MN * M.inv() *)
Definition shift_matrix (n : nat) (MN Minv : mat) : mat := mm n MN Minv.

(* moments.py:462-464: N.is_lower and the sum of the diagonal entries == Q *)
Definition is_lower (N : mat) : Prop := forall i j, (i < j)%nat -> nth j (nth i N []) 0 = 0.
Definition diagonal_sum (N : mat) : R := rsum (map (fun i => nth i (nth i N []) 0) (seq 0 (length N))).

(* centralmomenttransforms.py:70-74, 105, 148-151 *)
Definition central_matrix_forward (n : nat) (N M : mat) (shift f : list R) : list R := radd (mv (mm n N M) f) shift.
Definition central_matrix_backward (n : nat) (Minv Ninv : mat) (shift k : list R) : list R := mv (mm n Minv Ninv) (rsub k shift).

(* centralmomenttransforms.py:566-587; us = equilibrium_velocity[dimension:] *)
Fixpoint collect_central (S : stencil) (f : list R) (us : list R) (fixed : vec) (e : list nat) : R :=
  match e with
  | [] => match index_of fixed S with Some i => nth i f 0 | None => 0 end
  | n :: e' => rsum (map (fun d => collect_central S f (tl us) (fixed ++ [d]) e' * (IZR d - hd 0 us) ^ n) [-1; 0; 1]%Z)
  end.
(* centralmomenttransforms.py:589-601, 644-660 (before the regrouping of 662) *)
Definition fast_forward (S : stencil) (u : list R) (exps : list (list nat)) (P : mat) (shift f : list R) : list R :=
  radd (mv P (map (collect_central S f u []) exps)) shift.
Definition fast_backward (n : nat) (Minv Ninv Pinv : mat) (shift k : list R) : list R :=
  mv (mm n Minv Ninv) (mv Pinv (rsub k shift)).

(* centralmomenttransforms.py:889-923 and 981-996: shift-matrix transform; rshift = raw moments of the background *)
Definition shift_forward (S : stencil) (exps : list (list nat)) (P N : mat) (rshift f : list R) : list R :=
  mv P (mv N (chimera_forward_monomials S exps rshift f)).
Definition shift_backward (Minv Ninv Pinv : mat) (rshift k : list R) : list R :=
  chimera_backward_monomials Minv rshift (mv Ninv (mv Pinv k)).

(* centralmomenttransforms.py:422-447 BinomialChimera._derive; vs = v[depth:] (IndexError if too short), env is the value of
   the symbol of a monomial of the source space, KeyError for a symbol nothing is assigned to. *)
Fixpoint binomial_derive (vs : list R) (env : list nat -> res R) (fixed remaining : list nat) : res R :=
  match remaining with
  | [] => env fixed
  | alpha :: rest =>
    match vs with
    | [] => Err IndexError
    | v :: vs' =>
      rbind (mapM (fun a => rbind (binomial_derive vs' env (fixed ++ [a]) rest)
                                  (fun x => Ok (chooseR alpha a * v ^ (alpha - a) * x))) (seq 0 (alpha + 1)))
            (fun l => Ok (rsum l))
    end
  end.
Definition env_of (exps : list (list nat)) (vals : list R) (e : list nat) : res R :=
  match tuple_index e exps with Some i => Ok (nth i vals 0) | None => Err KeyError end.
(* centralmomenttransforms.py:449-454 *)
Definition binomial_chimera (vs : list R) (exps : list (list nat)) (vals : list R) : res (list R) :=
  mapM (binomial_derive vs (env_of exps vals) []) exps.
(* centralmomenttransforms.py:268-305, 373-394 *)
Definition binomial_forward (S : stencil) (u : list R) (exps : list (list nat)) (P : mat) (rshift f : list R) : res (list R) :=
  rbind (binomial_chimera (map Ropp u) exps (chimera_forward_monomials S exps rshift f)) (fun k => Ok (mv P k)).
Definition binomial_backward (u : list R) (exps : list (list nat)) (Minv Pinv : mat) (rshift k : list R) : res (list R) :=
  rbind (binomial_chimera u exps (mv Pinv k)) (fun m => Ok (chimera_backward_monomials Minv rshift m)).

(* moments.py:599-623 central_moment_reduced_monomial_to_polynomial_matrix: N_P * P_mono * N.inv() *)
Definition reduced_mono_to_poly (n : nat) (NP Pmono Ninv : mat) : mat := mm n (mm n NP Pmono) Ninv.

(* centralmomenttransforms.py:710-779 _split_backward_equations_recursive on an expression that is quadratic in each
   velocity component: [UQ a b c] is a u^2 + b u + c with u the last remaining component (equilibrium_velocity[-1-step]),
   UConst an expression without velocity symbols.  The substitution u^2 -> s - ..., u -> ... followed by collecting powers
   of the proxy v (741-748) is the computation of the coefficients below:
     d = 1:  u^2 = v2 - u, u = (v-1)/2;   d = -1: u^2 = v2 + u, u = (v+1)/2;   d = 0: u^2 = 1 - v2, u = -v/2. *)
Inductive uexpr : Type := UConst (r : R) | UQ (a b c : uexpr).
(* value for the velocity components listed from the last one to the first *)
Fixpoint ueval (us : list R) (x : uexpr) : R :=
  match x with
  | UConst r => r
  | UQ a b c => ueval (tl us) a * (hd 0 us)^2 + ueval (tl us) b * hd 0 us + ueval (tl us) c
  end.
(* linear combinations of expressions *)
Fixpoint uscal (s : R) (x : uexpr) : uexpr :=
  match x with UConst r => UConst (s * r) | UQ a b c => UQ (uscal s a) (uscal s b) (uscal s c) end.
Fixpoint uaddc (r : R) (x : uexpr) : uexpr := match x with UConst r' => UConst (r + r') | UQ a b c => UQ a b (uaddc r c) end.
Fixpoint uadd (x y : uexpr) : uexpr :=
  match x, y with
  | UConst r, _ => uaddc r y
  | _, UConst r => uaddc r x
  | UQ a b c, UQ a' b' c' => UQ (uadd a a') (uadd b b') (uadd c c')
  end.
Definition ulin (s : R) (x : uexpr) (t : R) (y : uexpr) : uexpr := uadd (uscal s x) (uscal t y).
(* coefficients of v^2, v^1, v^0 *)
Definition proxy_coeffs (d : Z) (a b c : uexpr) : uexpr * uexpr * uexpr :=
  if (d =? 0)%Z then (uscal (-1) a, uscal (-1/2) b, ulin 1 a 1 c)
  else if (d =? 1)%Z then (a, ulin (1/2) b (-1/2) a, ulin 1 c 1 (ulin (-1/2) b (1/2) a))
  else (a, ulin (1/2) b (1/2) a, ulin 1 c 1 (ulin (1/2) b (1/2) a)).
Definition grouping_factors (d : Z) (u : R) : R * R * R :=
  if (d =? 0)%Z then (-1, -2 * u, 1 - u^2) else if (d =? 1)%Z then (1, 2 * u + 1, u^2 + u) else (1, 2 * u - 1, u^2 - u).
Definition factor0 (d : Z) : R := if (d =? 0)%Z then -1 else 1.
Definition common_factor (d : Z) : R := if (d =? 0)%Z then 1 else 2.
(* value of the regrouped expression; ds = direction components from the last one to the first, recursion on the depth *)
Fixpoint split_backward (n : nat) (us : list R) (ds : list Z) (x : uexpr) : R :=
  match n, x with
  | Datatypes.S n', UQ a b c =>
    let u := hd 0 us in let d := hd 0%Z ds in
    let '(a', b', c') := proxy_coeffs d a b c in
    let '(g0, g1, g2) := grouping_factors d u in
    let cf := common_factor d in
    let rec y := split_backward n' (tl us) (tl ds) y in
    1 / cf * (g0 * rec (uscal (cf / factor0 d) c') + g1 * rec (uscal cf b') + g2 * rec (uscal cf a'))
  | _, _ => ueval us x
  end.
