(* Model of the polynomial part of src/lbmpy/moments.py (representation, order, shear/bulk classification, Gram-Schmidt,
   default moment sets), of src/lbmpy/methods/default_moment_sets.py, of the assignment of relaxation rates in
   src/lbmpy/methods/creationfunctions.py and of src/lbmpy/relaxationrates.py:23-58.
   Moment polynomials have rational coefficients (sympy is exact on them). *)
From Coq Require Import String List ZArith QArith Bool Arith.
From Verif Require Import StencilModel MomModel EqModel.
Import ListNotations.

(* ------------------------------------------------------------------ polynomials *)
(* sympy expressions in the three moment symbols x, y, z = MOMENT_SYMBOLS (moments.py:48) *)
Inductive expr := Num (q : Q) | Sym (i : nat) | Plus (a b : expr) | Times (a b : expr) | Power (a : expr) (n : nat).
(* an expanded polynomial: list of (coefficient, exponents of x, y, z) *)
Notation qpoly := (list (Q * list nat)).

(* tuple comparison *)
Fixpoint lex_ltb (a b : list nat) : bool :=
  match a, b with
  | x :: a, y :: b => (x <? y)%nat || ((x =? y)%nat && lex_ltb a b)
  | [], _ :: _ => true
  | _, [] => false
  end.
(* sympy's Add: like terms are merged and terms with coefficient 0 disappear.  Terms are kept in descending
   lexicographic order; sympy's order of summands is unspecified. *)
Fixpoint insert_term (t : Q * list nat) (p : qpoly) : qpoly :=
  match p with
  | [] => if Qeq_bool (fst t) 0 then [] else [t]
  | t' :: p' =>
    if tuple_eqb (snd t) (snd t')
    then let s := Qred (fst t + fst t') in if Qeq_bool s 0 then p' else (s, snd t') :: p'
    else if lex_ltb (snd t') (snd t) then (if Qeq_bool (fst t) 0 then p else t :: p) else t' :: insert_term t p'
  end.
Definition qp_add (p q : qpoly) : qpoly := fold_right insert_term q p.
Definition qp_canon (p : qpoly) : qpoly := qp_add p [].
Definition qp_scal (a : Q) (p : qpoly) : qpoly := qp_canon (map (fun t => (Qred (a * fst t), snd t)) p).
Definition tuple_add (a b : list nat) : list nat := map (fun p => (fst p + snd p)%nat) (combine a b).
Definition qp_mul (p q : qpoly) : qpoly :=
  qp_canon (flat_map (fun t => map (fun t' => (Qred (fst t * fst t'), tuple_add (snd t) (snd t'))) q) p).
Definition unit_tuple (i : nat) : list nat := map (fun j => if Nat.eqb i j then 1%nat else 0%nat) (seq 0 3).
Fixpoint qp_pow (p : qpoly) (n : nat) : qpoly := match n with O => [(1%Q, [0; 0; 0]%nat)] | S n => qp_mul p (qp_pow p n) end.
(* moments.py:143-172 polynomial_to_exponent_representation (dim = 3): .expand(), then one pair per summand.
   The zero polynomial is represented by [(0, (0,0,0))] in the code and by [] here; no caller can tell. *)
Fixpoint expand (e : expr) : qpoly :=
  match e with
  | Num q => qp_canon [(q, [0; 0; 0]%nat)]
  | Sym i => [(1%Q, unit_tuple i)]
  | Plus a b => qp_add (expand a) (expand b)
  | Times a b => qp_mul (expand a) (expand b)
  | Power a n => qp_pow (expand a) n
  end.
(* moments.py:124-135 exponent_to_polynomial_representation *)
Definition exponent_to_polynomial (e : list nat) : qpoly := [(1%Q, firstn 3 (e ++ [0; 0; 0]%nat))].

(* value of a polynomial at a point *)
Fixpoint qpow (a : Q) (n : nat) : Q := match n with O => 1%Q | S n => (a * qpow a n)%Q end.
Fixpoint qmono (x : list Q) (e : list nat) : Q :=
  match x, e with a :: x, n :: e => (qpow a n * qmono x e)%Q | _, _ => 1%Q end.
Definition qsum (l : list Q) : Q := fold_right Qplus 0%Q l.
Definition qeval (p : qpoly) (x : list Q) : Q := qsum (map (fun t => (fst t * qmono x (snd t))%Q) p).
Definition vecQ (c : vec) : list Q := map inject_Z c.
(* moments.py:417-440 moment_matrix without shift *)
Definition qmoment_row (S : stencil) (p : qpoly) : list Q := map (fun c => Qred (qeval p (vecQ c))) S.
Definition qmoment_matrix (ps : list qpoly) (S : stencil) : list (list Q) := map (qmoment_row S) ps.

(* sympy's LM with the default lexicographic order, x > y > z *)
Definition leading_monomial (p : qpoly) : list nat :=
  fold_left (fun m t => if lex_ltb m (snd t) then snd t else m) p [0; 0; 0]%nat.
(* moments.py:248-266 get_order, polynomial case (262-263: 0 without symbols) *)
Definition get_order (p : qpoly) : nat := nsum (leading_monomial p).

(* moments.py:348-362 is_bulk_moment; None: returned False inside the loop *)
Definition add_at (found : list Q) (e : list nat) (c : Q) : list Q :=
  map (fun p => if Nat.eqb (snd p) 2 then (fst p + c)%Q else fst p) (combine found (firstn (length found) e ++ repeat 0%nat (length found))).
Definition bulk_step (st : option (bool * list Q)) (t : Q * list nat) : option (bool * list Q) :=
  match st with
  | None => None
  | Some (quadratic, found) =>
    if Nat.eqb (nsum (snd t)) 2 then Some (true, add_at found (snd t) (fst t))
    else if (2 <? nsum (snd t))%nat then None else Some (quadratic, found)
  end.
Definition is_bulk_moment (p : qpoly) (dim : nat) : bool :=
  match fold_left bulk_step p (Some (false, repeat 0%Q dim)) with
  | None => false
  | Some (quadratic, found) =>
    quadratic && negb (forallb (fun f => Qeq_bool f 0) found) && forallb (fun f => Qeq_bool f (hd 0%Q found)) found
  end.
(* moments.py:365-378 is_shear_moment *)
Definition shear_step (st : option bool) (t : Q * list nat) : option bool :=
  match st with
  | None => None
  | Some q => if Nat.eqb (nsum (snd t)) 2 then Some true else if (2 <? nsum (snd t))%nat then None else Some q
  end.
Definition is_shear_moment (p : qpoly) (dim : nat) : bool :=
  if is_bulk_moment p dim then false else match fold_left shear_step p (Some false) with None => false | Some q => q end.

(* ------------------------------------------------------------------ Gram-Schmidt, moments.py:469-509 *)
Definition qdot3 (w a b : list Q) : Q := qsum (map (fun p => (fst (fst p) * snd (fst p) * snd p)%Q) (combine (combine w a) b)).
Definition qsubv (a b : list Q) : list Q := map (fun p => Qred (fst p - snd p)) (combine a b).
(* 498-506: the inner loop over the previous vectors; cur is current_element, m is moments[i] *)
Fixpoint gs_inner (w : list Q) (prev : list (list Q * qpoly)) (cur : list Q) (m : qpoly) : res (list Q * qpoly) :=
  match prev with
  | [] => Ok (cur, m)
  | (v, p) :: prev =>
    let denominator := qdot3 w v v in
    if Qeq_bool denominator 0 then Err ValueError
    else let overlap := Qred (qdot3 w cur v / denominator) in
         gs_inner w prev (qsubv cur (map (Qmult overlap) v)) (qp_add m (qp_scal (- overlap) p))
  end.
(* 496-507: the outer loop; done are the orthogonalised vectors with their polynomials *)
Fixpoint gs_outer (w : list Q) (S : stencil) (prev : list (list Q * qpoly)) (ms : list qpoly) : res (list qpoly) :=
  match ms with
  | [] => Ok (map snd prev)
  | m :: ms => rbind (gs_inner w prev (qmoment_row S m) m) (fun vm => gs_outer w S (prev ++ [vm]) ms)
  end.
(* 482-495; weights None are ones, a list of the wrong length fails the assertion, moments[0] of an empty list raises.
   Exponent tuples are converted first (487-488), here by the caller. *)
Definition gram_schmidt (ms : list qpoly) (S : stencil) (weights : option (list Q)) : res (list qpoly) :=
  let w := match weights with None => repeat 1%Q (sizeQ S) | Some w => w end in
  if negb (Nat.eqb (length w) (sizeQ S)) then Err AssertionError
  else match ms with [] => Err IndexError | _ => gs_outer w S [] ms end.

(* ------------------------------------------------------------------ default moment sets *)
(* str() of a monomial *)
Definition sym_name (i : nat) : string := match i with 0%nat => "x" | 1%nat => "y" | _ => "z" end%string.
Definition factor_str (i n : nat) : list string :=
  match n with O => [] | 1%nat => [sym_name i] | _ => [String.append (sym_name i) (String.append "**" (str_nat n))] end.
Definition monomial_str (e : list nat) : string :=
  match flat_map (fun p => factor_str (fst p) (snd p)) (combine (seq 0 (length e)) e) with
  | [] => "1"
  | l => String.concat "*" l
  end%string.
(* number of atoms(sp.Symbol) *)
Definition num_symbols (p : qpoly) : nat :=
  length (filter (fun i => existsb (fun t => (0 <? nth i (snd t) 0)%nat) p) (seq 0 3)).
(* moments.py:175-179 moment_sort_key; the string is passed along *)
Definition sort_key := (nat * nat * nat * string)%type.
Definition moment_sort_key (m : qpoly * string) : sort_key :=
  (get_order (fst m), num_symbols (fst m), String.length (snd m), snd m).
Definition key_ltb (a b : sort_key) : bool :=
  match a, b with
  | (a1, a2, a3, a4), (b1, b2, b3, b4) =>
    (a1 <? b1)%nat || ((a1 =? b1)%nat && ((a2 <? b2)%nat || ((a2 =? b2)%nat && ((a3 <? b3)%nat || ((a3 =? b3)%nat && String.ltb a4 b4)))))
  end.
(* sorted(): stable *)
Fixpoint insert_moment (m : qpoly * string) (l : list (qpoly * string)) : list (qpoly * string) :=
  match l with
  | [] => [m]
  | m' :: l' => if key_ltb (moment_sort_key m') (moment_sort_key m) then m' :: insert_moment m l' else m :: l
  end.
Definition sort_moments (l : list (qpoly * string)) : list qpoly := map fst (fold_right insert_moment [] l).
Definition poly_with_str (e : list nat) : qpoly * string := (exponent_to_polynomial e, monomial_str e).

Declare Scope expr_scope.
Delimit Scope expr_scope with expr.
Bind Scope expr_scope with expr.
Notation "a + b" := (Plus a b) : expr_scope.
Notation "a * b" := (Times a b) : expr_scope.
Notation "a - b" := (Plus a (Times (Num (-1)) b)) : expr_scope.
Notation "a ^ n" := (Power a n%nat) : expr_scope.
Notation ex := (Sym 0).
Notation ey := (Sym 1).
Notation ez := (Sym 2).
Definition C (z : Z) : expr := Num (inject_Z z).
Arguments C z%Z.

(* moments.py:512-548 get_default_moment_set_for_stencil (decided by D and Q only).  The set differences of exponent
   tuples are lists here; sorting makes the order irrelevant. *)
Definition all27 : list (list nat) := moments_up_to_component_order 2 3.
Definition without (l remove : list (list nat)) : list (list nat) := filter (fun e => negb (tuple_in e (extend_moments_with_permutations remove))) l.
Definition get_default_moment_set_for_stencil (S : stencil) : res (list qpoly) :=
  let D := dimD S in let q := sizeQ S in
  if (D =? 2)%nat && (q =? 9)%nat then Ok (sort_moments (map poly_with_str (moments_up_to_component_order 2 2)))
  else if (D =? 3)%nat && (q =? 27)%nat then Ok (sort_moments (map poly_with_str all27))
  else if (D =? 3)%nat && (q =? 19)%nat then
    Ok (sort_moments (map poly_with_str (without all27 [[1; 2; 2]; [1; 1; 2]; [2; 2; 2]; [1; 1; 1]]%nat)))
  else if (D =? 3)%nat && (q =? 15)%nat then
    Ok (sort_moments (map poly_with_str (without all27 [[1; 2; 0]; [2; 2; 0]; [1; 1; 2]; [1; 2; 2]; [2; 2; 2]]%nat)
      ++ [(expand (C 6 * (ex ^ 2 * ey ^ 2 + ex ^ 2 * ez ^ 2 + ey ^ 2 * ez ^ 2))%expr, "6*x**2*y**2 + 6*x**2*z**2 + 6*y**2*z**2"%string);
          (expand (C 3 * (ex * (ey ^ 2 + ez ^ 2)))%expr, "3*x*(y**2 + z**2)"%string);
          (expand (C 3 * (ey * (ex ^ 2 + ez ^ 2)))%expr, "3*y*(x**2 + z**2)"%string);
          (expand (C 3 * (ez * (ex ^ 2 + ey ^ 2)))%expr, "3*z*(x**2 + y**2)"%string)]))
  else if (D =? 3)%nat && (q =? 7)%nat then
    Ok (sort_moments (map poly_with_str
        (without all27 [[1; 1; 0]; [1; 1; 1]; [1; 1; 2]; [1; 2; 0]; [1; 2; 2]; [2; 0; 0]; [2; 2; 0]; [2; 2; 2]]%nat)
      ++ [(expand (ex ^ 2 - ey ^ 2)%expr, "x**2 - y**2"%string);
          (expand (ex ^ 2 - ez ^ 2)%expr, "x**2 - z**2"%string);
          (expand (ex ^ 2 + ey ^ 2 + ez ^ 2)%expr, "x**2 + y**2 + z**2"%string)]))
  else Err NotImplementedError.

Definition one_e : expr := C 1.
(* default_moment_sets.py:9-151 cascaded_moment_sets_literature *)
Definition shear3 : list expr := [ex * ey; ex * ez; ey * ez; ex ^ 2 - ey ^ 2; ex ^ 2 - ez ^ 2]%expr.
Definition third_plus : list expr := [ex * ey ^ 2 + ex * ez ^ 2; ex ^ 2 * ey + ey * ez ^ 2; ex ^ 2 * ez + ey ^ 2 * ez]%expr.
Definition third_minus : list expr := [ex * ey ^ 2 - ex * ez ^ 2; ex ^ 2 * ey - ey * ez ^ 2; ex ^ 2 * ez - ey ^ 2 * ez]%expr.
Definition fourth_diag : list expr :=
  [ex ^ 2 * ey ^ 2 - C 2 * ex ^ 2 * ez ^ 2 + ey ^ 2 * ez ^ 2; ex ^ 2 * ey ^ 2 + ex ^ 2 * ez ^ 2 - C 2 * ey ^ 2 * ez ^ 2]%expr.
Definition fourth_sum : list expr := [ex ^ 2 * ey ^ 2 + ex ^ 2 * ez ^ 2 + ey ^ 2 * ez ^ 2]%expr.
Definition sq3 : expr := (ex ^ 2 + ey ^ 2 + ez ^ 2)%expr.
Definition cascaded_moment_sets_literature (S : stencil) : res (list (list expr)) :=
  if have_same_entries S D2Q9_walberla then
    Ok [[one_e]; [ex; ey]; [ex * ey; ex ^ 2 - ey ^ 2]; [ex ^ 2 + ey ^ 2]; [ex ^ 2 * ey; ex * ey ^ 2]; [ex ^ 2 * ey ^ 2]]%expr
  else if have_same_entries S D3Q7_walberla then
    Ok [[one_e]; [ex; ey; ez]; [ex ^ 2 - ey ^ 2; ex ^ 2 - ez ^ 2]; [sq3]]%expr
  else if have_same_entries S D3Q15_walberla then
    Ok [[one_e]; [ex; ey; ez]; shear3; [sq3]; [ex * sq3; ey * sq3; ez * sq3]; [ex * ey * ez]; fourth_sum]%expr
  else if have_same_entries S D3Q19_walberla then
    Ok [[one_e]; [ex; ey; ez]; shear3; [sq3]; third_plus; third_minus; fourth_diag; fourth_sum]
  else if have_same_entries S D3Q27_walberla then
    Ok [[one_e]; [ex; ey; ez]; shear3; [sq3]; third_plus; third_minus; [ex * ey * ez]; fourth_diag; fourth_sum;
        [ex ^ 2 * ey * ez; ex * ey ^ 2 * ez; ex * ey * ez ^ 2];
        [ex ^ 2 * ey ^ 2 * ez; ex ^ 2 * ey * ez ^ 2; ex * ey ^ 2 * ez ^ 2];
        [ex ^ 2 * ey ^ 2 * ez ^ 2]]%expr
  else Err ValueError.

(* moments.py:186-192 on polynomials: dictionary order -> moments in order of first occurrence; .values() *)
Fixpoint group_by_order {M} (rep : M -> qpoly) (d : list (nat * list M)) (m : M) : list (nat * list M) :=
  match d with
  | [] => [(get_order (rep m), [m])]
  | (o, ms) :: d' => if Nat.eqb o (get_order (rep m)) then (o, ms ++ [m]) :: d' else (o, ms) :: group_by_order rep d' m
  end.
Definition groups_of_same_order {M} (rep : M -> qpoly) (l : list M) : list (list M) := map snd (fold_left (group_by_order rep) l []).

(* default_moment_sets.py:154-241 mrt_orthogonal_modes_literature *)
Definition mrt_orthogonal_modes_literature (S : stencil) (is_weighted : bool) : res (list (list expr)) :=
  if have_same_entries S D2Q9_walberla && is_weighted then
    let sq := (ex ^ 2 + ey ^ 2)%expr in
    Ok (groups_of_same_order expand
      [one_e; ex; ey; C 3 * sq - C 2; C 2 * ex ^ 2 - sq; ex * ey; (C 3 * sq - C 4) * ex; (C 3 * sq - C 4) * ey;
       C 9 * sq ^ 2 - C 15 * sq + C 2]%expr)
  else if have_same_entries S D3Q15_walberla && is_weighted then
    let sq := sq3 in
    Ok [[one_e; ex; ey; ez]; [sq - C 1]; [C 3 * sq ^ 2 - C 9 * sq + C 4];
        [(C 3 * sq - C 5) * ex; (C 3 * sq - C 5) * ey; (C 3 * sq - C 5) * ez];
        [C 3 * ex ^ 2 - sq; ey ^ 2 - ez ^ 2; ex * ey; ey * ez; ex * ez]; [ex * ey * ez]]%expr
  else if have_same_entries S D3Q19_walberla && is_weighted then
    let sq := sq3 in
    Ok [[one_e; ex; ey; ez]; [sq - C 1]; [C 3 * sq ^ 2 - C 6 * sq + C 1];
        [(C 3 * sq - C 5) * ex; (C 3 * sq - C 5) * ey; (C 3 * sq - C 5) * ez];
        [C 3 * ex ^ 2 - sq; ey ^ 2 - ez ^ 2; ex * ey; ey * ez; ex * ez];
        [(C 2 * sq - C 3) * (C 3 * ex ^ 2 - sq); (C 2 * sq - C 3) * (ey ^ 2 - ez ^ 2)];
        [(ey ^ 2 - ez ^ 2) * ex; (ez ^ 2 - ex ^ 2) * ey; (ex ^ 2 - ey ^ 2) * ez]]%expr
  else if have_same_entries S D3Q27_walberla && negb is_weighted then
    let xsq := (ex ^ 2)%expr in let ysq := (ey ^ 2)%expr in let zsq := (ez ^ 2)%expr in
    Ok (groups_of_same_order expand
      [one_e; ex; ey; ez; ex * ey; ex * ez; ey * ez; xsq - ysq; (xsq + ysq + zsq) - C 3 * zsq; (xsq + ysq + zsq) - C 2;
       C 3 * (ex * ysq + ex * zsq) - C 4 * ex; C 3 * (xsq * ey + ey * zsq) - C 4 * ey; C 3 * (xsq * ez + ysq * ez) - C 4 * ez;
       ex * ysq - ex * zsq; xsq * ey - ey * zsq; xsq * ez - ysq * ez; ex * ey * ez;
       C 3 * (xsq * ysq + xsq * zsq + ysq * zsq) - C 4 * (xsq + ysq + zsq) + C 4;
       C 3 * (xsq * ysq + xsq * zsq - C 2 * ysq * zsq) - C 2 * (C 2 * xsq - ysq - zsq);
       C 3 * (xsq * ysq - xsq * zsq) - C 2 * (ysq - zsq);
       C 3 * (xsq * ey * ez) - C 2 * (ey * ez); C 3 * (ex * ysq * ez) - C 2 * (ex * ez); C 3 * (ex * ey * zsq) - C 2 * (ex * ey);
       C 9 * (ex * ysq * zsq) - C 6 * (ex * ysq + ex * zsq) + C 4 * ex;
       C 9 * (xsq * ey * zsq) - C 6 * (xsq * ey + ey * zsq) + C 4 * ey;
       C 9 * (xsq * ysq * ez) - C 6 * (xsq * ez + ysq * ez) + C 4 * ez;
       C 27 * (xsq * ysq * zsq) - C 18 * (xsq * ysq + xsq * zsq + ysq * zsq) + C 12 * (xsq + ysq + zsq) - C 8]%expr)
  else Err NotImplementedError.

(* sympy's == on expanded polynomials *)
Fixpoint qpoly_eqb (p q : qpoly) : bool :=
  match p, q with
  | [], [] => true
  | s :: p, t :: q => Qeq_bool (fst s) (fst t) && tuple_eqb (snd s) (snd t) && qpoly_eqb p q
  | _, _ => false
  end.
(* moments[moments.index(m)] = m' if m in moments *)
Fixpoint replace_first (m m' : qpoly) (l : list qpoly) : list qpoly :=
  match l with [] => [] | a :: l' => if qpoly_eqb a m then m' :: l' else a :: replace_first m m' l' end.
(* methods/creationfunctions.py:510-516 and 361-367: split the third group into shear and bulk moments *)
Definition split_second_order {M} (rep : M -> qpoly) (dim : nat) (nested : list (list M)) : res (list (list M)) :=
  match nested with
  | g0 :: g1 :: g2 :: rest =>
    let bulk := filter (fun m => is_bulk_moment (rep m) dim) g2 in
    let shear := filter (fun m => is_shear_moment (rep m) dim) g2 in
    if Nat.eqb (length shear + length bulk) (length g2) then Ok (g0 :: g1 :: shear :: bulk :: rest) else Err AssertionError
  | _ => Err IndexError
  end.
(* methods/creationfunctions.py:491-516: the default modes of create_mrt_orthogonal (nested_moments not given).  The
   multiplication by the common denominator (508) scales every polynomial by a nonzero number and is left out. *)
Definition diagonal_viscous_moments (D : nat) : list expr :=
  if (D =? 2)%nat then [ex ^ 2 + ey ^ 2; ex ^ 2]%expr else [sq3; ex ^ 2; ey ^ 2 - ez ^ 2]%expr.
Definition orthogonal_default_moments (S : stencil) (weighted : bool) : res (list qpoly) :=
  rbind (if weighted then rbind (get_weights S) (fun w => Ok (Some w)) else Ok None) (fun weights =>
  rbind (get_default_moment_set_for_stencil S) (fun moments =>
  let moments := fold_left (fun ms id => replace_first (expand (Sym (fst id) ^ 2)%expr) (expand (snd id)) ms)
                           (combine (seq 0 (dimD S)) (diagonal_viscous_moments (dimD S))) moments in
  gram_schmidt moments S weights)).
Definition orthogonal_default_groups (S : stencil) (weighted : bool) : res (list (list qpoly)) :=
  rbind (orthogonal_default_moments S weighted) (fun ms => split_second_order (fun p => p) (dimD S) (groups_of_same_order (fun p => p) ms)).

(* ------------------------------------------------------------------ relaxation rates *)
Section Rates.
  (* moments (python objects, compared by ==), their polynomial, and relaxation rates (numbers, symbols, expressions) *)
  Context {M V : Type} (Meqb : M -> M -> bool) (rep : M -> qpoly) (vzero vone : V).

  (* python dict *)
  Fixpoint dict_set (d : list (M * V)) (k : M) (v : V) : list (M * V) :=
    match d with
    | [] => [(k, v)]
    | (k', v') :: d' => if Meqb k' k then (k', v) :: d' else (k', v') :: dict_set d' k v
    end.
  Fixpoint dict_get (d : list (M * V)) (k : M) : option V :=
    match d with [] => None | (k', v) :: d' => if Meqb k' k then Some v else dict_get d' k end.

  Definition count_moments (f : M -> bool) (nested : list (list M)) : nat := length (filter f (concat nested)).

  (* creationfunctions.py:637-652 *)
  Definition one_rate (dim : nat) (conserved : bool) (rr : V) (m : M) : V :=
    if conserved
    then if (get_order (rep m) <=? 1)%nat then vzero else if is_shear_moment (rep m) dim then rr else vone
    else if is_shear_moment (rep m) dim || (get_order (rep m) <=? 1)%nat then rr else vone.
  (* 654-660 *)
  Fixpoint zip_rates (d : list (M * V)) (ms : list M) (rates : list V) : res (list (M * V)) :=
    match ms, rates with
    | [], _ => Ok d
    | m :: ms, r :: rates => zip_rates (dict_set d m r) ms rates
    | _ :: _, [] => Err StopIteration
    end.
  (* 675-693, one group; a variable that was never assigned is None.  Returns the dictionary and next_rr. *)
  Fixpoint fallback_group (dim : nat) (conserved : bool) (shear_rr bulk_rr : option V) (rr : V)
           (d : list (M * V)) (next_rr : bool) (group : list M) : res (list (M * V) * bool) :=
    match group with
    | [] => Ok (d, next_rr)
    | m :: group =>
      let continue d next_rr := fallback_group dim conserved shear_rr bulk_rr rr d next_rr group in
      let assign o := match o with Some v => continue (dict_set d m v) next_rr | None => Err UnboundLocalError end in
      if conserved then
        if (get_order (rep m) <=? 1)%nat then continue (dict_set d m vzero) next_rr
        else if is_shear_moment (rep m) dim then assign shear_rr
        else if is_bulk_moment (rep m) dim then assign bulk_rr
        else continue (dict_set d m rr) true
      else
        if is_shear_moment (rep m) dim || (get_order (rep m) <=? 1)%nat then assign shear_rr
        else if is_bulk_moment (rep m) dim then assign bulk_rr
        else continue (dict_set d m rr) true
    end.
  (* 671-693: rates are what is left of rr_iter, rr is None before the first group *)
  Fixpoint fallback_groups (dim : nat) (conserved : bool) (shear_rr bulk_rr : option V) (next_rr : bool) (rr : option V)
           (rates : list V) (d : list (M * V)) (nested : list (list M)) : res (list (M * V)) :=
    match nested with
    | [] => Ok d
    | group :: nested =>
      let run rr rates := rbind (fallback_group dim conserved shear_rr bulk_rr rr d false group) (fun dn =>
                                 fallback_groups dim conserved shear_rr bulk_rr (snd dn) (Some rr) rates (fst dn) nested) in
      if next_rr then match rates with r :: rates => run r rates | [] => Err ValueError end
      else match rr with Some r => run r rates | None => Err UnboundLocalError end
    end.
  (* 662-702; StopIteration becomes ValueError *)
  Definition fallback_rates (dim : nat) (conserved : bool) (rates : list V) (nested : list (list M)) : res (list (M * V)) :=
    let shear_moments := count_moments (fun m => is_shear_moment (rep m) dim) nested in
    let bulk_moments := count_moments (fun m => is_bulk_moment (rep m) dim) nested in
    let next rates (k : V -> list V -> res (list (M * V))) := match rates with r :: rs => k r rs | [] => Err ValueError end in
    let with_shear (k : option V -> list V -> res (list (M * V))) :=
      if (0 <? shear_moments)%nat then next rates (fun r rs => k (Some r) rs) else k None rates in
    with_shear (fun shear_rr rates =>
      let continue bulk_rr rates := fallback_groups dim conserved shear_rr bulk_rr true None rates [] nested in
      if (0 <? bulk_moments)%nat then next rates (fun r rs => continue (Some r) rs) else continue None rates).

  (* 615-619: a callable gets the group and returns the rates of its moments *)
  Fixpoint callable_rates (f : list M -> list V) (d : list (M * V)) (nested : list (list M)) : res (list (M * V)) :=
    match nested with [] => Ok d | g :: nested => rbind (zip_rates d g (f g)) (fun d => callable_rates f d nested) end.

  (* 600-706 _get_relaxation_info_dict; modifier multiplies every rate *)
  Inductive rate_spec := Callable (f : list M -> list V) | Rates (l : list V).
  Definition apply_modifier (modifier : option (V -> V)) (d : list (M * V)) : list (M * V) :=
    match modifier with None => d | Some h => map (fun kv => (fst kv, h (snd kv))) d end.
  Definition get_relaxation_info_dict (rr : rate_spec) (nested : list (list M)) (dim : nat) (conserved : bool)
             (modifier : option (V -> V)) : res (list (M * V)) :=
    rbind match rr with
          | Callable f => callable_rates f [] nested
          | Rates rates =>
            let n := length (concat nested) in
            let d := match rates with
                     | [r] => fold_left (fun d m => dict_set d m (one_rate dim conserved r m)) (concat nested) []
                     | _ => []
                     end in
            if Nat.eqb (length rates) n then zip_rates d (concat nested) rates
            else if Nat.eqb (length rates) 1 then Ok d
            else fallback_rates dim conserved rates nested
          end (fun d => Ok (apply_modifier modifier d)).

  (* relaxationrates.py:23-46 get_shear_relaxation_rate of a method without that attribute: the python set of the rates *)
  Context (Veqb : V -> V -> bool).
  Fixpoint add_rate (v : V) (l : list V) : list V :=
    match l with [] => [v] | v' :: l' => if Veqb v' v then l else v' :: add_rate v l' end.
  Definition rate_set (l : list V) : list V := fold_left (fun s v => add_rate v s) l [].
  Definition get_shear_relaxation_rate (dim : nat) (d : list (M * V)) : res V :=
    match rate_set (map snd (filter (fun kv => is_shear_moment (rep (fst kv)) dim) d)) with
    | [r] => Ok r
    | _ :: _ :: _ => Err ValueError
    | [] => match rate_set (map snd d) with [r] => Ok r | _ => Err NotImplementedError end
    end.
  (* relaxationrates.py:49-58 get_bulk_relaxation_rate *)
  Definition get_bulk_relaxation_rate (dim : nat) (d : list (M * V)) : res V :=
    match find (fun kv => is_bulk_moment (rep (fst kv)) dim) d with
    | Some kv => Ok (snd kv)
    | None => get_shear_relaxation_rate dim d
    end.
End Rates.
