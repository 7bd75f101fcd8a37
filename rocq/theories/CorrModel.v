(* Model of src/lbmpy/methods/cumulantbased/galilean_correction.py and fourth_order_correction.py, and of their use in
   src/lbmpy/creationfunctions.py:692-707 and 836-846.
   A collision rule is modelled by the function [post] that computes the post-collision polynomial cumulants
   (CollModel.cumulant_collision_with).  Divisions of the generated kernel that are undefined (nan or inf there) give
   Err ZeroDivisionError. *)
From Coq Require Import String List ZArith QArith Bool Arith Reals.
From Verif Require Import StencilModel RealLib LinLib TransSpec MomModel EqModel CumModel CollModel ModeModel.
Import ListNotations.
Local Open Scope R_scope.

Definition undefined_if_none {A} (o : option A) : res A := match o with Some a => Ok a | None => Err ZeroDivisionError end.

(* exponents of the monomial cumulants used *)
Definition e_xx := [2; 0; 0]%nat. Definition e_yy := [0; 2; 0]%nat. Definition e_zz := [0; 0; 2]%nat.
Definition e_xy := [1; 1; 0]%nat. Definition e_xz := [1; 0; 1]%nat. Definition e_yz := [0; 1; 1]%nat.
Definition e_xyy := [1; 2; 0]%nat. Definition e_xzz := [1; 0; 2]%nat. Definition e_xyz := [1; 1; 1]%nat.

(* galilean_correction.py:13 *)
Definition galilean_polys : list qpoly := map expand [ex ^ 2 - ey ^ 2; ex ^ 2 - ez ^ 2; sq3]%expr.
(* fourth_order_correction.py:11-16 *)
Definition fourth_mixed : list expr := [ex ^ 2 * ey * ez; ex * ey ^ 2 * ez; ex * ey * ez ^ 2]%expr.
Definition fourth_polys : list qpoly := map expand (fourth_diag ++ fourth_sum ++ fourth_mixed).

(* set(a) < set(b) *)
Definition poly_in (p : qpoly) (l : list qpoly) : bool := existsb (qpoly_eqb p) l.
Definition strict_subset (a b : list qpoly) : bool := forallb (fun p => poly_in p b) a && existsb (fun q => negb (poly_in q a)) b.
(* polynomials.index(poly); only called for members *)
Fixpoint poly_index (p : qpoly) (l : list qpoly) : nat :=
  match l with [] => 0%nat | q :: l => if qpoly_eqb p q then 0%nat else S (poly_index p l) end.
(* subexp_dict[sym] += cor *)
Fixpoint add_at_index (i : nat) (x : R) (l : list R) : list R :=
  match l, i with [] , _ => [] | a :: l, O => (a + x) :: l | a :: l, S i => a :: add_at_index i x l end.
Definition add_corrections (ps targets : list qpoly) (corr C : list R) : list R :=
  fold_left (fun C tc => add_at_index (poly_index (fst tc) ps) (snd tc) C) (combine targets corr) C.

(* lb_method.stencil != LBStencil(Stencil.D3Q27) *)
Definition is_D3Q27 (st : lbstencil) : bool :=
  match lbstencil_of_name "D3Q27" "walberla" with Ok s => lbstencil_eq st s | Err _ => false end.

Section Rates.
  (* relaxation rates are numbers, symbols or expressions; compared with == *)
  Context {V : Type} (Veqb : V -> V -> bool).
  (* relaxation_rate_dict[p]: a missing key is a KeyError, which the except clause for IndexError does not catch *)
  Definition rate_of (d : list (qpoly * V)) (p : qpoly) : res V :=
    match dict_get qpoly_eqb d p with Some v => Ok v | None => Err KeyError end.
  Definition gal n := nth n galilean_polys [].
  Definition fou n := nth n fourth_polys [].
  (* galilean_correction.py:58-69 *)
  Definition galilean_rates (d : list (qpoly * V)) : res (V * V) :=
    rbind (rate_of d (gal 0)) (fun o1 =>
    rbind (rate_of d (gal 1)) (fun o1' =>
    if negb (Veqb o1 o1') then Err AssertionError else
    rbind (rate_of d (gal 2)) (fun o2 => Ok (o1, o2)))).
  (* fourth_order_correction.py:97-109: omega_1, omega_2, omega_6, omega_7, omega_8.  The chained comparison of 109 compares
     omega_8 with pc5 first. *)
  Definition fourth_rates (d : list (qpoly * V)) : res (V * V * V * V * V) :=
    rbind (rate_of d (expand (ex * ey)%expr)) (fun o1 =>
    rbind (rate_of d (expand sq3)) (fun o2 =>
    rbind (rate_of d (fou 0)) (fun o6 =>
    rbind (rate_of d (fou 1)) (fun o6' =>
    if negb (Veqb o6 o6') then Err AssertionError else
    rbind (rate_of d (fou 2)) (fun o7 =>
    rbind (rate_of d (fou 3)) (fun o8 =>
    rbind (rate_of d (fou 4)) (fun o8' =>
    if negb (Veqb o8 o8') then Err AssertionError else
    rbind (rate_of d (fou 5)) (fun o8'' =>
    if negb (Veqb o8' o8'') then Err AssertionError else Ok (o1, o2, o6, o7, o8))))))))).
End Rates.

(* galilean_correction.py:79-83, fourth_order_correction.py:134-138: approximations of dx u, dy v, dz w *)
Definition velocity_gradients (o1 o2 rho : R) (c : list nat -> R) : option (R * R * R) :=
  obind (rdiv (- o1) (2 * rho)) (fun m1 =>
  obind (rdiv o2 (2 * rho)) (fun m2 =>
  obind (rdiv (3 * o1) (2 * rho)) (fun m3 =>
  let dx := m1 * (2 * c e_xx - c e_yy - c e_zz) - m2 * (c e_xx + c e_yy + c e_zz - rho) in
  Some (dx, dx + m3 * (c e_xx - c e_yy), dx + m3 * (c e_xx - c e_zz))))).

(* galilean_correction.py:86-90 *)
Definition galilean_terms (o1 o2 rho : R) (u : list R) (D : R * R * R) : list R :=
  let '(dx, dy, dz) := D in
  let ux := nth 0 u 0 in let uy := nth 1 u 0 in let uz := nth 2 u 0 in
  [ - 3 * rho * (1 - o1 / 2) * (ux ^ 2 * dx - uy ^ 2 * dy);
    - 3 * rho * (1 - o1 / 2) * (ux ^ 2 * dx - uz ^ 2 * dz);
    - 3 * rho * (1 - o2 / 2) * (ux ^ 2 * dx + uy ^ 2 * dy + uz ^ 2 * dz) ].

Definition collision_post := R -> list R -> (list nat -> R) -> list R -> res (list R).

(* cumulantbasedmethod.py:374-379: C* = C + omega (C^eq - C), polynomial by polynomial (without corrections) *)
Definition relaxation_post (ps : list poly) (eqC : R -> list R -> list nat -> R) (rates : list R) : collision_post :=
  fun rho u _ C => Ok (relax rates (equilibrium_values ps (eqC rho u)) C).

(* galilean_correction.py:21-53.  [ps]: method.cumulants, [d]: relaxation_rate_dict, [val]: the numbers the rates stand for.
   If the polynomials are missing, ', '.join of sympy expressions raises TypeError while the ValueError is being built. *)
Definition add_galilean_correction {V} (Veqb : V -> V -> bool) (val : V -> R) (cumulant_method : bool) (st : lbstencil)
  (ps : list qpoly) (d : list (qpoly * V)) (post : collision_post) : res collision_post :=
  if negb cumulant_method || negb (is_D3Q27 st) then Err ValueError
  else if negb (strict_subset galilean_polys ps) then Err TypeError
  else rbind (galilean_rates Veqb d) (fun o =>
    let o1 := val (fst o) in let o2 := val (snd o) in
    Ok (fun rho u c C =>
      rbind (undefined_if_none (velocity_gradients o1 o2 rho c)) (fun D =>
      rbind (post rho u c C) (fun C' => Ok (add_corrections ps galilean_polys (galilean_terms o1 o2 rho u D) C'))))).

(* fourth_order_correction.py:70-93 *)
Definition optimal_additional_parameters (o1 o2 : R) : option (R * R) :=
  let o11 := o1 * o1 in let o12 := o1 * o2 in let o22 := o2 * o2 in
  let denom := (o1 - o2) * (o2 * (2 + 3 * o1) - 8 * o1) in
  obind (rdiv (4 * o11 + 2 * o12 * (o1 - 6) + o22 * (o1 * (10 - 3 * o1) - 4)) denom) (fun a =>
  obind (rdiv (4 * o12 * (9 * o1 - 16) - 4 * o11 - 2 * o22 * (2 + 9 * o1 * (o1 - 2))) (3 * denom)) (fun b =>
  Some (a, b))).

(* 139-141 *)
Definition mixed_gradients (o1 rho : R) (c : list nat -> R) : option (R * R * R) :=
  obind (rdiv (- 3 * o1) rho) (fun m => Some (m * c e_xy, m * c e_xz, m * c e_yz)).

(* 149-155; D = (Dx, Dy, Dz), E = (DxvDyu, DxwDzu, DywDzv) *)
Definition fourth_order_terms (o1 o6 o7 o8 rho a b : R) (D E : R * R * R) : option (list R) :=
  let '(dxu, dyv, dzw) := D in let '(dxvdyu, dxwdzu, dywdzv) := E in
  obind (rdiv 1 o1) (fun t =>
  Some [ 2 / 3 * (t - 1 / 2) * o6 * a * rho * (dxu - 2 * dyv + dzw);
         2 / 3 * (t - 1 / 2) * o6 * a * rho * (dxu + dyv - 2 * dzw);
         - (4 / 3) * (t - 1 / 2) * o7 * a * rho * (dxu + dyv + dzw);
         - (1 / 3) * (t - 1 / 2) * o8 * b * rho * dywdzv;
         - (1 / 3) * (t - 1 / 2) * o8 * b * rho * dxwdzu;
         - (1 / 3) * (t - 1 / 2) * o8 * b * rho * dxvdyu ]).

(* 187-198: the rates of the third-order cumulants *)
Definition optimal_rates (o1 o2 : R) : option (R * R * R) :=
  let o11 := o1 * o1 in let o12 := o1 * o2 in let o22 := o2 * o2 in
  obind (rdiv (8 * (o1 - 2) * (o2 * (3 * o1 - 1) - 5 * o1))
              (8 * (5 - 2 * o1) * o1 + o2 * (8 + o1 * (9 * o1 - 26)))) (fun o3 =>
  obind (rdiv (8 * (o1 - 2) * (o1 + o2 * (3 * o1 - 7)))
              (o2 * (56 - 42 * o1 + 9 * o11) - 8 * o1)) (fun o4 =>
  obind (rdiv (24 * (o1 - 2) * (4 * o11 + o12 * (18 - 13 * o1) + o22 * (2 + o1 * (6 * o1 - 11))))
              (16 * o11 * (o1 - 6) - 2 * o12 * (216 + 5 * o1 * (9 * o1 - 46)) + o22 * (o1 * (3 * o1 - 10) * (15 * o1 - 28) - 48))) (fun o5 =>
  Some (o3, o4, o5)))).

(* 211-216 *)
Definition limited_rate (limiter rho omega x : R) : option R :=
  obind (rdiv ((1 - omega) * Rabs x) (rho * limiter + Rabs x)) (fun t => Some (omega + t)).
(* 202-236: values of the ten symbols corr_rr_0 .. corr_rr_9 *)
Definition fourth_order_rates (shear bulk limiter rho : R) (c : list nat -> R) : option (list R) :=
  obind (optimal_rates shear bulk) (fun o =>
  let '(o3, o4, o5) := o in
  obind (limited_rate limiter rho o3 (c e_xyy + c e_xzz)) (fun l3 =>
  obind (limited_rate limiter rho o4 (c e_xyy - c e_xzz)) (fun l4 =>
  obind (limited_rate limiter rho o5 (c e_xyz)) (fun l5 =>
  Some [shear; bulk; l3; l4; l5; 1; 1; 1; 1; 1])))).

(* relaxation rates of a method created for the fourth-order correction (creationfunctions.py:836-846): the symbols corr_rr_i,
   and the constants used for conserved moments *)
Inductive rate_symbol := RZero | ROne | RCorr (i : nat).
Definition rate_symbol_eqb (a b : rate_symbol) : bool :=
  match a, b with RZero, RZero | ROne, ROne => true | RCorr i, RCorr j => Nat.eqb i j | _, _ => false end.
Definition rate_value (rates : list R) (r : rate_symbol) : R := match r with RZero => 0 | ROne => 1 | RCorr i => nth i rates 0 end.
Definition symbolic_rates : list rate_symbol := map RCorr (seq 0 10).

(* creationfunctions.py:836-855 with the default moments: cumulants and relaxation rate dictionary *)
Definition fourth_order_method (S : stencil) (nrates : nat) : res (list qpoly * list (qpoly * rate_symbol)) :=
  if negb (Nat.eqb (dimD S) 3) && negb (Nat.eqb (sizeQ S) 27) then Err ValueError
  else if (2 <? nrates)%nat then Err AssertionError
  else rbind (cascaded_moment_sets_literature S) (fun nested =>
    let nested := map (map expand) nested in
    rbind (get_relaxation_info_dict qpoly_eqb (fun p => p) RZero ROne (Rates symbolic_rates) nested (dimD S) true None) (fun d =>
    Ok (map fst d, d))).

(* creationfunctions.py:700-707 and fourth_order_correction.py:21-67.  [post rates]: the collision rule of the method with
   values for corr_rr_i. *)
Definition add_fourth_order_correction (cumulant_method : bool) (st : lbstencil) (ps : list qpoly) (d : list (qpoly * rate_symbol))
  (shear bulk limiter : R) (post : list R -> collision_post) : res collision_post :=
  if negb cumulant_method || negb (is_D3Q27 st) then Err ValueError
  else if negb (strict_subset fourth_polys ps) then Err TypeError
  else rbind (fourth_rates rate_symbol_eqb d) (fun o =>
    let '(s1, s2, s6, s7, s8) := o in
    Ok (fun rho u c C =>
      rbind (undefined_if_none
        (obind (fourth_order_rates shear bulk limiter rho c) (fun rates =>
         let val := rate_value rates in
         obind (optimal_additional_parameters shear bulk) (fun ab =>
         obind (velocity_gradients (val s1) (val s2) rho c) (fun D =>
         obind (mixed_gradients (val s1) rho c) (fun E =>
         obind (fourth_order_terms (val s1) (val s6) (val s7) (val s8) rho (fst ab) (snd ab) D E) (fun t =>
         Some (rates, t)))))))) (fun rt =>
      rbind (post (fst rt) rho u c C) (fun C' => Ok (add_corrections ps fourth_polys (snd rt) C'))))).
(* 703-707: relaxation_rates[0] and [1], with 1 appended to a single rate; True means a limiter of 1e6 *)
Definition fourth_order_bulk_rate (rates : list R) : option R :=
  match rates with [_] => Some 1 | _ :: b :: _ => Some b | [] => None end.
Definition fourth_order_limiter (option_value : R + unit) : R := match option_value with inl l => l | inr _ => 1000000 end.
