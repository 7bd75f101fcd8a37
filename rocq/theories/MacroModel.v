(* Model of the density/velocity computation (methods/conservedquantitycomputation.py), of the macroscopic value setter
   and getter (macroscopic_value_kernels.py), of the symbols introduced for relaxation rates
   (methods/abstractlbmethod.py:102-131) and for force components (forcemodels.py:120-128); all under src/lbmpy. *)
From Coq Require Import String List ZArith Bool Arith Reals.
From Verif Require Import StencilModel RealLib LinLib MomModel TransSpec TransModel EqModel CumModel CollModel.
Import ListNotations.
Local Open Scope R_scope.

(* ---- conservedquantitycomputation.py:383-452 get_equations_for_zeroth_and_first_order_moment ---- *)
(* linear expressions as sympy keeps them: terms (coefficient, atom), no atom twice, no zero coefficient *)
Inductive atom := Pdf (q : nat) | Vel (i : nat).
Notation lin := (list (Z * atom)).
Definition atom_eqb (a b : atom) : bool :=
  match a, b with Pdf q, Pdf r => Nat.eqb q r | Vel i, Vel j => Nat.eqb i j | _, _ => false end.
(* 414 *)
Definition pdf_sum_expr (n : nat) : lin := map (fun q => (1%Z, Pdf q)) (seq 0 n).
(* 415-418 *)
Definition momentum_expr (S : stencil) (i : nat) : lin :=
  filter (fun t => negb (Z.eqb (fst t) 0)) (map (fun qc => (nth i (snd qc) 0%Z, Pdf (fst qc))) (enum S)).
(* 420-424 *)
Definition second_moment_expr (S : stencil) (i j : nat) : lin :=
  filter (fun t => negb (Z.eqb (fst t) 0)) (map (fun qc => ((nth i (snd qc) 0 * nth j (snd qc) 0)%Z, Pdf (fst qc))) (enum S)).
(* 404-409, 426: the terms of u_i that are no products, i.e. have coefficient 1.  A sum of a single term has no args.
   (A momentum component consisting of a single product is not modelled: u_i with one nonzero component other than 1.) *)
Definition plus_terms (S : stencil) (i : nat) : list nat :=
  let l := map fst (filter (fun qc => Z.eqb (nth i (snd qc) 0%Z) 1) (enum S)) in
  if (length l <=? 1)%nat then [] else l.
Definition mem_nat (q : nat) (l : list nat) : bool := existsb (Nat.eqb q) l.
(* 430-432: rhs -= plus_terms[j] works in place, which does not change the union of the earlier sets *)
Definition velo_rhs (S : stencil) (i : nat) : list nat :=
  filter (fun q => negb (existsb (fun j => mem_nat q (plus_terms S j)) (seq 0 i))) (plus_terms S i).
(* 429-437: subexpression i is vel_i = sum of the pdfs in velo_rhs i; dropped altogether if one is empty *)
Definition velo_subexpressions (S : stencil) : list (list nat) :=
  let l := map (velo_rhs S) (seq 0 (dimD S)) in
  if existsb (fun r => match r with [] => true | _ => false end) l then [] else l.
(* sympy: expr.subs(sum of pdfs r, vel_i).  A symbol is replaced; a sum is replaced if all its terms occur in the
   expression with coefficient 1, or all with coefficient -1 *)
Definition has_terms (k : Z) (r : list nat) (e : lin) : bool :=
  forallb (fun q => existsb (fun t => Z.eqb (fst t) k && atom_eqb (snd t) (Pdf q)) e) r.
Definition remove_terms (r : list nat) (e : lin) : lin :=
  filter (fun t => match snd t with Pdf q => negb (mem_nat q r) | Vel _ => true end) e.
Definition subs_velo (e : lin) (r : list nat) (i : nat) : lin :=
  match r with
  | [q] => map (fun t => (fst t, if atom_eqb (snd t) (Pdf q) then Vel i else snd t)) e
  | _ => if has_terms 1 r e then remove_terms r e ++ [(1%Z, Vel i)]
         else if has_terms (-1) r e then remove_terms r e ++ [((-1)%Z, Vel i)]
         else e
  end.
(* 439-440 *)
Definition density_expr (S : stencil) : lin :=
  let subs := velo_subexpressions S in
  fold_left (fun e ri => subs_velo e (snd ri) (fst ri)) (combine (seq 0 (length subs)) subs) (pdf_sum_expr (sizeQ S)).
(* 442-444 *)
Definition velocity_expr (S : stencil) (i : nat) : lin :=
  match nth_error (velo_subexpressions S) i with
  | Some r => subs_velo (momentum_expr S i) r i
  | None => momentum_expr S i
  end.
(* evaluation of the generated assignments: an undefined symbol has no value *)
Definition atom_value (f : list R) (subs : list (list nat)) (a : atom) : option R :=
  match a with
  | Pdf q => nth_error f q
  | Vel i => match nth_error subs i with Some r => Some (rsum (map (fun q => nth q f 0) r)) | None => None end
  end.
Definition lin_value (f : list R) (subs : list (list nat)) (e : lin) : option R :=
  fold_right (fun t acc => obind (atom_value f subs (snd t)) (fun x => obind acc (fun s => Some (IZR (fst t) * x + s)))) (Some 0) e.

(* ---- setter: 251-272 and macroscopic_value_kernels.py:29-48, momentbasedmethod.py:132-169 ---- *)
(* forcemodels.py:146-153: all models *)
Definition macroscopic_velocity_shift (compr : bool) (rho : R) (force : option (force_model * list R)) (D : nat) : list R :=
  match force with None => rzero D | Some (_, F) => default_velocity_shift (reference_density compr rho) F end.
Definition init_velocity (D : nat) (compr : bool) (rho : R) (u : list R) (force : option (force_model * list R)) : list R :=
  map (fun uo => fst uo - snd uo) (combine (firstn D u) (macroscopic_velocity_shift compr rho force D)).
(* get_equilibrium: the collision with all rates 1 and no force term; the pre-collision populations f cancel *)
Definition moment_setter (D : nat) (S : stencil) (ps : list poly) (compr : bool) (eqm : R -> list R -> list nat -> R)
  (fwd bwd : list R -> res (list R)) (force : option (force_model * list R)) (rho : R) (u f : list R) : res (list R) :=
  let v := init_velocity D compr rho u force in
  collide fwd bwd (repeat 1 (length S)) (equilibrium_values ps (eqm rho v)) (rzero (length S)) f.
Definition central_setter (D : nat) (S : stencil) (ps : list poly) (compr : bool) (eqc : R -> list R -> list nat -> R)
  (fwd bwd : list R -> list R -> res (list R)) (force : option (force_model * list R)) (rho : R) (u f : list R) : res (list R) :=
  let v := init_velocity D compr rho u force in
  collide (fwd v) (bwd v) (repeat 1 (length S)) (equilibrium_values ps (eqc rho v)) (rzero (length S)) f.
(* population form: momentbasedmethod.py:390-396 *)
Definition population_setter (D : nat) (S : stencil) (ps : list poly) (zc dev compr : bool) (eqm : R -> list R -> list nat -> R)
  (M Minv : mat) (force : option (force_model * list R)) (rho : R) (u f : list R) : res (list R) :=
  if zc && negb dev then Err PlainException else
  let v := init_velocity D compr rho u force in
  Ok (radd f (mv Minv (rmul (repeat 1 (length S)) (rsub (equilibrium_values ps (eqm rho v)) (mv M f))))).
(* cumulantbasedmethod.py get_equilibrium: rates 1 on all cumulants *)
Definition cumulant_setter (D : nat) (S : stencil) (ps : list poly) (zc dev compr : bool) (cexps cms : list (list nat)) (P Pinv : mat)
  (eqC : R -> list R -> list nat -> R) (fwd bwd : list R -> list R -> res (list R)) (force : option (force_model * list R))
  (rho : R) (u f : list R) : res (list R) :=
  if zc && dev then Err AssertionError else
  let v := init_velocity D compr rho u force in
  rbind (fwd v f) (fun kappa =>
  let C := cumulant_forward D v rho cexps P (lookup cms kappa) in
  bwd v (cumulant_backward D v rho cexps Pinv (relax (repeat 1 (length cexps)) (equilibrium_values ps (eqC rho v)) C) cms)).

(* ---- getter: 274-380 ---- *)
Definition output_density (zc : bool) (f : list R) : R := pdf_density zc f.
Definition output_density_deviation (zc : bool) (f : list R) : R := if zc then rsum f else rsum f - 1.
Definition output_velocity (D : nat) (S : stencil) (zc compr : bool) (force : option (force_model * list R)) (f : list R) : list R :=
  let rho := pdf_density zc f in
  map (fun us => fst us + snd us) (combine (map (fun a => pdf_momentum S f a / reference_density compr rho) (seq 0 D))
                                           (macroscopic_velocity_shift compr rho force D)).
(* forcemodels.py:155-159, 596-597 *)
Definition output_momentum_density (D : nat) (S : stencil) (force : option (force_model * list R)) (f : list R) : list R :=
  map (fun ms => fst ms + snd ms) (combine (map (pdf_momentum S f) (seq 0 D))
                                           (match force with None => rzero D | Some (_, F) => map (fun x => x / 2) F end)).
(* 'moment2': 294-298 and 366-370 *)
Definition output_second_moment (zc : bool) (cs2 : R) (S : stencil) (f : list R) (i j : nat) : R :=
  rsum (map (fun fc => fst fc * (IZR (nth i (snd fc) 0%Z) * IZR (nth j (snd fc) 0%Z))) (combine f S))
  + (if zc && Nat.eqb i j then cs2 else 0).

(* ---- macroscopic_value_kernels.py:138-139 and 212-213: where the compiled kernels run ---- *)
Record kernel_config := { kc_ghost_layers : option nat; kc_iteration_slice : option (nat * nat) }.
Definition getter_config (ghost_layers : nat) (iteration_slice : option (nat * nat)) : kernel_config :=
  {| kc_ghost_layers := Some ghost_layers; kc_iteration_slice := iteration_slice |}.
Definition setter_config (ghost_layers : nat) (iteration_slice : option (nat * nat)) : kernel_config :=
  {| kc_ghost_layers := None; kc_iteration_slice := None |}.

(* ---- abstractlbmethod.py:102-131 ---- *)
(* K: what a non-symbol rate sympifies to (numbers and compound expressions), with the equality of python dictionaries;
   zero_key: the exact Zero is replaced by 0.0 *)
Section Rates.
  Variables (K : Type) (keqb : K -> K -> bool) (is_zero : K -> bool) (float_zero : K).
  Inductive rate := RSym (name : string) | RVal (k : K).
  Definition rr_symbol (i : nat) : string := append "rr_" (str_nat i).
  Definition find_symbol (k : K) (subs : list (K * string)) : option string :=
    match find (fun e => keqb (fst e) k) subs with Some e => Some (snd e) | None => None end.
  (* the dictionary subexpressions in insertion order, and the list of symbols *)
  Definition symbolic_step (st : list (K * string) * list string) (r : rate) : list (K * string) * list string :=
    match r with
    | RSym s => (fst st, snd st ++ [s])
    | RVal k =>
        let k := if is_zero k then float_zero else k in
        match find_symbol k (fst st) with
        | Some s => (fst st, snd st ++ [s])
        | None => let s := rr_symbol (length (fst st)) in (fst st ++ [(k, s)], snd st ++ [s])
        end
    end.
  Definition symbolic_rates (rates : list rate) : list (K * string) * list string := fold_left symbolic_step rates ([], []).
End Rates.
Arguments RSym {K} _. Arguments RVal {K} _.

(* ---- forcemodels.py:120-128 ---- *)
Inductive force_entry := FSym (name : string) | FNum (v : R).
Definition FORCE_SYMBOLS : list string := ["F_x"; "F_y"; "F_z"]%string.
Definition symbolic_force (force : list force_entry) : list string :=
  map (fun p => match fst p with FSym s => s | FNum _ => snd p end) (combine force FORCE_SYMBOLS).
(* dictionary: later entries replace earlier ones; entries whose value is the symbol itself are left out *)
Fixpoint dict_set (k : string) (v : force_entry) (d : list (string * force_entry)) : list (string * force_entry) :=
  match d with [] => [(k, v)] | (k', v') :: d => if String.eqb k k' then (k, v) :: d else (k', v') :: dict_set k v d end.
Definition subs_dict_force (force : list force_entry) : list (string * force_entry) :=
  fold_left (fun d p => match snd p with
                        | FSym s => if String.eqb (fst p) s then d else dict_set (fst p) (snd p) d
                        | FNum _ => dict_set (fst p) (snd p) d end)
            (combine (symbolic_force force) force) [].
Definition entry_value (env : string -> R) (e : force_entry) : R := match e with FSym s => env s | FNum v => v end.
(* the value of a force symbol in a kernel: assigned by the dictionary, otherwise a kernel parameter *)
Definition kernel_force_value (env : string -> R) (d : list (string * force_entry)) (s : string) : R :=
  match find (fun e => String.eqb (fst e) s) d with Some e => entry_value env (snd e) | None => env s end.
