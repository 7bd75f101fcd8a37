(* Model of src/lbmpy/methods/momentbased/momentbasedsimplifications.py, of the passes in
   src/lbmpy/methods/cumulantbased/cumulant_simplifications.py and of the strategies in src/lbmpy/simplificationfactory.py.
   Assignment collections are lists of assignments over symbols; what sympy and pystencils do with a single expression
   (coeff, collect, subs, cse, ...) is a parameter, described by the contract [cas_ok] in SimpSpec. *)
From Coq Require Import String List ZArith QArith Bool Arith.
From Verif Require Import StencilModel.
Import ListNotations.

(* post-collision populations, symbols xi_k of the collection's subexpression_symbol_generator, other symbols *)
Inductive name := Post (i : nat) | Xi (k : nat) | Nm (s : string).
Definition name_eq_dec (a b : name) : {a = b} + {a <> b}.
Proof. decide equality; solve [apply Nat.eq_dec | apply string_dec]. Defined.
Definition name_eqb (a b : name) : bool := if name_eq_dec a b then true else false.

Section Simp.
  Context (Op : Type).
  (* sympy expressions; App stands for division, powers, logarithms, ... *)
  Inductive expr := Cst (q : Q) | Sym (s : name) | Add (a b : expr) | Mul (a b : expr) | App (o : Op) (a b : expr).
  Definition Half : expr := Cst (1 # 2).
  Definition Sub (a b : expr) : expr := Add a (Mul (Cst (-1)) b).
  Definition asg := (name * expr)%type.
  (* AssignmentCollection: subexpressions, main assignments, index of the next generated symbol *)
  Record ac := { subs : list asg; mains : list asg; gen : nat }.

  (* the operations of sympy and pystencils on expressions *)
  Record cas := {
    c_same : expr -> expr -> bool;                                    (* equality as dictionary keys *)
    c_coeff : expr -> name -> expr;                                   (* e.coeff(symbol) *)
    c_factor : expr -> Q * expr;                                      (* extract_most_common_factor *)
    c_cse : nat -> list expr -> nat * list asg * list expr;           (* sp.cse(..., symbols=generator) *)
    c_subs : expr -> expr -> expr -> expr;                            (* e.subs(old, new): c_subs old new e *)
    c_collect : expr -> name -> expr;                                 (* e.collect(symbol) *)
    c_expand : expr -> expr;                                          (* e.expand() *)
    c_subs_additive : expr -> name -> expr -> expr;                   (* subs_additive(e, replacement, subexpression) *)
    c_second_order : expr -> list name -> list asg -> expr * list asg (* replace_second_order_products(e, u, replace_mixed=substitutions) *)
  }.
  Context (K : cas).

  (* ---------- dictionaries keyed by symbols, in insertion order ---------- *)
  Fixpoint dict_set (d : list asg) (s : name) (e : expr) : list asg :=
    match d with
    | [] => [(s, e)]
    | (t, x) :: d => if name_eq_dec t s then (t, e) :: d else (t, x) :: dict_set d s e
    end.
  Fixpoint dict_get (d : list asg) (s : name) : option expr :=
    match d with [] => None | (t, x) :: d => if name_eq_dec t s then Some x else dict_get d s end.
  (* main_assignments_dict, subexpressions_dict: {a.lhs: a.rhs for a in ...} *)
  Definition to_dict (l : list asg) : list asg := fold_left (fun d a => dict_set d (fst a) (snd a)) l [].
  Definition dict_find (d : list asg) (s : name) : res expr := match dict_get d s with Some e => Ok e | None => Err KeyError end.

  (* ---------- split_pdf_main_assignments_by_symmetry, 270-320 ---------- *)
  (* subexp_to_symbol_dict (294): a defaultdict from expressions to generated symbols *)
  Definition table := list (expr * nat).
  Definition lookup_symbol (n : nat) (t : table) (e : expr) : nat * nat * table :=
    match find (fun p => c_same K (fst p) e) t with
    | Some p => (snd p, n, t)
    | None => (n, S n, t ++ [(e, n)])
    end.
  Record split_state := { s_dict : list asg; s_done : list nat; s_gen : nat; s_table : table }.
  (* 296-316: one turn of the loop *)
  Definition split_step (S : stencil) (symbols : list name) (st : split_state) (i : nat) : res split_state :=
    if existsb (Nat.eqb i) (s_done st) then Ok st
    else match nth_error S i with
    | None => Err IndexError
    | Some c =>
      if forallb (fun x => Z.eqb x 0) c then Ok st
      else match index_of (vneg c) S with
      | None => Err ValueError
      | Some j =>
        match nth_error symbols i, nth_error symbols j with
        | Some f, Some f_inv =>
          rbind (dict_find (s_dict st) f) (fun f_eq => rbind (dict_find (s_dict st) f_inv) (fun f_inv_eq =>
            let symmetric := Mul Half (Add f_eq f_inv_eq) in
            let asymmetric := Mul Half (Sub f_eq f_inv_eq) in
            let '(k1, n1, t1) := lookup_symbol (s_gen st) (s_table st) symmetric in
            let '(k2, n2, t2) := lookup_symbol n1 t1 asymmetric in
            Ok {| s_dict := dict_set (dict_set (s_dict st) f (Add (Sym (Xi k1)) (Sym (Xi k2)))) f_inv (Sub (Sym (Xi k1)) (Sym (Xi k2)));
                  s_done := s_done st ++ [i; j]; s_gen := n2; s_table := t2 |}))
        | _, _ => Err IndexError
        end
      end
    end.
  Fixpoint split_loop (S : stencil) (symbols : list name) (idx : list nat) (st : split_state) : res split_state :=
    match idx with
    | [] => Ok st
    | i :: idx => rbind (split_step S symbols st i) (split_loop S symbols idx)
    end.
  (* hints: 'stencil' and 'post_collision_pdf_symbols' *)
  Definition split_by_symmetry (hint_stencil : option stencil) (hint_symbols : option (list name)) (a : ac) : res ac :=
    match hint_stencil, hint_symbols with
    | Some St, Some symbols =>
      rbind (split_loop St symbols (seq 0 (length symbols)) {| s_dict := to_dict (mains a); s_done := []; s_gen := gen a; s_table := [] |}) (fun st =>
      Ok {| subs := subs a ++ map (fun p => (Xi (snd p), fst p)) (s_table st); mains := s_dict st; gen := s_gen st |})
    | _, _ => Err ValueError
    end.

  (* ---------- cse_in_opposing_directions, 145-221 ---------- *)
  (* new_coefficient_substitutions (168): from factor * rate to a generated symbol *)
  Definition coefficients := list (Q * name * nat).
  Definition lookup_coefficient (n : nat) (t : coefficients) (q : Q) (r : name) : nat * nat * coefficients :=
    match find (fun p => Qeq_bool (fst (fst p)) q && name_eqb (snd (fst p)) r) t with
    | Some p => (snd p, n, t)
    | None => (n, S n, t ++ [(q, r, n)])
    end.
  Record cse_state := { q_gen : nat; q_found : list asg; q_coeffs : coefficients }.
  (* 188-209: one relaxation rate; the two rules are updated *)
  Definition cse_rate (r : name) (rules : asg * asg) (st : cse_state) : (asg * asg) * cse_state :=
    let '(u, v) := rules in
    let tu := c_coeff K (snd u) r in let tv := c_coeff K (snd v) r in
    let '(fu, wu) := c_factor K tu in let '(fv, wv) := c_factor K tv in
    let '(coeff, hu, hv, n, cs) :=
      if Qeq_bool fu fv && negb (Qeq_bool fu 1)
      then let '(k, n, cs) := lookup_coefficient (q_gen st) (q_coeffs st) fu r in (Xi k, wu, wv, n, cs)
      else (r, tu, tv, q_gen st, q_coeffs st) in
    match c_cse K n [hu; hv] with
    | (n', found, [nu; nv]) =>
      (((fst u, c_subs K (Mul (Sym r) tu) (Mul (Sym coeff) nu) (snd u)),
        (fst v, c_subs K (Mul (Sym r) tv) (Mul (Sym coeff) nv) (snd v))),
       {| q_gen := n'; q_found := q_found st ++ found; q_coeffs := cs |})
    | _ => (rules, st)     (* cse returns one expression per argument *)
    end.
  Fixpoint cse_rates (rs : list name) (rules : asg * asg) (st : cse_state) : (asg * asg) * cse_state :=
    match rs with [] => (rules, st) | r :: rs => let '(rules, st) := cse_rate r rules st in cse_rates rs rules st end.
  (* 181-186: without symbolic rates the two assignments are passed to cse *)
  Definition cse_plain (rules : asg * asg) (st : cse_state) : (asg * asg) * cse_state :=
    let '(u, v) := rules in
    match c_cse K (q_gen st) [snd u; snd v] with
    | (n', found, [nu; nv]) => (((fst u, nu), (fst v, nv)), {| q_gen := n'; q_found := q_found st ++ found; q_coeffs := q_coeffs st |})
    | _ => (rules, st)
    end.
  (* direction_to_update_rule (165): later entries replace earlier ones *)
  Definition rule_dict := list (vec * asg).
  Definition rd_get (d : rule_dict) (c : vec) : option asg := option_map snd (find (fun p => vec_eqb (fst p) c) d).
  Definition rd_del (d : rule_dict) (c : vec) : rule_dict := filter (fun p => negb (vec_eqb (fst p) c)) d.
  Definition rd_set (d : rule_dict) (c : vec) (a : asg) : rule_dict := (c, a) :: rd_del d c.
  (* 169-211 *)
  Fixpoint cse_loop (rates : list name) (l : list (asg * vec)) (d : rule_dict) (result : list asg) (st : cse_state) : res (list asg * cse_state) :=
    match l with
    | [] => Ok (result, st)
    | (rule, c) :: l =>
      match rd_get d c with
      | None => cse_loop rates l d result st
      | Some _ =>
        match rd_get d (vneg c) with
        | None => Err KeyError
        | Some inverse_rule =>
          if vec_eqb (vneg c) c then cse_loop rates l d (result ++ [rule]) st
          else
            let '((u, v), st') := match rates with [] => cse_plain (rule, inverse_rule) st | _ => cse_rates rates (rule, inverse_rule) st end in
            cse_loop rates l (rd_del (rd_del d (vneg c)) c) (result ++ [u; v]) st'
        end
      end
    end.
  (* 216: sort by the position of the left hand side among the post-collision symbols *)
  Definition post_index (posts : list name) (a : asg) : res nat :=
    match find (fun p => name_eqb (snd p) (fst a)) (enum posts) with Some p => Ok (fst p) | None => Err ValueError end.
  Fixpoint insert_keyed (a : nat * asg) (l : list (nat * asg)) : list (nat * asg) :=
    match l with [] => [a] | b :: l' => if (fst b <? fst a)%nat then b :: insert_keyed a l' else a :: l end.
  Definition sort_rules (posts : list name) (l : list asg) : res (list asg) :=
    rbind (mapM (post_index posts) l) (fun ks => Ok (map snd (fold_right insert_keyed [] (combine ks l)))).
  (* the hint 'relaxation_rates': None if missing; [given] tells whether the sequence is non-empty, [rates] are its symbols *)
  Definition cse_in_opposing_directions (S : stencil) (posts : list name) (hint : option (bool * list name)) (a : ac) : res ac :=
    match hint with
    | None => Err AssertionError
    | Some (false, _) => Ok a
    | Some (true, rates) =>
      let pairs := combine (mains a) S in
      let d := fold_left (fun d p => rd_set d (snd p) (fst p)) pairs [] in
      rbind (cse_loop rates pairs d [] {| q_gen := gen a; q_found := []; q_coeffs := [] |}) (fun rs =>
      let '(result, st) := rs in
      rbind (sort_rules posts result) (fun sorted =>
      Ok {| subs := subs a ++ q_found st ++ map (fun p => (Xi (snd p), Mul (Cst (fst (fst p))) (Sym (snd (fst p))))) (q_coeffs st);
            mains := sorted; gen := q_gen st |}))
    end.

  (* ---------- the other passes ---------- *)
  Definition map_mains (f : expr -> expr) (a : ac) : ac := {| subs := subs a; mains := map (fun m => (fst m, f (snd m))) (mains a); gen := gen a |}.
  (* apply_to_all_assignments(sp.expand) (pystencils): the right hand sides of the main assignments *)
  Definition expand_all (a : ac) : res ac := Ok (map_mains (c_expand K) a).
  (* 18-35 replace_second_order_velocity_products *)
  Fixpoint second_order_loop (u : list name) (l : list asg) (sub : list asg) : list asg * list asg :=
    match l with
    | [] => ([], sub)
    | m :: l => let '(e, sub) := c_second_order K (snd m) u sub in let '(l, sub) := second_order_loop u l sub in ((fst m, e) :: l, sub)
    end.
  Definition replace_second_order_velocity_products (velocity : option (list name)) (a : ac) : res ac :=
    match velocity with
    | None => Err AssertionError
    | Some u => let '(l, sub) := second_order_loop u (mains a) [] in Ok {| subs := subs a ++ sub; mains := l; gen := gen a |}
    end.
  (* 38-56 factor_relaxation_rates; number: how many different entries the hint has *)
  Definition factor_relaxation_rates (hint : option (nat * list name)) (a : ac) : res ac :=
    match hint with
    | None => Err AssertionError
    | Some (number, rates) => if (19 <? number)%nat then Ok a else Ok (map_mains (fun e => fold_left (c_collect K) rates e) a)
    end.
  (* 59-84 factor_density_after_factoring_relaxation_times *)
  Definition factor_density (density : option name) (hint : option (list name)) (a : ac) : res ac :=
    match density, hint with
    | Some rho, Some rates =>
      Ok (map_mains (fun e => fold_left (fun e r => let co := c_coeff K e r in c_subs K co (c_collect K co rho) e) rates e) a)
    | _, _ => Err AssertionError
    end.
  (* new_without_subexpressions (pystencils): right hand sides with all subexpressions inserted, last definition first *)
  Fixpoint subst1 (s : name) (x : expr) (e : expr) : expr :=
    match e with
    | Cst q => Cst q
    | Sym t => if name_eq_dec t s then x else Sym t
    | Add a b => Add (subst1 s x a) (subst1 s x b)
    | Mul a b => Mul (subst1 s x a) (subst1 s x b)
    | App o a b => App o (subst1 s x a) (subst1 s x b)
    end.
  Definition inline (defs : list asg) (e : expr) : expr := fold_right (fun d e => subst1 (fst d) (snd d) e) e defs.
  (* new_filtered(symbols).new_without_subexpressions().main_assignments: the definition of each symbol, with all other subexpressions
     inserted; symbols without a definition are not listed.  The order of the result is the order of the collection. *)
  Definition definitions (a : ac) (symbols : list name) : list asg :=
    flat_map (fun m => if existsb (name_eqb (fst m)) symbols
                       then [(fst m, inline (filter (fun d => negb (existsb (name_eqb (fst d)) symbols)) (subs a)) (snd m))] else []) (subs a ++ mains a).
  (* 87-108 replace_density_and_velocity *)
  Definition replace_density_and_velocity (density : option name) (velocity : option (list name)) (a : ac) : res ac :=
    match density, velocity with
    | Some rho, Some u =>
      let ds := definitions a (rho :: u) in
      Ok (map_mains (fun e => fold_left (fun e d => c_subs_additive K e (fst d) (snd d)) ds e) a)
    | _, _ => Err AssertionError
    end.
  (* 111-142 replace_common_quadratic_and_constant_term; common: __get_common_quadratic_and_constant_terms (372-408) with its number of
     arguments, None if the weight vanishes *)
  Definition f_eq_common : name := Nm "f_eq_common".
  Definition replace_common_term (density : option name) (velocity : option (list name)) (hint : bool) (S : stencil)
      (common : ac -> option (expr * nat)) (a : ac) : res ac :=
    match density, velocity, hint with
    | Some _, Some _, true =>
      match S with
      | [] => Err IndexError
      | c :: _ =>
        if negb (forallb (fun x => Z.eqb x 0) c) then Err AssertionError
        else match common a with
        | None => Ok a
        | Some (e, args) =>
          if (1 <? args)%nat then
            let r := map_mains (fun x => c_subs_additive K x f_eq_common e) a in
            Ok {| subs := subs r ++ [(f_eq_common, e)]; mains := mains r; gen := gen r |}
          else Ok a
        end
      end
    | _, _, _ => Err AssertionError
    end.
  (* pystencils insert_subexpressions: every subexpression for which the callback holds is substituted into the rest and removed *)
  Definition insert_one (d : asg) (l : list asg) : list asg := map (fun x => (fst x, subst1 (fst d) (snd d) (snd x))) l.
  Fixpoint insert_loop (fuel : nat) (callback : asg -> bool) (before after : list asg) (m : list asg) : list asg * list asg :=
    match fuel, after with
    | S fuel, d :: after =>
      if callback d then insert_loop fuel callback (insert_one d before) (insert_one d after) (insert_one d m)
      else insert_loop fuel callback (before ++ [d]) after m
    | _, _ => (before ++ after, m)
    end.
  Definition insert_subexpressions (callback : asg -> bool) (a : ac) : ac :=
    let '(s, m) := insert_loop (length (subs a)) callback [] (subs a) (mains a) in {| subs := s; mains := m; gen := gen a |}.
  (* 323-335 insert_pure_products: products (or single ones) of the given symbols and constants *)
  Fixpoint pure (symbols : list name) (e : expr) : bool :=
    match e with
    | Cst _ => true
    | Sym s => existsb (name_eqb s) symbols
    | Mul a b => pure symbols a && pure symbols b
    | _ => false
    end.
  Definition is_pure_product (symbols : list name) (d : asg) : bool :=
    match snd d with Sym s => existsb (name_eqb s) symbols | Mul a b => pure symbols a && pure symbols b | _ => false end.
  Definition insert_pure_products (symbols : list name) (a : ac) : res ac := Ok (insert_subexpressions (is_pure_product symbols) a).
  (* 350-361 insert_half_force: right hand sides +-F_a/2; None: no force model *)
  Definition insert_half_force (force : option (list expr)) (a : ac) : res ac :=
    match force with
    | None => Ok a
    | Some F => Ok (insert_subexpressions (fun d => existsb (fun f => c_same K (snd d) (Mul f Half) || c_same K (snd d) (Mul (Mul (Cst (-1)) f) Half)) F) a)
    end.
  (* cumulant_simplifications.py:16-24 insert_log_products *)
  Fixpoint contains (is_log : Op -> bool) (e : expr) : bool :=
    match e with
    | Cst _ | Sym _ => false
    | Add a b | Mul a b => contains is_log a || contains is_log b
    | App o a b => is_log o || contains is_log a || contains is_log b
    end.
  Definition insert_log_products (is_log : Op -> bool) (a : ac) : res ac := Ok (insert_subexpressions (fun d => contains is_log (snd d)) a).
  (* cumulant_simplifications.py:26-35 expand_post_collision_central_moments *)
  Definition expand_subexpressions (symbols : list name) (a : ac) : res ac :=
    Ok {| subs := map (fun d => (fst d, if existsb (name_eqb (fst d)) symbols then c_expand K (snd d) else snd d)) (to_dict (subs a)); mains := mains a; gen := gen a |}.

  (* 224-267 substitute_moments_in_conserved_quantity_equations; hint: pairs of conserved quantity and moment symbols.
     count(cq_sym) > 0: the moment's definition mentions the conserved quantity.  topological_sort and the removal of unused
     subexpressions (pystencils) are not applied here. *)
  Fixpoint mentions (s : name) (e : expr) : bool :=
    match e with Cst _ => false | Sym t => name_eqb t s | Add a b | Mul a b | App _ a b => mentions s a || mentions s b end.
  Fixpoint substitute_loop (reduced : list asg) (hint : list (name * name)) (md sd : list asg) : res (list asg * list asg) :=
    match hint with
    | [] => Ok (md, sd)
    | (cq, mo) :: hint =>
      rbind (dict_find reduced mo) (fun mo_eq =>
      if mentions cq mo_eq then Err AssertionError
      else rbind (dict_find reduced cq) (fun cq_rhs =>
        let cq_eq := c_subs_additive K cq_rhs mo mo_eq in
        match dict_get md cq with
        | Some _ => substitute_loop reduced hint (dict_set md cq cq_eq) sd
        | None => match dict_get sd mo with
                  | Some _ => substitute_loop reduced hint md (dict_set sd cq cq_eq)
                  | None => Err AssertionError
                  end
        end))
    end.
  Definition substitute_moments (hint : option (list (name * name))) (a : ac) : res ac :=
    match hint with
    | None => Err ValueError
    | Some [] => Ok a
    | Some h =>
      let reduced := to_dict (definitions a (map fst h ++ map snd h)) in
      rbind (substitute_loop reduced h (to_dict (mains a)) (to_dict (subs a))) (fun r =>
      Ok {| subs := snd r; mains := fst r; gen := gen a |})
    end.

  (* SimplificationStrategy.__call__ (pystencils): the transformations in the order they were added *)
  Definition run_strategy (passes : list (ac -> res ac)) (a : ac) : res ac := fold_left (fun r f => rbind r f) passes (Ok a).

  (* simplificationfactory.py; the passes of pystencils that the strategies use.  create_lbm_split_groups only sets a hint. *)
  Record external := {
    x_substitution : ac -> res ac;      (* subexpression_substitution_in_main_assignments *)
    x_divisions : ac -> res ac;         (* add_subexpressions_for_divisions *)
    x_insert_constants : ac -> res ac;
    x_insert_aliases : ac -> res ac;
    x_add_constants : ac -> res ac;     (* add_subexpressions_for_constants *)
    x_unused : ac -> res ac             (* new_without_unused_subexpressions *)
  }.
  (* the simplification hints and the method attributes the passes look at *)
  Record hints := {
    h_density : option name; h_velocity : option (list name);
    h_rates : option (nat * list name);                               (* number of different entries, symbols in them *)
    h_stencil : stencil; h_common : ac -> option (expr * nat);
    h_force : option (list expr); h_conserved : list name;            (* zeroth and first order moment symbols *)
    h_post : list name                                                (* post_collision_monomial_central_moments *)
  }.
  (* 42-60 *)
  Definition srt_trt_strategy (X : external) (h : hints) : list (ac -> res ac) :=
    [expand_all; replace_second_order_velocity_products (h_velocity h); expand_all; factor_relaxation_rates (h_rates h);
     replace_density_and_velocity (h_density h) (h_velocity h);
     replace_common_term (h_density h) (h_velocity h) (match h_rates h with Some _ => true | None => false end) (h_stencil h) (h_common h);
     factor_density (h_density h) (option_map snd (h_rates h));
     x_substitution X; x_divisions X; x_insert_constants X; x_insert_aliases X; x_unused X].
  (* 63-70 *)
  Definition mrt_strategy (X : external) : list (ac -> res ac) := [x_substitution X; x_divisions X; x_unused X].
  (* 73-83 *)
  Definition moment_space_strategy (X : external) (h : hints) : list (ac -> res ac) :=
    [x_insert_constants X; insert_half_force (h_force h); x_insert_aliases X; x_divisions X; x_add_constants X; x_unused X].
  (* 86-103 *)
  Definition cumulant_strategy (X : external) (is_log : Op -> bool) (h : hints) : list (ac -> res ac) :=
    [x_insert_constants X; x_insert_aliases X; insert_log_products is_log; insert_pure_products (h_conserved h); insert_half_force (h_force h);
     expand_subexpressions (h_post h); x_insert_aliases X; x_insert_constants X; x_insert_aliases X; x_divisions X; x_add_constants X; x_unused X].
  (* 20-38 create_simplification_strategy *)
  Inductive method_kind := MomentBased (moment_space : bool) (different_rates : nat) | CentralMomentBased | CumulantBased | OtherMethod.
  Definition simplification_strategy (X : external) (is_log : Op -> bool) (h : hints) (m : method_kind) : list (ac -> res ac) :=
    match m with
    | MomentBased true _ | CentralMomentBased => moment_space_strategy X h
    | MomentBased false k => if (k <=? 2)%nat then srt_trt_strategy X h else mrt_strategy X
    | CumulantBased => cumulant_strategy X is_log h
    | OtherMethod => []
    end.
End Simp.
