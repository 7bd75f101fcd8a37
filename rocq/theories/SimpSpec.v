(* What it means that an assignment collection computes a value, and what is expected of sympy and pystencils. *)
From Coq Require Import String List ZArith QArith Qreals Bool Arith Reals.
From Verif Require Import StencilModel SimpModel.
Import ListNotations.
Local Open Scope R_scope.

Arguments Cst {Op}.
Arguments Sym {Op}.
Arguments Add {Op}.
Arguments Mul {Op}.
Arguments App {Op}.
Arguments subs {Op}.
Arguments mains {Op}.
Arguments gen {Op}.
Arguments mentions {Op}.

Section Spec.
  Context {Op : Type} (sem : Op -> R -> R -> R).
  Notation env := (name -> R).

  Fixpoint eval (e : env) (x : expr Op) : R :=
    match x with
    | Cst q => Q2R q
    | Sym s => e s
    | Add a b => eval e a + eval e b
    | Mul a b => eval e a * eval e b
    | App o a b => sem o (eval e a) (eval e b)
    end.
  Definition all (a : ac Op) : list (asg Op) := subs a ++ mains a.
  (* e satisfies the assignments read as equations *)
  Definition sat (e : env) (l : list (asg Op)) : Prop := forall s x, In (s, x) l -> e s = eval e x.
  (* with inputs p, the collection gives the symbol s of a main assignment the value v *)
  Definition computes (a : ac Op) (p : env) (s : name) (v : R) : Prop :=
    exists e, sat e (all a) /\ (forall t, ~ In t (map fst (all a)) -> e t = p t) /\ In s (map fst (mains a)) /\ e s = v.
  (* a' computes whatever a computes *)
  Definition keeps_values (a a' : ac Op) : Prop := forall p s v, computes a p s v -> computes a' p s v.
  Definition same_values (a a' : ac Op) : Prop := forall p s v, computes a p s v <-> computes a' p s v.

  (* running the assignments one after the other *)
  Definition assign (e : env) (d : asg Op) : env := fun t => if name_eq_dec t (fst d) then eval e (snd d) else e t.
  Definition run (a : ac Op) (p : env) : env := fold_left assign (all a) p.
  (* every symbol is assigned once and used only afterwards *)
  Definition ordered (l : list (asg Op)) : Prop :=
    NoDup (map fst l) /\ forall l1 d l2, l = l1 ++ d :: l2 -> forall t, In t (map fst (d :: l2)) -> mentions t (snd d) = false.

  (* no expression uses the symbol of a main assignment *)
  Definition well_formed (a : ac Op) : Prop := ordered (all a) /\ forall s d, In s (map fst (mains a)) -> In d (all a) -> mentions s (snd d) = false.

  Definition occurs (t : name) (a : ac Op) : Prop := In t (map fst (all a)) \/ exists d, In d (all a) /\ mentions t (snd d) = true.
  (* the generator's next symbols do not occur yet *)
  Definition fresh (a : ac Op) : Prop := forall k, occurs (Xi k) a -> (k < gen a)%nat.

  (* the expression contains a sum or a function *)
  Fixpoint has_sum (e : expr Op) : Prop :=
    match e with Cst _ | Sym _ => False | Mul a b => has_sum a \/ has_sum b | Add _ _ | App _ _ _ => True end.
  (* s stands before t in the list *)
  Definition before (l : list name) (s t : name) : Prop := exists i j, (i < j)%nat /\ nth_error l i = Some s /\ nth_error l j = Some t.
  (* a pass that keeps the main symbols and their values *)
  Definition good_pass (f : ac Op -> res (ac Op)) : Prop := forall a a', well_formed a -> f a = Ok a' ->
    well_formed a' /\ map fst (mains a') = map fst (mains a) /\ same_values a a'.
  Record external_ok (X : external Op) : Prop := {
    ok_substitution : good_pass (x_substitution Op X); ok_divisions : good_pass (x_divisions Op X);
    ok_insert_constants : good_pass (x_insert_constants Op X); ok_insert_aliases : good_pass (x_insert_aliases Op X);
    ok_add_constants : good_pass (x_add_constants Op X); ok_unused : good_pass (x_unused Op X)
  }.

  (* density and velocity are not main symbols; the symbols that the passes introduce are not in use *)
  Definition srt_ready (mixed : name -> Prop) (h : hints Op) (a : ac Op) : Prop :=
    exists rho u, h_density Op h = Some rho /\ h_velocity Op h = Some u /\ (forall s, In s (rho :: u) -> ~ In s (map fst (mains a))) /\
    (forall s, mixed s -> ~ occurs s a /\ ~ In s u) /\ (~ mixed f_eq_common /\ ~ In f_eq_common u /\ ~ occurs f_eq_common a) /\
    (forall b x k, h_common Op h b = Some (x, k) -> mentions f_eq_common x = false /\ forall s, In s (map fst (mains a)) -> mentions s x = false).

  (* ---- contracts ---- *)
  Record cas_ok (K : cas Op) (mixed : name -> Prop) : Prop := {
    ok_same : forall x y e, c_same Op K x y = true -> eval e x = eval e y;
    ok_coeff : forall x r t, mentions t (c_coeff Op K x r) = true -> mentions t x = true;
    ok_factor : forall x q w, c_factor Op K x = (q, w) -> (forall e, eval e x = Q2R q * eval e w) /\ forall t, mentions t w = true -> mentions t x = true;
    (* sp.cse: numbered fresh symbols, defined by the terms and earlier symbols; one result per term, with the same value *)
    ok_cse : forall n xs n' found new, c_cse Op K n xs = (n', found, new) ->
      (n <= n')%nat /\ length new = length xs /\ NoDup (map fst found) /\
      (forall s y, In (s, y) found -> exists k, s = Xi k /\ (n <= k < n')%nat /\
         forall t, mentions t y = true -> (exists x, In x xs /\ mentions t x = true) \/ exists j, t = Xi j /\ (n <= j < k)%nat) /\
      (forall y t, In y new -> mentions t y = true -> (exists x, In x xs /\ mentions t x = true) \/ exists j, t = Xi j /\ (n <= j < n')%nat) /\
      (forall e, sat e found -> map (eval e) new = map (eval e) xs);
    ok_subs : forall old new x, (forall e, eval e old = eval e new -> eval e (c_subs Op K old new x) = eval e x) /\
      forall t, mentions t (c_subs Op K old new x) = true -> mentions t x = true \/ mentions t new = true;
    ok_collect : forall x r, (forall e, eval e (c_collect Op K x r) = eval e x) /\ forall t, mentions t (c_collect Op K x r) = true -> mentions t x = true;
    ok_expand : forall x, (forall e, eval e (c_expand Op K x) = eval e x) /\ forall t, mentions t (c_expand Op K x) = true -> mentions t x = true;
    ok_subs_additive : forall x s y, (forall e, e s = eval e y -> eval e (c_subs_additive Op K x s y) = eval e x) /\
      forall t, mentions t (c_subs_additive Op K x s y) = true -> mentions t x = true \/ t = s \/ mentions t y = true;
    (* new symbols for sums of velocities, defined once *)
    ok_second_order : forall x u sub x' sub', c_second_order Op K x u sub = (x', sub') ->
      (exists new, sub' = sub ++ new /\ NoDup (map fst new) /\ (forall s, In s (map fst new) -> ~ In s (map fst sub)) /\
         (forall s y, In (s, y) new -> mixed s /\ forall t, mentions t y = true -> In t u)) /\
      (forall e, sat e sub' -> eval e x' = eval e x) /\
      forall t, mentions t x' = true -> mentions t x = true \/ In t u \/ In t (map fst sub')
  }.
End Spec.
