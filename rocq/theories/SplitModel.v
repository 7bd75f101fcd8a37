(* Model of src/lbmpy/innerloopsplit.py:9-70 (create_lbm_split_groups). *)
From Coq Require Import List ZArith Bool Arith.
From Verif Require Import StencilModel.
Import ListNotations.

(* Symbols of a collision rule: pre- and post-collision populations, other symbols (numbered in the order of their names),
   field accesses.  An access is a sympy Symbol, too. *)
Inductive sym := Pre (i : nat) | Post (i : nat) | Sub (n : nat) | Acc (k : nat).
Definition sym_eq_dec (a b : sym) : {a = b} + {a <> b}.
Proof. decide equality; apply Nat.eq_dec. Defined.
Definition sym_in (a : sym) (l : list sym) : bool := if in_dec sym_eq_dec a l then true else false.

(* An assignment: left hand side and the symbols of its right hand side. *)
Record asg := { lhs : sym; atoms : list sym }.
Record rule := { subexprs : list asg; mains : list asg; velocity_hint : option (list sym) }.

(* pystencils AssignmentCollection.dependent_symbols([s]), outside /repo: everything reachable from s through assignments.
   Simplification: reachability in at most as many steps as there are assignments instead of a work list. *)
Fixpoint reaches_pdf (fuel : nat) (all : list asg) (s : sym) : bool :=
  match s with Pre _ => true | _ =>
  match fuel with
  | O => false
  | S fuel => existsb (fun a => if sym_eq_dec (lhs a) s then existsb (reaches_pdf fuel all) (atoms a) else false) all
  end end.

Definition is_post (s : sym) : bool := match s with Post _ => true | _ => false end.
Definition is_access (s : sym) : bool := match s with Acc _ => true | _ => false end.
(* 27: post_collision_pdf_symbols[1:] *)
Definition is_non_center (s : sym) : bool := match s with Post (S _) => true | _ => false end.
Definition sub_number (s : sym) : nat := match s with Pre n | Post n | Sub n | Acc n => n end.
(* sort(key = name) of a set *)
Fixpoint insert_name (s : sym) (l : list sym) : list sym :=
  match l with
  | [] => [s]
  | t :: l' => if sub_number s <=? sub_number t then s :: l else t :: insert_name s l'
  end.

(* 32-50 *)
Definition important (r : rule) (velocity : list sym) : list sym :=
  let all := subexprs r ++ mains r in
  let start := filter (reaches_pdf (length all) all) (map lhs (subexprs r)) in
  let kept := fold_left (fun imp e => if is_non_center (lhs e) then filter (fun s => sym_in s (atoms e)) imp else imp) (mains r) start in
  fold_right insert_name [] (nodup sym_eq_dec (kept ++ velocity)).
(* 35-38 *)
Definition other_written (r : rule) : list sym :=
  filter (fun s => negb (is_post s) && is_access s) (map lhs (mains r)).

(* defaultdict(list) in insertion order *)
Fixpoint dict_mem (d : vec) (g : list (vec * list sym)) : bool :=
  match g with [] => false | (e, _) :: g => vec_eqb d e || dict_mem d g end.
Fixpoint dict_append (d : vec) (s : sym) (g : list (vec * list sym)) : list (vec * list sym) :=
  match g with
  | [] => [(d, [s])]
  | (e, l) :: g => if vec_eqb d e then (e, l ++ [s]) :: g else (e, l) :: dict_append d s g
  end.
(* 56-65: one step of the loop; the first group and the direction groups *)
Definition group_step (dim : nat) (acc : list sym * list (vec * list sym)) (p : vec * asg) : list sym * list (vec * list sym) :=
  let '(g0, groups) := acc in
  let '(d, e) := p in
  if vec_eqb d (vzero dim) then (g0 ++ [lhs e], groups)
  else if dict_mem (vneg d) groups then (g0, dict_append (vneg d) (lhs e) groups)
  else (g0, dict_append d (lhs e) groups).

(* 9-70 *)
Definition create_lbm_split_groups (S : stencil) (r : rule) (opposing_directions : bool) : res (list (list sym)) :=
  match velocity_hint r with
  | None => Err AssertionError
  | Some velocity =>
    let g0 := important r velocity ++ other_written r in
    if opposing_directions then
      let '(g0, groups) := fold_left (group_step (length (hd [] S))) (combine S (mains r)) (g0, []) in
      Ok (g0 :: map snd groups)
    else Ok (g0 :: map (fun e => [lhs e]) (mains r))
  end.
