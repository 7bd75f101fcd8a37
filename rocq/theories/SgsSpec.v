(* Values of expressions and solutions of assignments. *)
From Coq Require Import String List Bool Reals.
From Verif Require Import SgsModel.
Import ListNotations.
Local Open Scope R_scope.

Definition env := string -> R.
Fixpoint value (v : env) (e : expr) : R :=
  match e with
  | Num r => r | Sym s => v s
  | Add a b => value v a + value v b | Mul a b => value v a * value v b
  | Inv a => / value v a | Sqrt a => sqrt (value v a)
  end.
(* the values fulfil all assignments *)
Definition solves (v : env) (rule : list assignment) : Prop := forall s e, In (s, e) rule -> v s = value v e.
(* replace the value of one symbol *)
Definition set (v : env) (s : string) (x : R) : env := fun t => if string_dec t s then x else v t.
(* symbols and parts of an expression *)
Fixpoint occurs (s : string) (e : expr) : Prop :=
  match e with Num _ => False | Sym t => t = s | Add a b | Mul a b => occurs s a \/ occurs s b | Inv a | Sqrt a => occurs s a end.
Fixpoint part (p e : expr) : Prop :=
  e = p \/ match e with Num _ | Sym _ => False | Add a b | Mul a b => part p a \/ part p b | Inv a | Sqrt a => part p a end.
(* a symbol that appears nowhere *)
Definition fresh (s : string) (rule : list assignment) : Prop := forall t e, In (t, e) rule -> t <> s /\ ~ occurs s e.
