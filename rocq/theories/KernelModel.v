(* Model of src/lbmpy/updatekernels.py: kernels as lists of assignments over symbols and field accesses, and
   the effect of running such a kernel over a list of cells. *)
From Coq Require Import List ZArith Bool Arith.
From Verif Require Import StencilModel AccessModel StreamModel.
Import ListNotations.

(* Symbols: pre- and post-collision populations, temporaries streamed_i / copied_i, other symbols (subexpressions and kernel
   parameters), field accesses, and the fresh symbol pystencils introduces for a field read. *)
Inductive name := Pre (i : nat) | Post (i : nat) | Str (i : nat) | Tmp (n : nat) | Acc (f : nat) (a : access) | Rd (f : nat) (a : access).
Definition access_eq_dec (a b : access) : {a = b} + {a <> b}.
Proof. decide equality; [apply Nat.eq_dec|apply (list_eq_dec Z.eq_dec)]. Defined.
Definition name_eq_dec (a b : name) : {a = b} + {a <> b}.
Proof. decide equality; solve [apply Nat.eq_dec|apply access_eq_dec]. Defined.

Section K.
  Context (L : lattice) (V : Type) (Op : Type) (sem : Op -> V -> V -> V).

  (* sympy expressions: symbols, constants and binary operations of any kind *)
  Inductive expr := Sym (s : name) | Cst (v : V) | Bin (o : Op) (a b : expr).
  Definition asg := (name * expr)%type.
  (* AssignmentCollection *)
  Record rule := { subs : list asg; mains : list asg }.
  Definition all_asg (r : rule) : list asg := subs r ++ mains r.

  Fixpoint symbols (e : expr) : list name :=
    match e with Sym s => [s] | Cst _ => [] | Bin _ a b => symbols a ++ symbols b end.
  Fixpoint subst (sg : name -> name) (e : expr) : expr :=
    match e with Sym s => Sym (sg s) | Cst v => Cst v | Bin o a b => Bin o (subst sg a) (subst sg b) end.

  (* ---------- execution ---------- *)
  Definition env := name -> V.
  Definition heap := nat -> mem L V.
  Definition set_env (e : env) (s : name) (v : V) : env := fun t => if name_eq_dec t s then v else e t.
  Definition set_heap (h : heap) (f : nat) (m : mem L V) : heap := fun g => if Nat.eqb g f then m else h g.
  Definition lookup (x : cell L) (st : env * heap) (s : name) : V :=
    match s with Acc f a => snd st f (shift x (off a)) (idx a) | _ => fst st s end.
  Fixpoint eval (x : cell L) (st : env * heap) (e : expr) : V :=
    match e with Sym s => lookup x st s | Cst v => v | Bin o a b => sem o (eval x st a) (eval x st b) end.
  (* one assignment: a store if the left hand side is an access *)
  Definition exec1 (x : cell L) (st : env * heap) (a : asg) : env * heap :=
    let v := eval x st (snd a) in
    match fst a with
    | Acc f c => (fst st, set_heap (snd st) f (upd L V (snd st f) (shift x (off c)) (idx c) v))
    | s => (set_env (fst st) s v, snd st)
    end.
  Definition exec (x : cell L) (prog : list asg) (st : env * heap) : env * heap := fold_left (exec1 x) prog st.
  (* a kernel call: the cells in loop order; every cell starts with the kernel parameters *)
  Definition run_kernel (params : env) (prog : list asg) (xs : list (cell L)) (h : heap) : heap :=
    fold_left (fun h x => snd (exec x prog (params, h))) xs h.

  (* ---------- updatekernels.py ---------- *)
  (* 28-32, 103-107: destination field *)
  Definition destination (inplace : bool) (src : nat) (dst : option nat) : res nat :=
    if inplace then Ok src else match dst with Some d => Ok d | None => Err ValueError end.
  (* 37-44 *)
  Definition substitution (src dst : nat) (io : list (access * access)) (s : name) : name :=
    match s with
    | Pre i => match nth_error io i with Some (a, _) => Acc src a | None => s end
    | Post i => match nth_error io i with Some (_, b) => Acc dst b | None => s end
    | _ => s
    end.
  (* 46: new_with_substitutions, on both sides *)
  Definition subst_asg (sg : name -> name) (a : asg) : asg := (sg (fst a), subst sg (snd a)).
  Definition subst_rule (sg : name -> name) (r : rule) : rule :=
    {| subs := map (subst_asg sg) (subs r); mains := map (subst_asg sg) (mains r) |}.
  (* 54-56: pystencils add_subexpressions_for_field_reads, outside /repo: every access on a right hand side gets a fresh symbol,
     assigned before everything else; left hand sides are kept. *)
  Definition field_reads (l : list asg) : list (nat * access) :=
    flat_map (fun a => flat_map (fun s => match s with Acc f c => [(f, c)] | _ => [] end) (symbols (snd a))) l.
  Definition read_symbol (s : name) : name := match s with Acc f c => Rd f c | _ => s end.
  Definition isolate_reads (r : rule) : rule :=
    {| subs := map (fun p => (Rd (fst p) (snd p), Sym (Acc (fst p) (snd p)))) (field_reads (all_asg r))
               ++ map (fun a => (fst a, subst read_symbol (snd a))) (subs r);
       mains := map (fun a => (fst a, subst read_symbol (snd a))) (mains r) |}.
  (* 13-58.  [other_type]: a data type different from the field's is requested.  The split groups hint is in SplitModel. *)
  Definition create_lbm_kernel (S : stencil) (r : rule) (src : nat) (dst : option nat) (a : accessor) (other_type : bool) : res rule :=
    rbind (destination (acc_inplace a) src dst) (fun d =>
    rbind (acc_read a S) (fun ins => rbind (acc_write a S) (fun outs =>
      let result := subst_rule (substitution src d (combine ins outs)) r in
      Ok (if acc_inplace a || other_type then isolate_reads result else result)))).

  Definition load_temporaries (f : nat) (accs : list access) : list asg := map (fun p => (Str (fst p), Sym (Acc f (snd p)))) (enum accs).
  Definition store_temporaries (f : nat) (accs : list access) : list asg := map (fun p => (Acc f (snd p), Sym (Str (fst p)))) (enum accs).
  (* 61-84: here a given destination field is used for in-place accessors, too *)
  Definition create_stream_only_kernel (S : stencil) (src : nat) (dst : option nat) (a : accessor) : res rule :=
    rbind (match dst with Some d => Ok d | None => if acc_inplace a then Ok src else Err ValueError end) (fun d =>
    rbind (acc_read a S) (fun ins => rbind (acc_write a S) (fun outs =>
      Ok {| subs := load_temporaries src ins; mains := store_temporaries d outs |}))).
  (* 87-120.  [out]: output_equations_from_pdfs(streamed, output), modelled in MacroModel; None: no output requested *)
  Definition create_stream_pull_with_output_kernel (S : stencil) (out : option rule) (src : nat) (dst : option nat) (a : accessor) : res rule :=
    rbind (destination (acc_inplace a) src dst) (fun d =>
    rbind (acc_read a S) (fun ins => rbind (acc_write a S) (fun outs =>
      let o := match out with Some o => o | None => {| subs := []; mains := [] |} end in
      Ok {| subs := load_temporaries src ins ++ subs o; mains := mains o ++ store_temporaries d outs |}))).
  (* 123-140 *)
  Definition create_copy_kernel (S : stencil) (src dst : nat) (a : accessor) : res rule :=
    rbind (acc_write a S) (fun ins => rbind (acc_write a S) (fun outs =>
      Ok {| subs := load_temporaries src ins; mains := store_temporaries dst outs |})).
End K.

Arguments Sym {V Op}.
Arguments Cst {V Op}.
Arguments Bin {V Op}.
Arguments subs {V Op}.
Arguments mains {V Op}.
Arguments all_asg {V Op}.
Arguments symbols {V Op}.
Arguments subst {V Op}.
Arguments set_env {V}.
Arguments set_heap {L V}.
Arguments lookup {L V}.
Arguments eval {L V Op}.
Arguments exec1 {L V Op}.
Arguments exec {L V Op}.
Arguments run_kernel {L V Op}.
Arguments create_lbm_kernel {V Op}.
Arguments create_stream_only_kernel {V Op}.
Arguments create_stream_pull_with_output_kernel {V Op}.
Arguments create_copy_kernel {V Op}.
Arguments subst_asg {V Op}.
Arguments subst_rule {V Op}.
Arguments isolate_reads {V Op}.
Arguments field_reads {V Op}.
Arguments load_temporaries {V Op}.
Arguments store_temporaries {V Op}.

(* create_pdf_array, 159-163: shape of the array (strides are numpy's) *)
Definition pdf_array_shape (size : list Z) (num_directions : nat) (ghost_layers : Z) : list Z :=
  (map (fun s => s + 2 * ghost_layers) size ++ [Z.of_nat num_directions])%Z.
