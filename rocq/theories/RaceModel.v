(* Concurrent execution of an update kernel: every cell is a thread that first performs its Q loads,
   then its Q stores (create_lbm_kernel, updatekernels.py:87-120, arranges this by introducing
   temporaries for all pdf reads); loads and stores of different cells interleave arbitrarily. *)
From Coq Require Import String List ZArith Bool Arith.
From Verif Require Import StencilModel AccessModel StreamModel.
Import ListNotations.

Section Race.
  Context (L : lattice) (V : Type).

  Inductive event := Ld (x : cell L) (i : nat) | St (x : cell L) (i : nat).

  (* [regs x i]: the temporary of cell x that holds population i *)
  Record cstate := { cmem : mem L V; regs : cell L -> nat -> V }.

  (* [source]: None for in-place kernels (loads read the array being written),
     Some m for two-field kernels (loads read the separate source field m). *)
  Definition exec_event (source : option (mem L V)) (rs ws : list access)
      (C : cell L -> list V -> list V) (s : cstate) (e : event) : cstate :=
    match e with
    | Ld x i =>
        match nth_error rs i with
        | Some a =>
            let m := match source with None => cmem s | Some m => m end in
            {| cmem := cmem s; regs := upd L V (regs s) x i (m (shift x (off a)) (idx a)) |}
        | None => s
        end
    | St x i =>
        match nth_error ws i, nth_error (C x (map (regs s x) (seq 0 (List.length rs)))) i with
        | Some a, Some v => {| cmem := upd L V (cmem s) (shift x (off a)) (idx a) v; regs := regs s |}
        | _, _ => s
        end
    end.

  (* updatekernels.py:87-120, executed under a given schedule of loads and stores *)
  Definition update_scheduled (p : pattern) (t : timestep) (S : stencil)
      (C : cell L -> list V -> list V) (sched : list event) (regs0 : cell L -> nat -> V)
      (s : state L V) : res (state L V) :=
    rbind (get_accessor p t) (fun a =>
    rbind (acc_read a S) (fun rs =>
    rbind (acc_write a S) (fun ws =>
      if is_inplace p
      then Ok {| src := cmem (fold_left (exec_event None rs ws C) sched {| cmem := src s; regs := regs0 |});
                 tmp := tmp s |}
      else Ok {| src := cmem (fold_left (exec_event (Some (src s)) rs ws C) sched
                                {| cmem := tmp s; regs := regs0 |});
                 tmp := src s |}))).

  (* A schedule of the cells [xs] with Q populations: only events of these cells, every store occurs,
     a cell's stores come after all of its loads, and no load of a cell follows
     one of its stores. *)
  Definition valid_schedule (Q : nat) (xs : list (cell L)) (sched : list event) : Prop :=
    (forall x i, In (Ld x i) sched \/ In (St x i) sched -> In x xs /\ i < Q) /\
    (forall x i, In x xs -> i < Q -> In (St x i) sched) /\
    (forall pre rest x i, sched = pre ++ St x i :: rest -> forall j, j < Q -> In (Ld x j) pre) /\
    (forall pre rest x j, sched = pre ++ Ld x j :: rest -> forall i, ~ In (St x i) pre).
End Race.
Arguments Ld {L}.
Arguments St {L}.
Arguments valid_schedule {L}.
