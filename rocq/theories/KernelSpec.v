(* What a kernel built from a collision rule must do. *)
From Coq Require Import List ZArith Bool Arith.
From Verif Require Import StencilModel AccessModel StreamModel StreamSpec KernelModel.
Import ListNotations.

Section S.
  Context {L : lattice} {V : Type} {Op : Type} (sem : Op -> V -> V -> V).

  (* the fields a rule stores to *)
  Definition writes_field (r : rule V Op) (g : nat) : Prop := exists a e, In (Acc g a, e) (all_asg r).
  (* A collision rule for Q populations, which uses other fields than src and dst: it assigns every post-collision population
     and reads none, assigns no pre-collision population, and reads no field it stores to. *)
  Definition collision_rule (Q src dst : nat) (r : rule V Op) : Prop :=
    (forall s e, In (s, e) (all_asg r) -> match s with
       | Post i => i < Q | Tmp _ => True | Acc g _ => g <> src /\ g <> dst | _ => False end) /\
    (forall s e t, In (s, e) (all_asg r) -> In t (symbols e) -> match t with
       | Pre i => i < Q | Tmp _ => True | Acc g _ => g <> src /\ g <> dst /\ ~ writes_field r g | _ => False end) /\
    (forall i, i < Q -> exists e, In (Post i, e) (all_asg r)).

  (* The post-collision populations the rule assigns at cell x if the pre-collision populations are f. *)
  Definition with_pre (params : env V) (f : list V) : env V :=
    fun s => match s with Pre i => nth i f (params s) | _ => params s end.
  Definition collide (r : rule V Op) (params : env V) (h : heap L V) (Q : nat) (x : cell L) (f : list V) : list V :=
    map (fun i => fst (exec sem x (all_asg r) (with_pre params f, h)) (Post i)) (seq 0 Q).

  (* Output equations: functions of the streamed populations, stored to fields other than src and dst. *)
  Definition output_rule (Q src dst : nat) (r : rule V Op) : Prop :=
    (forall s e, In (s, e) (all_asg r) -> match s with Tmp _ => True | Acc g _ => g <> src /\ g <> dst | _ => False end) /\
    (forall s e t, In (s, e) (all_asg r) -> In t (symbols e) -> match t with Str i => i < Q | Tmp _ => True | _ => False end).
  Definition with_streamed (params : env V) (f : list V) : env V :=
    fun s => match s with Str i => nth i f (params s) | _ => params s end.
End S.

(* slots written by different directions differ *)
Definition one_slot_each (ws : list access) : Prop := NoDup (map idx ws).
