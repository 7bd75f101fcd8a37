(* What a LatticeBoltzmannStep does, without array names: one step maps the current populations, a spare array, the macroscopic
   arrays and the rest of the data to their successors (C36). *)
From Verif Require Import StepModel.

Section Spec.
  Context {B M O : Type} (p : parts B M O).
  Definition step_data : Type := (B * B * M * O)%type.
  (* current populations, spare array, density and velocity as kernels see them, rest *)
  Definition data_of (s : state B M O) : step_data :=
    match pdf s with
    | BufA => (in_A s, in_B s, if gpu p then dev_macro s else macro s, rest s)
    | BufB => (in_B s, in_A s, if gpu p then dev_macro s else macro s, rest s)
    end.
  Definition reference_step (d : step_data) : step_data :=
    let '(cur, spare, m, o) := d in
    if two_kernels p then
      let '(f, m, o) := collide p m o cur in
      let f := boundary p o (sync p f) in
      (stream p o f spare, f, m, o)
    else
      let f := boundary p o (sync p cur) in
      let '(f', m, o) := stream_collide p m o f spare in
      (f', f, m, o).
  Fixpoint reference_steps (n : nat) (d : step_data) : step_data :=
    match n with 0 => d | S n => reference_step (reference_steps n d) end.
End Spec.
