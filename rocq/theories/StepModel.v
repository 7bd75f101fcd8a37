(* Model of LatticeBoltzmannStep.run and its parts, src/lbmpy/lbstep.py:262-333.
   Kernels are functions on arrays; the swap of the two population arrays exchanges names, not contents, and the unrolled
   loop calls kernels with the arrays that the names meant when the loop was built.
   pystencils (outside /repo): TimeLoop.run(n) = pre run functions, n // steps times all fixed calls, n % steps times the
   single step functions, post run functions; synchronisation functions resolve their array name when called;
   get_kernel_kwargs and BoundaryHandling.add_fixed_steps resolve names when called, that is when the loop is built. *)
From Coq Require Import List Arith Bool.
Import ListNotations.

(* an array of populations: one of the two buffers *)
Inductive buffer := BufA | BufB.
Definition other_buffer (b : buffer) : buffer := match b with BufA => BufB | BufB => BufA end.

(* B: contents of a population array; M: contents of density and velocity arrays; O: everything else (forces, boundary data, ...) *)
Record state (B M O : Type) := {
  in_A : B; in_B : B;       (* the arrays kernels work on (GPU memory if the target is GPU) *)
  pdf : buffer;             (* which of them is called name_pdfSrc; the other one is name_pdfTmp *)
  host_pdf : B;             (* CPU copy of name_pdfSrc, only used if the target is GPU *)
  macro : M;                (* density and velocity arrays in CPU memory *)
  dev_macro : M;            (* their GPU copies, if they exist *)
  rest : O;
  time_steps_run : nat }.
Arguments in_A {B M O}. Arguments in_B {B M O}. Arguments pdf {B M O}. Arguments host_pdf {B M O}.
Arguments macro {B M O}. Arguments dev_macro {B M O}. Arguments rest {B M O}. Arguments time_steps_run {B M O}.

Section Step.
  Context {B M O : Type}.
  (* the domain: synchronisation and boundary handling work in place *)
  Record parts := {
    sync : B -> B;
    boundary : O -> B -> B;
    (* stream-collide: macro, rest, src, dst -> dst, macro, rest *)
    stream_collide : M -> O -> B -> B -> B * M * O;
    (* collide in place, then stream src -> dst *)
    collide : M -> O -> B -> B * M * O;
    stream : O -> B -> B -> B;
    (* density and velocity from populations *)
    getter : O -> B -> M -> M;
    two_kernels : bool;    (* time_step_order = 'collide_stream' *)
    gpu : bool;
    macro_on_gpu : bool }. (* compute_velocity_in_every_step / compute_density_in_every_step *)
  Variable (p : parts).
  Notation st := (state B M O).

  Definition get_buf (b : buffer) (s : st) : B := match b with BufA => in_A s | BufB => in_B s end.
  Definition set_buf (b : buffer) (v : B) (s : st) : st :=
    match b with
    | BufA => {| in_A := v; in_B := in_B s; pdf := pdf s; host_pdf := host_pdf s; macro := macro s; dev_macro := dev_macro s; rest := rest s; time_steps_run := time_steps_run s |}
    | BufB => {| in_A := in_A s; in_B := v; pdf := pdf s; host_pdf := host_pdf s; macro := macro s; dev_macro := dev_macro s; rest := rest s; time_steps_run := time_steps_run s |}
    end.
  Definition set_pdf (b : buffer) (s : st) : st :=
    {| in_A := in_A s; in_B := in_B s; pdf := b; host_pdf := host_pdf s; macro := macro s; dev_macro := dev_macro s; rest := rest s; time_steps_run := time_steps_run s |}.
  Definition set_host (v : B) (s : st) : st :=
    {| in_A := in_A s; in_B := in_B s; pdf := pdf s; host_pdf := v; macro := macro s; dev_macro := dev_macro s; rest := rest s; time_steps_run := time_steps_run s |}.
  Definition set_macro (m : M) (s : st) : st :=
    {| in_A := in_A s; in_B := in_B s; pdf := pdf s; host_pdf := host_pdf s; macro := m; dev_macro := dev_macro s; rest := rest s; time_steps_run := time_steps_run s |}.
  Definition set_dev_macro (m : M) (s : st) : st :=
    {| in_A := in_A s; in_B := in_B s; pdf := pdf s; host_pdf := host_pdf s; macro := macro s; dev_macro := m; rest := rest s; time_steps_run := time_steps_run s |}.
  Definition set_rest (o : O) (s : st) : st :=
    {| in_A := in_A s; in_B := in_B s; pdf := pdf s; host_pdf := host_pdf s; macro := macro s; dev_macro := dev_macro s; rest := o; time_steps_run := time_steps_run s |}.
  Definition add_steps (n : nat) (s : st) : st :=
    {| in_A := in_A s; in_B := in_B s; pdf := pdf s; host_pdf := host_pdf s; macro := macro s; dev_macro := dev_macro s; rest := rest s; time_steps_run := time_steps_run s + n |}.

  (* density and velocity arrays that kernels see *)
  Definition kernel_macro (s : st) : M := if gpu p then dev_macro s else macro s.
  Definition set_kernel_macro (m : M) (s : st) : st := if gpu p then set_dev_macro m s else set_macro m s.

  Definition do_sync (b : buffer) (s : st) : st := set_buf b (sync p (get_buf b s)) s.
  Definition do_boundary (b : buffer) (s : st) : st := set_buf b (boundary p (rest s) (get_buf b s)) s.
  Definition do_stream_collide (src dst : buffer) (s : st) : st :=
    let '(d, m, o) := stream_collide p (kernel_macro s) (rest s) (get_buf src s) (get_buf dst s) in
    set_rest o (set_kernel_macro m (set_buf dst d s)).
  Definition do_collide (src : buffer) (s : st) : st :=
    let '(d, m, o) := collide p (kernel_macro s) (rest s) (get_buf src s) in
    set_rest o (set_kernel_macro m (set_buf src d s)).
  Definition do_stream (src dst : buffer) (s : st) : st :=
    set_buf dst (stream p (rest s) (get_buf src s) (get_buf dst s)) s.
  (* data_handling.swap(pdf, tmp) *)
  Definition swap (s : st) : st := set_pdf (other_buffer (pdf s)) s.
  Definition tmp (s : st) : buffer := other_buffer (pdf s).

  (* lbstep.py:262-268 *)
  Definition pre_run (s : st) : st :=
    if gpu p then
      let s := set_buf (pdf s) (host_pdf s) s in
      if macro_on_gpu p then set_dev_macro (macro s) s else s
    else s.
  (* 313-316; the getter kernel is a CPU kernel *)
  Definition post_run (s : st) : st :=
    if gpu p then
      let s := set_host (get_buf (pdf s) s) s in set_macro (getter p (rest s) (host_pdf s) (macro s)) s
    else set_macro (getter p (rest s) (get_buf (pdf s) s) (macro s)) s.
  (* 273-284 *)
  Definition time_step (s : st) : st :=
    let s :=
      if two_kernels p then
        let s := do_collide (pdf s) s in
        let s := do_sync (pdf s) s in
        let s := do_boundary (pdf s) s in
        do_stream (pdf s) (tmp s) s
      else
        let s := do_sync (pdf s) s in
        let s := do_boundary (pdf s) s in
        do_stream_collide (pdf s) (tmp s) s in
    swap s.

  (* calls of the unrolled loop; arrays are captured except by the synchronisation functions, which look their name up *)
  Inductive call :=
  | CallSyncSrc | CallSyncTmp
  | CallBoundary (b : buffer)
  | CallStreamCollide (src dst : buffer)
  | CallCollide (src : buffer)
  | CallStream (src dst : buffer).
  Definition do_call (c : call) (s : st) : st :=
    match c with
    | CallSyncSrc => do_sync (pdf s) s
    | CallSyncTmp => do_sync (tmp s) s
    | CallBoundary b => do_boundary b s
    | CallStreamCollide src dst => do_stream_collide src dst s
    | CallCollide src => do_collide src s
    | CallStream src dst => do_stream src dst s
    end.
  (* 294-310: the calls added for t, with the names as they are now *)
  Definition loop_calls (t : nat) (s : st) : list call :=
    let sync_call := if t =? 0 then CallSyncSrc else CallSyncTmp in
    if two_kernels p
    then [CallCollide (pdf s); sync_call; CallBoundary (pdf s); CallStream (pdf s) (tmp s)]
    else [sync_call; CallBoundary (pdf s); CallStreamCollide (pdf s) (tmp s)].
  (* 286-311 *)
  Definition get_time_loop (s : st) : list call * st :=
    let s := pre_run s in
    let c0 := loop_calls 0 s in
    let s := swap s in
    let c1 := loop_calls 1 s in
    let s := swap s in
    (c0 ++ c1, s).
  Fixpoint iter {A} (n : nat) (f : A -> A) (a : A) : A := match n with 0 => a | S n => iter n f (f a) end.
  Definition do_calls (cs : list call) (s : st) : st := fold_left (fun s c => do_call c s) cs s.
  (* pystencils TimeLoop.run *)
  Definition time_loop_run (cs : list call) (n : nat) (s : st) : st :=
    let s := pre_run s in
    let s := iter (n / 2) (do_calls cs) s in
    let s := iter (n mod 2) time_step s in
    post_run s.
  (* 318-321 *)
  Definition run (n : nat) (s : st) : st :=
    let '(cs, s) := get_time_loop s in add_steps n (time_loop_run cs n s).
  (* 323-329 *)
  Definition run_old (n : nat) (s : st) : st :=
    let s := pre_run s in
    let s := iter n time_step s in
    let s := post_run s in
    add_steps n s.
End Step.
Arguments parts : clear implicits.
