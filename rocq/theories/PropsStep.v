(* C36: running n steps composes. *)
From Coq Require Import List Arith Bool Lia.
From Verif Require Import StepModel StepSpec StepProofs StepProofs2.
Import ListNotations.

(* run n is: upload, n single time steps, download and compute density and velocity; for every n, even or odd, whole state *)
Theorem C36_run_is_single_steps B M O (p : parts B M O) n s : run p n s = add_steps n (post_run p (iter n (time_step p) (pre_run p s))).
Proof. apply run_run_old. Qed.
Print Assumptions C36_run_is_single_steps.

(* a single time step is the reference step on the current populations, whichever array holds them *)
Theorem C36_time_step B M O (p : parts B M O) s : data_of p (time_step p s) = reference_step p (data_of p s).
Proof. apply time_step_reference. Qed.
Print Assumptions C36_time_step.

(* the fields after run n: populations of n reference steps, density and velocity computed from them *)
Theorem C36_result B M O (p : parts B M O) n s : gpu p = false ->
  let '(cur, spare, m, o) := reference_steps p n (data_of p s) in
  get_buf (pdf (run p n s)) (run p n s) = cur /\ get_buf (tmp (run p n s)) (run p n s) = spare /\ rest (run p n s) = o /\
  macro (run p n s) = getter p o cur m.
Proof.
  intros G. pose proof (run_reference p n s G) as H. destruct (reference_steps p n (data_of p s)) as [[[cur spare] m] o]. exact H.
Qed.
Print Assumptions C36_result.
Theorem C36_result_gpu B M O (p : parts B M O) n s : gpu p = true -> macro_on_gpu p = false ->
  let '(cur, _, _, o) := reference_steps p n (data_of p (set_buf (pdf s) (host_pdf s) s)) in
  host_pdf (run p n s) = cur /\ get_buf (pdf (run p n s)) (run p n s) = cur /\ rest (run p n s) = o /\ macro (run p n s) = getter p o cur (macro s).
Proof. intros G GM. apply run_reference_gpu; auto. Qed.
Print Assumptions C36_result_gpu.

Theorem C36_counter B M O (p : parts B M O) n s : time_steps_run (run p n s) = time_steps_run s + n.
Proof. apply run_counts. Qed.
Print Assumptions C36_counter.

(* run a then run b is run (a+b), if the kernels do not read the density and velocity arrays which run recomputes at its end *)
Theorem C36_compose B M O (p : parts B M O) : macro_independent p -> getter_overwrites p ->
  forall a b s, same_fields (run p b (run p a s)) (run p (a + b) s).
Proof. intros HI HG a b s. now apply run_compose. Qed.
Print Assumptions C36_compose.
(* any history of calls *)
Theorem C36_history B M O (p : parts B M O) : macro_independent p -> getter_overwrites p ->
  forall n ns s, same_fields (fold_left (fun s k => run p k s) ns (run p n s)) (run p (n + list_sum ns) s).
Proof. intros HI HG n ns s. now apply run_history. Qed.
Print Assumptions C36_history.

(* ---------- a simulation on lists of numbers: kernels that read the old contents of the destination, use and change other data,
   and write density and velocity ---------- *)
Definition demo (order on_gpu : bool) : parts (list nat) (nat * nat) nat := {|
  sync := fun b => match b with [] => [] | x :: b => last b x :: b end;
  boundary := fun o b => b ++ [o];
  stream_collide := fun m o src dst => (map (fun x => 2 * x + o) src ++ firstn 1 dst, (7, snd m), o + length src);
  collide := fun m o src => (map (fun x => 3 * x + 1) src, (5, snd m), o + 1);
  stream := fun o src dst => rev src ++ firstn 2 dst;
  getter := fun o b m => (o + list_sum b, snd m);
  two_kernels := order; gpu := on_gpu; macro_on_gpu := on_gpu |}.
Example demo_independent order on_gpu : macro_independent (demo order on_gpu) /\ getter_overwrites (demo order on_gpu).
Proof. split; repeat split. Qed.
Definition demo_state : state (list nat) (nat * nat) nat :=
  {| in_A := [1; 2; 3]; in_B := [9; 9; 9]; pdf := BufA; host_pdf := [4; 5; 6]; macro := (0, 1); dev_macro := (3, 4); rest := 2; time_steps_run := 10 |}.
(* three steps: one unrolled pair and one single step; names are swapped afterwards *)
Example demo_odd : let s := run (demo false false) 3 demo_state in
  pdf s = BufB /\ time_steps_run s = 13 /\ get_buf (pdf s) s <> get_buf (pdf s) (run (demo false false) 2 demo_state).
Proof. vm_compute. repeat split. discriminate. Qed.
Example demo_compose : let p := demo true true in macro (run p 3 (run p 2 demo_state)) = macro (run p 5 demo_state) /\ macro (run p 5 demo_state) <> macro (run p 4 demo_state).
Proof. vm_compute. split; [reflexivity|discriminate]. Qed.

(* If the kernel reads the velocity array (velocity_input_array_name = velocity array), run 1 twice is not run 2:
   the end of the first run overwrites its input. *)
Theorem C36_velocity_input_refuted : exists (p : parts nat nat unit) s, getter_overwrites p /\
  get_buf (pdf (run p 1 (run p 1 s))) (run p 1 (run p 1 s)) <> get_buf (pdf (run p 2 s)) (run p 2 s).
Proof.
  exists {| sync := fun b => b; boundary := fun _ b => b; stream_collide := fun m o src _ => (src + m + 1, m, o); collide := fun m o src => (src, m, o);
    stream := fun _ src _ => src; getter := fun _ b _ => b; two_kernels := false; gpu := false; macro_on_gpu := false |}.
  exists {| in_A := 0; in_B := 0; pdf := BufA; host_pdf := 0; macro := 0; dev_macro := 0; rest := tt; time_steps_run := 0 |}.
  split; [repeat split|]. vm_compute. discriminate.
Qed.
Print Assumptions C36_velocity_input_refuted.
