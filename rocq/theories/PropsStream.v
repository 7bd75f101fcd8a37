(* C01, C02, C03: streaming patterns, race freedom, boundary kernels. *)
From Coq Require Import String List ZArith Bool Arith Permutation Lia.
From Verif Require Import StencilModel AccessModel StreamModel StreamSpec AccessProofs StreamProofs
  RaceModel RaceProofs GridModel GridProofs StreamProofs2 StencilProofs2.
Import ListNotations.

(* C01 on every torus: setter, n update kernels, getter = the reference recursion, whatever the pattern,
   the initial contents of both arrays and the order in which the kernels visit the cells. *)
Theorem C01_streaming_torus : forall (V : Type) (v0 : V) N S p t xs0 xs C B f0 m_src m_tmp n x,
  supported p (length N) S t ->
  Permutation xs0 (torus_cells N) ->
  (forall n, Permutation (xs n) (torus_cells N)) ->
  (forall n x f, length f = length S -> length (C n x f) = length S) ->
  (forall x, length (f0 x) = length S) ->
  simulate (torus N) V p t S xs0 xs (fun _ => []) C B f0 m_src m_tmp n x
  = Ok (stream_collide v0 S C f0 n x).
Proof. exact torus_correct. Qed.
Print Assumptions C01_streaming_torus.

(* C01 on any lattice (in particular with unbounded axes): every history of simultaneous updates. *)
Theorem C01_streaming_lattice : forall (L : lattice) (V : Type) (v0 : V) S p t C f0 (hist : nat -> state L V),
  supported p (ldim L) S t ->
  (forall n x f, length f = length S -> length (C n x f) = length S) ->
  (forall x, length (f0 x) = length S) ->
  (forall x, getter L V p t S false (src (hist 0)) x = Ok (f0 x)) ->
  (forall n, simultaneous_update L V p (ts_after t (Datatypes.S n)) S (fun _ => True) (C n)
               (hist n) (hist (Datatypes.S n))) ->
  forall n x, getter L V p (ts_after t n) S false (src (hist n)) x = Ok (stream_collide v0 S C f0 n x).
Proof. exact lattice_correct. Qed.
Print Assumptions C01_streaming_lattice.

(* C02: every slot an in-place kernel reads at a cell is written by that cell, by no other
   cell, and different (cell, direction) pairs write different slots. *)
Theorem C02_exclusive_slots : forall L S p t rs ws,
  supported p (ldim L) S t -> is_inplace p = true ->
  reads_of p t S = Ok rs -> writes_of p t S = Ok ws ->
  (forall i a, nth_error rs i = Some a -> exists j b, nth_error ws j = Some b /\
     forall x : cell L, slot x a = slot x b) /\
  (forall (x y : cell L) a b, In a rs -> In b ws -> slot x a = slot y b -> x = y) /\
  (forall (x y : cell L) i j a b, nth_error ws i = Some a -> nth_error ws j = Some b ->
     slot x a = slot y b -> x = y /\ i = j).
Proof. exact exclusive_slots. Qed.
Print Assumptions C02_exclusive_slots.

(* Visiting the cells one after another, in place, is the simultaneous update of all of them. *)
Theorem C02_sequential_is_simultaneous : forall L V S p t C xs s,
  supported p (ldim L) S t -> NoDup xs ->
  (forall x f, length f = length S -> length (C x f) = length S) ->
  exists s', update L V p t S xs C s = Ok s' /\
    simultaneous_update L V p t S (fun x => In x xs) C s s'.
Proof. exact update_simultaneous. Qed.
Print Assumptions C02_sequential_is_simultaneous.

Theorem C02_order_independent : forall L V S p t C xs xs' s s1,
  supported p (ldim L) S t -> NoDup xs -> Permutation xs xs' ->
  (forall x f, length f = length S -> length (C x f) = length S) ->
  update L V p t S xs C s = Ok s1 ->
  exists s2, update L V p t S xs' C s = Ok s2 /\
    (forall c k, src s2 c k = src s1 c k) /\ tmp s2 = tmp s1.
Proof. exact order_independent. Qed.
Print Assumptions C02_order_independent.

(* Any interleaving of the individual loads and stores of concurrently processed cells. *)
Theorem C02_race_free : forall L V S p t C xs sched regs0 s s1,
  supported p (ldim L) S t -> NoDup xs ->
  (forall x f, length f = length S -> length (C x f) = length S) ->
  valid_schedule (length S) xs sched ->
  update L V p t S xs C s = Ok s1 ->
  exists s2, update_scheduled L V p t S C sched regs0 s = Ok s2 /\
    (forall c k, src s2 c k = src s1 c k) /\ tmp s2 = tmp s1.
Proof. exact schedule_independent. Qed.
Print Assumptions C02_race_free.

(* C03: with an arbitrary fluid set and arbitrary boundary rules, n steps of (boundary kernel over the
   links in any order, update kernel over the fluid cells in any order) are the reference
   recursion [post], in which a population arriving from a non-fluid neighbour is the boundary rule evaluated
   on post-collision populations.  The same statement holds for every pattern. *)
Theorem C03_boundary_simulation : forall (L : lattice) (V : Type) (v0 : V) S p (fluid : cell L -> bool)
    xs0 xs links C B f0 t m_src m_tmp n x,
  supported p (ldim L) S t ->
  (forall x, fluid x = true -> In x xs0) ->
  (forall n, NoDup (xs n)) ->
  (forall n x, In x (xs n) <-> fluid x = true) ->
  (forall n l, In l (links n) <-> is_link S fluid l) ->
  (forall n x f, length f = length S -> length (C n x f) = length S) ->
  (forall n x i a, is_link S fluid (x, i) -> In a (b_reads (B n x i)) -> readable S fluid x a) ->
  (forall x, length (f0 x) = length S) ->
  fluid x = true ->
  simulate L V p t S xs0 xs links C B f0 m_src m_tmp n x = Ok (post v0 S fluid C B f0 n x).
Proof.
  exact (fun L V v0 S p fluid xs0 xs links C B f0 t m_src m_tmp n x HP H0 Hnd Hxs Hl HC HB Hf Hx =>
    simulate_correct L V v0 S p fluid xs0 xs links C B f0 H0 Hnd Hxs Hl HC HB Hf t m_src m_tmp n x HP Hx).
Qed.
Print Assumptions C03_boundary_simulation.

(* One boundary kernel: writes the rule's value to the slot the next kernel reads for the incoming
   direction, changes no other slot, and changes no population of a fluid cell. *)
Theorem C03_boundary_kernel : forall (L : lattice) (V : Type) (v0 : V) S p t fluid B,
  supported p (ldim L) S t ->
  (forall x i a, is_link S fluid (x, i) -> In a (b_reads (B x i)) -> readable S fluid x a) ->
  forall links s ins, (forall l, In l links -> is_link S fluid l) ->
  reads_of p (ts_next t) S = Ok ins ->
  exists s', boundary L V p t S B links s = Ok s' /\ tmp s' = tmp s /\
    (forall x i k a, In (x, i) links -> opposite S i k -> nth_error ins k = Some a ->
       exists f, (forall y, getter L V p t S false (src s) y = Ok (f y)) /\
       src s' (fst (slot x a)) (snd (slot x a)) =
       b_fun (B x i) (map (pacc_value L V v0 S f x) (b_reads (B x i)))) /\
    (forall x, fluid x = true -> getter L V p t S false (src s') x = getter L V p t S false (src s) x) /\
    (forall c q, (forall x i k a, In (x, i) links -> opposite S i k -> nth_error ins k = Some a ->
                    slot x a <> (c, q)) ->
       src s' c q = src s c q).
Proof. exact boundary_kernel_spec. Qed.
Print Assumptions C03_boundary_kernel.

Theorem C03_link_order_independent : forall (L : lattice) (V : Type) (v0 : V) S p t fluid B,
  supported p (ldim L) S t ->
  (forall x i a, is_link S fluid (x, i) -> In a (b_reads (B x i)) -> readable S fluid x a) ->
  forall links links' s s1, (forall l, In l links -> is_link S fluid l) ->
  (forall l, In l links' <-> In l links) ->
  boundary L V p t S B links s = Ok s1 ->
  exists s2, boundary L V p t S B links' s = Ok s2 /\ tmp s2 = tmp s1 /\ forall c q, src s2 c q = src s1 c q.
Proof. exact boundary_order_independent. Qed.
Print Assumptions C03_link_order_independent.

(* ---------- the hypotheses are met ---------- *)

(* All six patterns are supported on all predefined D2Q9, D3Q15, D3Q19, D3Q27 stencils;
   pull, push, aa and esotwist on the others as well. *)
Example supported_predefined : forall name ord S p, predefined_stencils name ord = Ok S ->
  (match p with ESOPULL | ESOPUSH => In (sizeQ S) [9; 15; 19; 27] | _ => True end) ->
  supported p (dimD S) S EVEN /\ supported p (dimD S) S ODD.
Proof.
  intros name ord S p HS Hp.
  pose proof (proj1 (predefined_wf _ _ _ HS)) as HW. apply predefined_In in HS.
  assert (HE : In (sizeQ S) [9; 15; 19; 27] -> eso_pairs_stencil S).
  { intros Hq. apply eso_pairs_b_sound.
    assert (T : forallb (fun e => implb (existsb (Nat.eqb (sizeQ (snd e))) [9; 15; 19; 27]) (eso_pairs_b (snd e)))
                 predefined_table = true) by (vm_compute; reflexivity).
    rewrite forallb_forall in T. specialize (T _ HS). cbn [snd] in T.
    assert (E : existsb (Nat.eqb (sizeQ S)) [9; 15; 19; 27] = true).
    { apply existsb_exists. exists (sizeQ S). split; [exact Hq|apply Nat.eqb_refl]. }
    rewrite E in T. exact T. }
  split; (split; [exact HW|]); destruct p; try exact I; try discriminate; split; try discriminate; auto.
Qed.

Local Open Scope Z_scope.
(* a 3 x 2 torus, D2Q9, two steps of a non-trivial collision starting from distinct populations; the
   simulation of the esopull and the aa kernels evaluated in place on garbage-filled arrays *)
Definition ex_N : list positive := [3; 2]%positive.
Definition ex_C (n : nat) (x : cell (torus ex_N)) (f : list Z) : list Z :=
  map (fun v => 2 * v + fold_left Z.add f (Z.of_nat n)) f.
Definition ex_f0 (x : cell (torus ex_N)) : list Z :=
  map (fun i => 100 * nth 0 (proj1_sig x) 0 + 10 * nth 1 (proj1_sig x) 0 + Z.of_nat i) (seq 0 9).
Definition ex_B (n : nat) (x : cell (torus ex_N)) (i : nat) : brule Z :=
  {| b_reads := [FOut (vzero 2) i]; b_fun := fun l => nth 0 l 0 |}.
Definition ex_x : cell (torus ex_N) := exist _ [2; 1] eq_refl.
Definition ex_run p t := simulate (torus ex_N) Z p t D2Q9_walberla (torus_cells ex_N) (fun _ => torus_cells ex_N)
  (fun _ => []) ex_C ex_B ex_f0 (fun _ _ => 777) (fun _ _ => 888) 2 ex_x.

Example C01_example :
  ex_run ESOPULL EVEN = ex_run AA ODD /\ ex_run ESOPUSH ODD = ex_run PULL BOTH /\
  ex_run ESOPULL EVEN = Ok (stream_collide 0 D2Q9_walberla ex_C ex_f0 2 ex_x) /\
  ex_run ESOPULL EVEN <> Ok (ex_f0 ex_x) /\ ex_run AA BOTH = Err ValueError.
Proof. vm_compute. repeat split; congruence. Qed.

(* a solid obstacle on the torus with bounce-back links, satisfying every hypothesis of C03 *)
Definition ex_fluid (x : cell (torus ex_N)) : bool := negb (vec_eqb (proj1_sig x) [0; 0]).
Example C03_example :
  (forall n l, In l ((fun _ : nat => torus_links ex_N D2Q9_walberla ex_fluid) n) <-> is_link D2Q9_walberla ex_fluid l) /\
  (forall n x i a, is_link D2Q9_walberla ex_fluid (x, i) -> In a (b_reads (ex_B n x i)) ->
     readable D2Q9_walberla ex_fluid x a) /\
  length (torus_links ex_N D2Q9_walberla ex_fluid) = 8%nat /\
  ex_fluid ex_x = true /\
  (simulate (torus ex_N) Z ESOTWIST ODD D2Q9_walberla (torus_cells ex_N)
     (fun _ => torus_fluid_cells ex_N ex_fluid) (fun _ => torus_links ex_N D2Q9_walberla ex_fluid)
     ex_C ex_B ex_f0 (fun _ _ => 777) (fun _ _ => 888) 2 ex_x
   = Ok (post 0 D2Q9_walberla ex_fluid ex_C ex_B ex_f0 2 ex_x)) /\
  post 0 D2Q9_walberla ex_fluid ex_C ex_B ex_f0 2 ex_x <> stream_collide 0 D2Q9_walberla ex_C ex_f0 2 ex_x.
Proof.
  split; [intros n l; apply torus_links_spec|]. split.
  - intros n x i a (Hx & Hi & _) Ha. destruct Ha as [<-|[]].
    split; [exact Hi|]. split; [reflexivity|].
    change (vzero 2) with (vzero (ldim (torus ex_N))). rewrite shift_zero. exact Hx.
  - vm_compute. repeat split; congruence.
Qed.

(* a genuinely interleaved schedule is valid: all loads of all cells, then all stores in reverse order *)
Example C02_schedule_example : forall (xs : list (cell (torus ex_N))),
  let loads := flat_map (fun x => map (Ld x) (seq 0 9)) xs in
  let stores := rev (flat_map (fun x => map (St x) (seq 0 9)) xs) in
  valid_schedule 9 xs (loads ++ stores).
Proof. exact (phased_schedule_valid (torus ex_N) 9). Qed.
