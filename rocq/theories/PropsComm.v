From Coq Require Import String List ZArith Bool Arith Permutation.
From Verif Require Import StencilModel StencilProofs2 AccessModel StreamModel StreamSpec GridModel
  CommModel CommSpec CommProofs CommProofs2.
Import ListNotations.
Local Open Scope Z_scope.

(* C05: one exchange.  The array has one ghost layer around N_1 x ... x N_D interior cells (coordinates
   1 .. N_k).  After the exchange that follows a kernel of parity t, the slot the next kernel reads at
   interior cell y for direction i holds what the previous kernel wrote for direction i at the
   periodic image x of the upstream neighbour, for every subset [per] of periodic axes (whenever
   that image lies inside the domain); and every slot that a previous-step write from an interior cell
   (or no write at all) addresses keeps its contents. *)
Theorem C05_exchange D V S p N per order t (m : mem (zlat D) V) :
  supported p D S t -> In t (get_timesteps p) -> nearest_neighbour S ->
  length N = D -> Forall (fun n => 1 <= n) N -> length per = D ->
  (forall c l, Permutation (order c l) l) ->
  exists m' ws rs, periodicity_handling D V order p S N per 1 t m = Ok m' /\
    writes_of p t S = Ok ws /\ reads_of p (ts_next t) S = Ok rs /\
    (forall y i w r, interior N y -> nth_error ws i = Some w -> nth_error rs i = Some r ->
       let x := wrap_pos N per (vadd y (vneg (nth i S []))) in
       interior N x ->
       m' (fst (slot (pos D y) r)) (snd (slot (pos D y) r)) =
       m (fst (slot (pos D x) w)) (snd (slot (pos D x) w))) /\
    (forall c k, (forall z w, length z = D -> ~ interior N z -> In w ws -> slot (pos D z) w <> (c, k)) ->
       m' c k = m c k).
Proof. intros; apply exchange_slots; assumption. Qed.
Print Assumptions C05_exchange.

(* C05: interior populations survive the exchange *)
Theorem C05_interior_unchanged D V S p N per order t (m : mem (zlat D) V) :
  supported p D S t -> In t (get_timesteps p) -> nearest_neighbour S ->
  length N = D -> Forall (fun n => 1 <= n) N -> length per = D ->
  (forall c l, Permutation (order c l) l) ->
  exists m' ws, periodicity_handling D V order p S N per 1 t m = Ok m' /\ writes_of p t S = Ok ws /\
    forall x w, interior N x -> In w ws ->
      m' (fst (slot (pos D x) w)) (snd (slot (pos D x) w)) = m (fst (slot (pos D x) w)) (snd (slot (pos D x) w)).
Proof. intros; apply exchange_interior; assumption. Qed.
Print Assumptions C05_interior_unchanged.

(* C05: the copies may be executed in any order *)
Theorem C05_copy_order D V S p N per order t ops ops' (m : mem (zlat D) V) :
  supported p D S t -> In t (get_timesteps p) -> nearest_neighbour S ->
  length N = D -> Forall (fun n => 1 <= n) N -> length per = D ->
  (forall c l, Permutation (order c l) l) ->
  (exists tabs, comm_tables order p S per 1 = Ok tabs /\ nth_error tabs (ts_idx t) = Some ops) ->
  Permutation ops ops' ->
  exists m1 m2, periodicity_handling D V order p S N per 1 t m = Ok m1 /\
    foldM (exec_copy D V (map (fun n => n + 2) N)) ops' m = Ok m2 /\ forall c k, m2 c k = m1 c k.
Proof. intros; eapply exchange_order; eassumption. Qed.
Print Assumptions C05_copy_order.

(* C05: whole simulations.  Setter, n times (exchange, kernel over the interior in any cell order),
   getter = stream-and-collide on the periodic box, whatever the array held before. *)
Theorem C05_torus D V (v0 : V) S p N order xs0 xs C f0 t m_src m_tmp n x :
  supported p D S t -> In t (get_timesteps p) -> nearest_neighbour S ->
  length N = D -> Forall (fun k => 1 <= k) N ->
  (forall c l, Permutation (order c l) l) ->
  Permutation xs0 (interior_cells D N 1) -> (forall n, Permutation (xs n) (interior_cells D N 1)) ->
  (forall n x f, length f = length S -> length (C n x f) = length S) ->
  (forall x, length (f0 x) = length S) ->
  interior N x ->
  simulate_periodic D V order p t S N 1 xs0 xs (fun n c => C n (proj1_sig c)) (fun c => f0 (proj1_sig c))
    m_src m_tmp n x
  = Ok (periodic_stream_collide v0 S N C f0 n x).
Proof. exact (torus_simulation D V v0 S p N order xs0 xs C f0 t m_src m_tmp n x). Qed.
Print Assumptions C05_torus.

(* C05, refuted for two ghost layers (interior coordinates 2 .. N_k+1): the exchange fills the outermost ghost
   layer, but the kernel reads the one next to the domain.  On a periodic 3x3 domain the slot read at
   cell (2,2) for direction (1,0) should hold the population of cell (4,2). *)
Theorem C05_two_ghost_layers_refuted :
  exists (m m' : mem (zlat 2) Z) ws rs i w r,
    periodicity_handling 2 Z (fun _ l => l) PULL D2Q9_walberla [3; 3] [true; true] 2 BOTH m = Ok m' /\
    nth_error D2Q9_walberla i = Some [1; 0] /\
    writes_of PULL BOTH D2Q9_walberla = Ok ws /\ reads_of PULL BOTH D2Q9_walberla = Ok rs /\
    nth_error ws i = Some w /\ nth_error rs i = Some r /\
    m' (fst (slot (pos 2 [2; 2]) r)) (snd (slot (pos 2 [2; 2]) r)) <>
    m (fst (slot (pos 2 [4; 2]) w)) (snd (slot (pos 2 [4; 2]) w)).
Proof. exact two_ghost_layers. Qed.
Print Assumptions C05_two_ghost_layers_refuted.

(* non-vacuity *)
Example C05_hyp : supported ESOPULL 3 D3Q19_walberla ODD /\ In ODD (get_timesteps ESOPULL) /\
  nearest_neighbour D3Q19_walberla.
Proof.
  split; [split; [apply symmetric_b_sound; vm_compute; reflexivity|split; [discriminate|]]|].
  - exists D3Q19_walberla. split; [simpl; tauto|]. split; [reflexivity|]. split; [tauto|reflexivity].
  - split; [simpl; tauto|]. apply nearest_neighbour_b_sound. vm_compute. reflexivity.
Qed.

(* a 1 x 3 domain, AA pattern, 3 steps with a collision that mixes and depends on the position *)
Definition exc_C (n : nat) (x : vec) (f : list Z) : list Z :=
  map (fun q => 3 * fst q + snd q + nth 0 x 0 + Z.of_nat n) (combine f (rev f)).
Definition exc_f0 (x : vec) : list Z := map (fun i => 100 * nth 0 x 0 + 10 * nth 1 x 0 + Z.of_nat i) (seq 0 9).
Definition exc p t := simulate_periodic 2 Z (fun _ l => rev l) p t D2Q9_walberla [1; 3] 1
   (interior_cells 2 [1; 3] 1) (fun _ => interior_cells 2 [1; 3] 1)
   (fun n c => exc_C n (proj1_sig c)) (fun c => exc_f0 (proj1_sig c)) (fun _ _ => 777) (fun _ _ => 888) 3 [1; 2].
Example C05_example : exc AA EVEN = Ok (periodic_stream_collide 0 D2Q9_walberla [1; 3] exc_C exc_f0 3 [1; 2]) /\
  exc AA EVEN = exc PULL BOTH /\ exc PUSH BOTH = exc ESOTWIST ODD /\ exc AA EVEN <> Ok (exc_f0 [1; 2]) /\
  exc PULL ODD = Err IndexError.
Proof. vm_compute. repeat split; congruence. Qed.
