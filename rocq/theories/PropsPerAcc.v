From Coq Require Import String List ZArith Bool Arith Permutation.
From Verif Require Import StencilModel StencilProofs2 AccessModel StreamModel GridModel CommModel CommSpec CommProofs2
  PerAccModel PerAccSpec PerAccProofs.
Import ListNotations.
Local Open Scope Z_scope.

(* C06: at every cell x of the domain (coordinates gl .. gl + N_k - 1 of an array with gl ghost layers) the
   i-th load addresses index i of the periodic image of the upstream neighbour: wrapped in the
   periodic axes, the plain neighbour in the others.  Only periodic axes need nearest-neighbour
   components. *)
Theorem C06_loads D S gl N per x :
  (forall d, In d S -> length d = D) -> length N = D -> Forall (fun n => 1 <= n) N -> length per = D ->
  (forall d k, In d S -> nth k per false = true -> -1 <= nth k d 0 <= 1) ->
  in_box gl N x ->
  exists rs, per_reads gl (map (fun n => n + 2 * gl) N) per S x = Ok rs /\ length rs = length S /\
    forall i r, nth_error rs i = Some r ->
      idx r = i /\ length (off r) = D /\
      vadd x (off r) = wrap_box gl N per (vadd x (vneg (nth i S []))).
Proof. intros; eapply per_reads_ok; eassumption. Qed.
Print Assumptions C06_loads.

(* C06: longer stencils are rejected as soon as a long component lies on a periodic axis *)
Theorem C06_rejects_long D S gl N per x d k :
  (forall d, In d S -> length d = D) -> length N = D -> length per = D -> length x = D ->
  In d S -> nth k per false = true -> ~ (-1 <= nth k d 0 <= 1) ->
  per_reads gl (map (fun n => n + 2 * gl) N) per S x = Err NotImplementedError.
Proof. exact (per_reads_far D gl N per S x d k). Qed.
Print Assumptions C06_rejects_long.

(* C06: n steps of the kernel with built-in periodicity are n steps of stream-and-collide on the
   periodic box, whatever the temporary field and the ghost layers contain. *)
Theorem C06_simulation D V (v0 : V) S gl N xs C f0 s n x :
  S <> [] -> (forall d, In d S -> length d = D) -> nearest_neighbour S ->
  length N = D -> Forall (fun k => 1 <= k) N ->
  (forall n, Permutation (xs n) (domain_cells D N gl)) ->
  (forall n x f, length f = length S -> length (C n x f) = length S) ->
  (forall y i, in_box gl N y -> (i < length S)%nat -> src s (pos D y) i = nth i (f0 y) v0) ->
  in_box gl N x ->
  exists s', per_run D V gl (map (fun n => n + 2 * gl) N) (map (fun _ => true) N) S xs
               (fun n c => C n (proj1_sig c)) n s = Ok s' /\
    forall i, (i < length S)%nat ->
      src s' (pos D x) i = nth i (box_stream_collide v0 S gl N C f0 n x) v0.
Proof. exact (per_simulation D V v0 S gl N xs C f0 s n x). Qed.
Print Assumptions C06_simulation.

(* non-vacuity: D2Q9, periodic in x only, corner cell of a 4 x 3 domain with 2 ghost layers *)
Example C06_ex : in_box 2 [4; 3] [2; 4] /\
  exists rs r, per_reads 2 (map (fun n => n + 2 * 2) [4; 3]) [true; false] D2Q9_walberla [2; 4] = Ok rs /\
    nth_error rs 8 = Some r /\ nth 8 D2Q9_walberla [] = [1; -1] /\ vadd [2; 4] (off r) = [5; 5].
Proof.
  split; [simpl; repeat split; discriminate|]. do 2 eexists. split; [vm_compute; reflexivity|].
  split; [reflexivity|]. split; [reflexivity|]. reflexivity.
Qed.
Example C06_ex_long : per_reads 0 [6; 6] [true; true] D2V37_walberla [0; 0] = Err NotImplementedError /\
  exists rs, per_reads 0 [6; 6] [false; false] D2V37_walberla [0; 0] = Ok rs.
Proof. split; [vm_compute; reflexivity|]. eexists. vm_compute. reflexivity. Qed.
Definition ex6_C (n : nat) (x : vec) (f : list Z) : list Z :=
  map (fun q => 3 * fst q + snd q + nth 0 x 0 + Z.of_nat n) (combine f (rev f)).
Definition ex6_f0 (x : vec) : list Z := map (fun i => 100 * nth 0 x 0 + 10 * nth 1 x 0 + Z.of_nat i) (seq 0 9).
Example C06_ex_sim :
  match per_run 2 Z 1 [3; 5] [true; true] D2Q9_walberla (fun _ => domain_cells 2 [1; 3] 1)
    (fun n c => ex6_C n (proj1_sig c)) 3
    {| src := fun (c : cell (zlat 2)) k => nth k (ex6_f0 (proj1_sig c)) 0; tmp := fun _ _ => 777 |} with
  | Ok s => map (src s (pos 2 [1; 3])) (seq 0 9) = box_stream_collide 0 D2Q9_walberla 1 [1; 3] ex6_C ex6_f0 3 [1; 3]
  | Err _ => False
  end.
Proof. vm_compute. reflexivity. Qed.
