(* C35: sparse streaming equals dense streaming. *)
From Coq Require Import List ZArith Bool Arith Lia Permutation Reals.
From Verif Require Import StencilModel StencilProofs StreamSpec RealLib SparseModel SparseSpec SparseProofs SparseProofs2 SparseProofs3.
Import ListNotations.
Local Open Scope Z_scope.

Section C35.
  Variables (S : stencil) (shape : list nat) (flags : coord -> Z) (fluid_flag no_slip_flag other_mask : Z) (g : nat).
  Notation create := (create_index_array S shape flags fluid_flag no_slip_flag other_mask g).
  Notation coordinates := (coordinates shape flags fluid_flag other_mask).
  Notation fluids := (fluid_coordinates shape flags fluid_flag).
  Notation N := (num_cells shape flags fluid_flag other_mask).
  Notation geometry := (sparse_geometry S shape flags fluid_flag other_mask g).
  Notation pulls := (pulls S shape flags fluid_flag no_slip_flag other_mask g).
  Notation walls_ok := (two_sided_walls S shape flags fluid_flag no_slip_flag other_mask g).

  (* the list contains every fluid and every boundary cell, the fluid cells first, and nothing else *)
  Theorem C35_cells : (forall c, In c fluids <-> fluid shape flags fluid_flag c) /\
    (forall c, In c coordinates <-> in_domain shape c /\ active flags fluid_flag other_mask c) /\
    (forall n x, nth_error fluids n = Some x -> nth_error coordinates n = Some x) /\
    ((forall c, in_domain shape c -> ~ (flagged flags fluid_flag c /\ flagged flags other_mask c)) -> NoDup coordinates).
  Proof. split; [apply in_fluids|]. split; [apply in_coordinates|]. split; [apply fluids_own|apply coordinates_nodup]. Qed.

  (* coordinate to list index and back; a coordinate that is not in the list exactly once raises IndexError *)
  Theorem C35_cell_idx c : (forall i, cell_idx shape flags fluid_flag other_mask c = Ok i ->
      nth_error coordinates i = Some c /\ (forall k, nth_error coordinates k = Some c -> k = i)) /\
    (NoDup coordinates -> In c coordinates -> exists i, cell_idx shape flags fluid_flag other_mask c = Ok i /\ cell_idx_bulk shape flags fluid_flag other_mask c = Ok i) /\
    (~ In c coordinates -> cell_idx shape flags fluid_flag other_mask c = Err IndexError).
  Proof.
    split; [|split].
    - intros i H. apply cell_idx_Ok in H. destruct H as [H1 H2]. split; auto. intros k Hk. eapply count_unique; eauto.
    - intros ND Hin. destruct (In_nth_error _ _ Hin) as [i Hi]. exists i. split; [|apply bulk_listed]; apply cell_idx_iff; split; auto; now apply count_one.
    - intros H. apply cell_idx_err. rewrite <- count_pos in H. lia.
  Qed.

  (* entry (n, j-1) of the index array is the slot of the population that dense pull streaming reads *)
  Theorem C35_index : geometry -> forall idx, create = Ok idx -> forall n j x, nth_error fluids n = Some x -> (1 <= j < length S)%nat ->
    exists m k y, idx n (j - 1)%nat = (m + k * N)%nat /\ nth_error coordinates m = Some y /\ (k < length S)%nat /\ pulls x j y k.
  Proof. intros (U & Sy & Hg & I & D) idx E n j x. now apply create_spec. Qed.
  (* ... which is determined *)
  Theorem C35_pull_unique : geometry -> forall x j y k y' k', pulls x j y k -> pulls x j y' k' -> y = y' /\ k = k'.
  Proof. intros (U & _) x j y k y' k'. now apply pulls_det. Qed.

  (* a geometry is accepted if and only if every fluid cell has something to pull from in every direction *)
  Theorem C35_accepts : geometry ->
    ((exists idx, create = Ok idx) <-> (forall x j, fluid shape flags fluid_flag x -> (1 <= j < length S)%nat -> exists y k, pulls x j y k)).
  Proof.
    intros (U & Sy & Hg & I & D). split.
    - intros [idx E] x j F Hj. apply in_fluids in F. destruct (In_nth_error _ _ F) as [n Hn].
      destruct (create_spec S shape flags fluid_flag no_slip_flag other_mask g U Hg I idx E n j x Hn Hj) as (m & k & y & _ & _ & _ & P). eauto.
    - apply create_total; auto. now apply coordinates_nodup.
  Qed.
  (* otherwise: ValueError for an unflagged neighbour inside the domain, AssertionError for a periodic image that carries no populations *)
  Theorem C35_errors : geometry -> forall e, create = Err e -> exists x j, fluid shape flags fluid_flag x /\ (1 <= j < length S)%nat /\
    ~ active flags fluid_flag other_mask (upwind S x j) /\ ~ wall flags no_slip_flag (upwind S x j) /\
    ((e = ValueError /\ interior shape g (upwind S x j)) \/
     (e = AssertionError /\ exists z, image shape g (upwind S x j) z /\ ~ active flags fluid_flag other_mask z)).
  Proof. intros G e. now apply create_errors. Qed.

  (* the rest direction has no column in the array, so it must be the first direction: any other position is rejected *)
  Theorem C35_rest_first : forall j d, (0 < j)%nat -> nth_error S j = Some d -> forallb (Z.eqb 0) d = true -> exists e, create = Err e.
  Proof.
    intros j d Hj Hd H0. unfold create_index_array. destruct (mapM _ (combine (seq 0 (length S)) S)) as [rows|e] eqn:E; cbn [rbind]; [|eauto]. exfalso.
    destruct (mapM_nth _ _ _ j (j, d) E (nth_enum_ex _ _ _ Hd)) as (b & Hb & _). unfold direction_indices in Hb. cbn [fst snd] in Hb. rewrite H0 in Hb.
    destruct j; [lia|]. discriminate.
  Qed.

  (* no population is pulled twice *)
  Theorem C35_injective : geometry -> walls_ok -> forall idx, create = Ok idx ->
    forall n j n' j', (n < length fluids)%nat -> (n' < length fluids)%nat -> (1 <= j < length S)%nat -> (1 <= j' < length S)%nat ->
    idx n (j - 1)%nat = idx n' (j' - 1)%nat -> n = n' /\ j = j'.
  Proof. intros (U & Sy & Hg & I & D) (W & P) idx E. eapply create_inj; eauto. Qed.

  (* the kernel reads the dense pull streaming values: if the list holds the populations f, cell n starts from the pulled values of f *)
  Theorem C35_streaming (V : Type) : geometry -> forall idx (src : nat -> V) (f : coord -> nat -> V), create = Ok idx ->
    (forall m k y, nth_error coordinates m = Some y -> (k < length S)%nat -> src (list_access S shape flags fluid_flag other_mask SoA m k) = f y k) ->
    forall collide n x, nth_error fluids n = Some x -> exists pulled, length pulled = length S /\
      (forall j, (j < length S)%nat -> exists y k, pulls x j y k /\ nth_error pulled j = Some (f y k)) /\
      sparse_update S shape flags fluid_flag other_mask SoA SStreamPullCollide collide idx src n = collide pulled /\
      sparse_update S shape flags fluid_flag other_mask SoA SStreamPullOnly collide idx src n = pulled.
  Proof.
    intros G idx src f E Hm collide n x Hn. exists (pre_collision S shape flags fluid_flag other_mask SoA idx src n).
    split; [unfold pre_collision; now rewrite map_length, seq_length|]. split; [|split; reflexivity]. intros j Hj. eapply pre_values; eauto.
  Qed.

  (* without other boundaries, streaming rearranges the stored populations; so it conserves their sum *)
  Theorem C35_rearranges (V : Type) : geometry -> walls_ok -> (forall c, in_domain shape c -> ~ flagged flags other_mask c) ->
    forall idx (src : nat -> V), create = Ok idx ->
    Permutation (flat_map (sparse_update S shape flags fluid_flag other_mask SoA SStreamPullOnly (fun l => l) idx src) (seq 0 N)) (map src (seq 0 (N * length S))).
  Proof. intros G W NB idx src E. now apply (pre_perm S shape flags fluid_flag no_slip_flag other_mask g). Qed.
  Theorem C35_mass : geometry -> walls_ok -> (forall c, in_domain shape c -> ~ flagged flags other_mask c) ->
    forall idx (src : nat -> R), create = Ok idx ->
    rsum (flat_map (sparse_update S shape flags fluid_flag other_mask SoA SStreamPullOnly (fun l => l) idx src) (seq 0 N)) = rsum (map src (seq 0 (N * length S))).
  Proof. intros G W NB idx src E. now apply rsum_perm, C35_rearranges. Qed.

  (* the index array assumes the SoA layout: in a list of the default layout AoS every pull of a moving population reads past the end *)
  Theorem C35_default_layout_refuted : forall m k, (1 <= k)%nat ->
    (length S * N <= absolute_access S shape flags fluid_flag other_mask AoS (pdf_index shape flags fluid_flag other_mask m k))%nat.
  Proof. intros m k. apply aos_beyond. Qed.
End C35.
Print Assumptions C35_cells.
Print Assumptions C35_cell_idx.
Print Assumptions C35_index.
Print Assumptions C35_pull_unique.
Print Assumptions C35_accepts.
Print Assumptions C35_errors.
Print Assumptions C35_rest_first.
Print Assumptions C35_injective.
Print Assumptions C35_streaming.
Print Assumptions C35_rearranges.
Print Assumptions C35_mass.
Print Assumptions C35_default_layout_refuted.

(* ---------- a channel: 3 x 2 fluid cells, walls below and above, periodic in x ---------- *)
Definition channel (c : coord) : Z :=
  match c with [x; y] => if (y <=? 0) || (3 <=? y) then 2 else if (1 <=? x) && (x <=? 3) then 1 else 0 | _ => 0 end.
Example d2q9_unit : unit_stencil 2 D2Q9_walberla.
Proof.
  split; [|split].
  - repeat constructor; cbn; lia.
  - repeat constructor; cbn; intuition discriminate.
  - reflexivity.
Qed.
Example channel_geometry : sparse_geometry D2Q9_walberla [5; 4]%nat channel 1 4 1.
Proof. apply geometry_check; [exact d2q9_unit|vm_compute; reflexivity|lia|vm_compute; reflexivity|vm_compute; reflexivity]. Qed.
Example channel_walls : two_sided_walls D2Q9_walberla [5; 4]%nat channel 1 2 4 1.
Proof. apply walls_check; [exact channel_geometry|vm_compute; reflexivity|vm_compute; reflexivity]. Qed.
Example channel_closed c : in_domain [5; 4]%nat c -> ~ flagged channel 4 c.
Proof.
  intros H. apply all_cells_in in H. unfold flagged. intros N. apply N. clear N. revert H.
  assert (T : forallb (fun c => Z.land (channel c) 4 =? 0) (all_cells [5; 4]%nat) = true) by (vm_compute; reflexivity).
  rewrite forallb_forall in T. intros H. apply Z.eqb_eq. auto.
Qed.
Definition channel_idx (n j : nat) : nat :=
  match create_index_array D2Q9_walberla [5; 4]%nat channel 1 2 4 1 with Ok idx => idx n j | Err _ => 0%nat end.
Example channel_accepted : exists idx, create_index_array D2Q9_walberla [5; 4]%nat channel 1 2 4 1 = Ok idx /\
  (* cell 0 = (1,1), six cells: N bounces off the wall below (S of cell 0); E comes from cell 4 = (3,1) through the periodic border;
     NE bounces although it also crosses the periodic border *)
  map (idx 0%nat) (seq 0 8) = [12; 13; 20; 28; 48; 42; 45; 53]%nat.
Proof.
  assert (E : map (channel_idx 0) (seq 0 8) = [12; 13; 20; 28; 48; 42; 45; 53]%nat) by (vm_compute; reflexivity).
  unfold channel_idx in E. destruct (create_index_array D2Q9_walberla [5; 4]%nat channel 1 2 4 1) as [idx|e]; [|discriminate].
  exists idx. auto.
Qed.

(* A wall on one side of a periodic border only: two pulls read the same slot (and another population is lost). *)
Definition one_sided (c : coord) : Z :=
  match c with [x; y] => if (y <=? 0) || (2 <=? y) || (x <=? 0) then 2 else if x <=? 3 then 1 else 0 | _ => 0 end.
Theorem C35_one_sided_wall_refuted : sparse_geometry D2Q9_walberla [5; 3]%nat one_sided 1 4 1 /\
  exists idx, create_index_array D2Q9_walberla [5; 3]%nat one_sided 1 2 4 1 = Ok idx /\ idx 0%nat 3%nat = idx 2%nat 2%nat /\ (2 < length (fluid_coordinates [5; 3]%nat one_sided 1))%nat.
Proof.
  split; [apply geometry_check; [exact d2q9_unit|vm_compute; reflexivity|lia|vm_compute; reflexivity|vm_compute; reflexivity]|].
  eexists. split; [vm_compute; reflexivity|]. split; [vm_compute; reflexivity|vm_compute; lia].
Qed.
Print Assumptions C35_one_sided_wall_refuted.

(* An obstacle next to a periodic border: the cell on the other side finds a wall as periodic image, which is rejected instead of bounced. *)
Definition obstacle_at_border (c : coord) : Z :=
  match c with [x; y] => if (y <=? 0) || (2 <=? y) || (x =? 3) then 2 else if (1 <=? x) && (x <=? 2) then 1 else 0 | _ => 0 end.
Theorem C35_periodic_wall_refuted : sparse_geometry D2Q9_walberla [5; 3]%nat obstacle_at_border 1 4 1 /\
  create_index_array D2Q9_walberla [5; 3]%nat obstacle_at_border 1 2 4 1 = Err AssertionError.
Proof.
  split; [apply geometry_check; [exact d2q9_unit|vm_compute; reflexivity|lia|vm_compute; reflexivity|vm_compute; reflexivity]|].
  vm_compute. reflexivity.
Qed.
Print Assumptions C35_periodic_wall_refuted.

(* The bulk lookup does not report missing coordinates: it returns the cell with the largest coordinate. *)
Theorem C35_bulk_missing_refuted : let c := [0; 1] in
  ~ In c (coordinates [5; 4]%nat channel 1 4) /\ cell_idx [5; 4]%nat channel 1 4 c = Err IndexError /\
  cell_idx_bulk [5; 4]%nat channel 1 4 c = Ok 5%nat /\ nth_error (coordinates [5; 4]%nat channel 1 4) 5 = Some [3; 2].
Proof.
  cbv zeta. split; [|vm_compute; auto]. intros H. vm_compute in H. intuition discriminate.
Qed.
Print Assumptions C35_bulk_missing_refuted.

(* The collide_only kernel collides pulled populations and writes them to the source list: with the identity as collision it is not the identity. *)
Theorem C35_collide_only_refuted : exists idx (src : nat -> nat), create_index_array D2Q9_walberla [5; 4]%nat channel 1 2 4 1 = Ok idx /\
  sparse_update D2Q9_walberla [5; 4]%nat channel 1 4 SoA SCollideOnly (fun l => l) idx src 0 <>
  map (fun k => src (list_access D2Q9_walberla [5; 4]%nat channel 1 4 SoA 0 k)) (seq 0 9).
Proof.
  eexists _, (fun a => a). split; [vm_compute; reflexivity|]. vm_compute. discriminate.
Qed.
Print Assumptions C35_collide_only_refuted.
