(* C65: list-based simulations compute the same populations as dense ones *)
From Coq Require Import String List ZArith Bool Arith Reals Lia.
From Verif Require Import StencilModel StencilProofs StencilProofs2 AccessModel AccessProofs StreamModel StreamSpec StreamProofs StreamProofs2 GridModel GridProofs BoundModel BoundProofs BoundProofs2 SparseModel SparseSpec SparseProofs SparseProofs2 SparseProofs3 PropsSparse
  SpRunModel SpRunSpec SpRunProofs.
Import ListNotations.
Local Open Scope Z_scope.

(* the geometry is accepted, and the fluid cells of list and lattice correspond one to one *)
Theorem C65_accepted : forall S N shape g flags ff nf om is_fluid, unit_stencil (length shape) S -> (forall d, In d S -> In (vneg d) S) ->
  same_geometry N shape g flags ff nf om is_fluid ->
  (exists idx, create_index_array S shape flags ff nf om g = Ok idx) /\
  (forall x : cell (torus N), is_fluid (proj1_sig x) = true -> exists m, nth_error (fluid_coordinates shape flags ff) m = Some (array_coord g (proj1_sig x)) /\
     forall k, nth_error (fluid_coordinates shape flags ff) k = Some (array_coord g (proj1_sig x)) -> k = m) /\
  (forall m, (m < length (fluid_coordinates shape flags ff))%nat -> exists x : cell (torus N), is_fluid (proj1_sig x) = true /\
     nth_error (fluid_coordinates shape flags ff) m = Some (array_coord g (proj1_sig x)) /\
     forall y : cell (torus N), nth_error (fluid_coordinates shape flags ff) m = Some (array_coord g (proj1_sig y)) -> y = x).
Proof.
  intros S N shape g flags ff nf om df U Sy HG. pose proof (geometry_ok S N shape g flags ff nf om df U Sy HG) as GG. split; [|split].
  - apply (C35_accepts S shape flags ff nf om g GG). intros x j Fx Hj. apply in_fluids in Fx. destruct (In_nth_error _ _ Fx) as [m Hm].
    destruct (listed_back N shape g flags ff nf om df HG m x Hm) as (y & -> & Hy).
    destruct (pulls_lattice S N shape g flags ff nf om df U Sy HG y j (proj2 Hj) Hy) as [P1 P2]. cbv zeta in P1, P2. destruct (df (proj1_sig (shift y (vneg (dir S j))))); eauto.
  - intros x Hx. destruct (listed N shape g flags ff nf om df HG x Hx) as [m Hm]. exists m. split; [exact Hm|]. intros k Hk.
    pose proof (fluids_nodup shape flags ff) as ND. rewrite NoDup_nth_error in ND. apply ND; [|congruence]. apply nth_error_Some. congruence.
  - intros m Hm. destruct (nth_error (fluid_coordinates shape flags ff) m) as [c|] eqn:E; [|apply nth_error_None in E; lia]. destruct (listed_back N shape g flags ff nf om df HG m c E) as (x & -> & Hx).
    exists x. split; [exact Hx|]. split; [reflexivity|]. intros y Hy. injection Hy as Hy. apply gcell_eq.
    pose proof (position_back N g (proj1_sig x) (proj2_sig x)) as Px. pose proof (position_back N g (proj1_sig y) (proj2_sig y)) as Py. congruence.
Qed.
Print Assumptions C65_accepted.

(* for every collision, initial state and number of steps: after n steps the list holds in the entry of a fluid cell what the dense simulation holds in this cell,
   whichever streaming pattern that one uses *)
Theorem C65_simulation : forall S N shape g flags ff nf om is_fluid idx p t xs0 xs links C B f0 m_src m_tmp Cs fs arr tmp n m (x : cell (torus N)),
  unit_stencil (length shape) S -> (forall d, In d S -> In (vneg d) S) -> same_geometry N shape g flags ff nf om is_fluid ->
  create_index_array S shape flags ff nf om g = Ok idx ->
  let fluid := fun y : cell (torus N) => is_fluid (proj1_sig y) in
  let entry := fun (k : nat) (y : cell (torus N)) => nth_error (fluid_coordinates shape flags ff) k = Some (array_coord g (proj1_sig y)) in
  supported p (ldim (torus N)) S t ->
  (forall y, fluid y = true -> In y xs0) -> (forall n, NoDup (xs n)) -> (forall n y, In y (xs n) <-> fluid y = true) -> (forall n l, In l (links n) <-> is_link S fluid l) ->
  (forall n y f, length f = length S -> length (C n y f) = length S) -> (forall n y i, B n y i = no_slip S i) -> (forall y, length (f0 y) = length S) ->
  (forall n k y f, entry k y -> fluid y = true -> length f = length S -> Cs n k f = C n y f) -> (forall k y, entry k y -> fluid y = true -> fs k = f0 y) ->
  entry m x -> fluid x = true ->
  simulate (torus N) R p t S xs0 xs links C B f0 m_src m_tmp n x
  = Ok (sparse_cell S shape flags ff om R SoA (fst (sparse_run S shape flags ff om R SoA Cs idx n (sparse_setter S shape flags ff om R SoA fs arr) tmp)) m).
Proof.
  intros S N shape g flags ff nf om df idx p t xs0 xs links C B f0 m_src m_tmp Cs fs arr tmp n m x U Sy HG Hidx fluid entry HP Hx0 Hnd Hxs Hl HC HB H0 HCs Hfs Hm Hx.
  assert (HV : forall n (y : cell (torus N)) i (f : cell (torus N) -> list R), (i < length S)%nat -> (forall z, length (f z) = length S) ->
      b_fun (B n y i) (map (pacc_value (torus N) R 0%R S f y) (b_reads (B n y i))) = nth i (f y) 0%R).
  { intros k y i f _ _. rewrite HB. apply no_slip_value, HP. }
  rewrite (run_lattice S N shape g flags ff nf om df U Sy HG R 0%R idx C Cs Hidx HC HCs B f0 fs HV H0 Hfs arr tmp n m x Hm Hx).
  apply simulate_correct; auto. intros k y i a (Fy & Hi & _) Ha. rewrite HB in Ha. destruct Ha as [<-|[]].
  unfold here, readable. cbn [fst snd]. rewrite (dimD_D (ldim (torus N)) S (proj1 HP)), shift_zero, vzero_length. auto.
Qed.
Print Assumptions C65_simulation.

(* ---------- the channel of 3 x 2 fluid cells: periodic in x, its two walls are one solid row of the lattice ---------- *)
Definition channel_fluid (y : vec) : bool := nth 1 y 0 <? 2.
Example channel_same : same_geometry [3; 3]%positive [5; 4]%nat 1 channel 1 2 4 channel_fluid.
Proof.
  assert (E : forall c, near [5; 4]%nat 1 c -> In c (all_cells [5; 4]%nat)).
  { intros c H. apply all_cells_in. unfold near in H. unfold in_domain. revert H. generalize ([5; 4]%nat). intros l H. clear -H. induction H; constructor; [lia|assumption]. }
  assert (T : forallb (fun c => Bool.eqb (negb (Z.land (channel c) 1 =? 0)) (forallb (fun p => (1 <=? fst p) && (fst p <? snd p - 1)) (combine c [5; 4]) && channel_fluid (lattice_coord [3; 3]%positive 1 c)) &&
      Bool.eqb (Z.land (channel c) 2 =? 0) (channel_fluid (lattice_coord [3; 3]%positive 1 c))) (all_cells [5; 4]%nat) = true) by (vm_compute; reflexivity).
  rewrite forallb_forall in T.
  assert (I : forall c, In c (all_cells [5; 4]%nat) -> (interior [5; 4]%nat 1 c <-> forallb (fun p => (1 <=? fst p) && (fst p <? snd p - 1)) (combine c [5; 4]) = true)).
  { intros c H. apply all_cells_in in H. inversion H as [|x n c1 l1 Hx H1]; subst. inversion H1 as [|y n c2 l2 Hy H2]; subst. inversion H2; subst. unfold interior. cbn [combine forallb fst snd].
    rewrite !andb_true_iff, !Z.leb_le, !Z.ltb_lt. split.
    - intros K. inversion K as [|? ? ? ? K1 K2]; subst. inversion K2 as [|? ? ? ? K3 K4]; subst. lia.
    - intros K. repeat constructor; lia. }
  split.
  - lia.
  - repeat constructor; cbn; lia.
  - intros y G F. pose proof (in_grid_length _ _ G) as L. destruct y as [|a [|b [|c y]]]; try discriminate L. unfold channel_fluid in F. cbn [nth] in F. cbn in G. apply Z.ltb_lt in F. rewrite !andb_true_iff, !Z.ltb_lt in G. repeat constructor; cbn; lia.
  - intros c H. specialize (T c (E c H)). apply andb_true_iff in T. destruct T as [T _]. apply eqb_prop in T. rewrite (I c (E c H)). unfold flagged.
    rewrite <- andb_true_iff, <- T. rewrite negb_true_iff, Z.eqb_neq. reflexivity.
  - intros c H. specialize (T c (E c H)). apply andb_true_iff in T. destruct T as [_ T]. apply eqb_prop in T. unfold flagged. rewrite <- T, Z.eqb_neq. reflexivity.
  - intros c H. apply H. unfold channel. destruct c as [|x [|y [|z c]]]; try reflexivity. destruct ((y <=? 0) || (3 <=? y)); [reflexivity|]. destruct ((1 <=? x) && (x <=? 3)); reflexivity.
  - intros c H F. apply all_cells_in in H. specialize (T c H). apply andb_true_iff in T. destruct T as [T _]. apply eqb_prop in T. apply (I c H).
    unfold flagged in F. apply Z.eqb_neq in F. rewrite F in T. cbn in T. symmetry in T. apply andb_true_iff in T. apply T.
Qed.
(* the channel meets the hypotheses of C65_simulation for the two-step pattern AA, with a collision that sets all populations to their mean *)
Definition mean_collision (f : list R) : list R := map (fun _ => (fold_right Rplus 0 f / 9)%R) f.
Example C65_example : forall n m_src m_tmp arr tmp (f0 : cell (torus [3; 3]%positive) -> list R) fs (x : cell (torus [3; 3]%positive)) m idx,
  create_index_array D2Q9_walberla [5; 4]%nat channel 1 2 4 1 = Ok idx -> (forall y, length (f0 y) = 9%nat) ->
  (forall k y, nth_error (fluid_coordinates [5; 4]%nat channel 1) k = Some (array_coord 1 (proj1_sig y)) -> fs k = f0 y) ->
  channel_fluid (proj1_sig x) = true -> nth_error (fluid_coordinates [5; 4]%nat channel 1) m = Some (array_coord 1 (proj1_sig x)) ->
  let fluid := fun y : cell (torus [3; 3]%positive) => channel_fluid (proj1_sig y) in
  simulate (torus [3; 3]%positive) R AA EVEN D2Q9_walberla (torus_cells [3; 3]%positive) (fun _ => torus_fluid_cells [3; 3]%positive fluid) (fun _ => torus_links [3; 3]%positive D2Q9_walberla fluid)
    (fun _ _ => mean_collision) (fun _ _ => no_slip D2Q9_walberla) f0 m_src m_tmp n x
  = Ok (sparse_cell D2Q9_walberla [5; 4]%nat channel 1 4 R SoA (fst (sparse_run D2Q9_walberla [5; 4]%nat channel 1 4 R SoA (fun _ _ => mean_collision) idx n
      (sparse_setter D2Q9_walberla [5; 4]%nat channel 1 4 R SoA fs arr) tmp)) m).
Proof.
  intros n m_src m_tmp arr tmp f0 fs x m idx Hidx H0 Hfs Hx Hm fluid.
  apply (C65_simulation D2Q9_walberla [3; 3]%positive [5; 4]%nat 1 channel 1 2 4 channel_fluid idx); auto.
  - exact d2q9_unit.
  - intros d Hd. repeat (destruct Hd as [<-|Hd]; [cbn; tauto|]). destruct Hd.
  - exact channel_same.
  - split; [|discriminate]. apply (predefined_wf "D2Q9"%string "walberla"%string D2Q9_walberla). vm_compute. reflexivity.
  - intros y _. apply torus_cells_all.
  - intros k. apply torus_fluid_cells_spec.
  - intros k y. apply torus_fluid_cells_spec.
  - intros k l. apply torus_links_spec.
  - intros k y f Lf. unfold mean_collision. rewrite map_length. exact Lf.
Qed.
