(* C70: the analytical solution of the heated two-fluid channel. *)
From Coq Require Import List ZArith Bool Reals Lra Lia.
From Verif Require Import RealLib MicroModel MicroSpec MicroProofs MicroProofs2.
Import ListNotations.
Local Open Scope R_scope.

(* when the function returns, for any numbers of points *)
Theorem C70_defined : forall l_ref lx ly kt kb th tc t0 st mu tr,
  (exists s, analytical_solution_microchannel l_ref lx ly kt kb th tc t0 st mu tr = Some s) <->
  kb <> 0 /\ l_ref <> 0%Z /\ (l_ref / 2 <> 1)%Z /\ kt + kb <> 0 /\ mu <> 0.
Proof.
  intros. rewrite <- (constants_defined l_ref kt kb th tc t0 st mu). split.
  - intros (s & H). unfold analytical_solution_microchannel in H. destruct (channel_constants l_ref kt kb th tc t0 st mu) as [k|]; [exists k; reflexivity|discriminate].
  - intros (k & H). rewrite (solution_is l_ref lx ly kt kb th tc t0 st mu k H). eexists. reflexivity.
Qed.
Print Assumptions C70_defined.

(* transposed (the default): the arrays hold the fields at the coordinates of the same entry *)
Theorem C70_arrays : forall l_ref lx ly kt kb th tc t0 st mu k,
  channel_constants l_ref kt kb th tc t0 st mu = Some k ->
  exists s, analytical_solution_microchannel l_ref lx ly kt kb th tc t0 st mu true = Some s /\
  (forall i j, (i < lx)%nat -> (j < ly)%nat ->
     let x := - IZR l_ref - 1 / 2 + INR i * (2 * IZR l_ref / INR (lx - 1)) in
     let y := - IZR (l_ref / 2 - 1) + INR j * (2 * IZR (l_ref / 2 - 1) / INR (ly - 1)) in
     entry (so_x s) j i = Some x /\ entry (so_y s) j i = Some y /\
     entry (so_ux s) j i = Some (velocity_x_at k x y) /\ entry (so_uy s) j i = Some (velocity_y_at k x y) /\ entry (so_t s) j i = Some (temperature_at k x y)) /\
  (forall i j, (lx <= i)%nat \/ (ly <= j)%nat ->
     entry (so_x s) j i = None /\ entry (so_y s) j i = None /\ entry (so_ux s) j i = None /\ entry (so_uy s) j i = None /\ entry (so_t s) j i = None).
Proof.
  intros l_ref lx ly kt kb th tc t0 st mu k H. eexists. split; [exact (solution_is l_ref lx ly kt kb th tc t0 st mu k H true)|].
  pose proof (ok_mp _ _ _ _ _ _ _ _ _ (constants_ok _ _ _ _ _ _ _ _ _ H)) as M. split.
  - intros i j Hi Hj x y. cbn [so_x so_y so_ux so_uy so_t].
    assert (Ex : point (- IZR l_ref - 1 / 2) (IZR l_ref - 1 / 2) lx i = x) by (unfold point, x; replace (IZR l_ref - 1 / 2 - (- IZR l_ref - 1 / 2)) with (2 * IZR l_ref) by lra; reflexivity).
    assert (Ey : point (- ch_mp k) (ch_mp k) ly j = y) by (unfold point, y; rewrite M; unfold channel_mp; replace (IZR (l_ref / 2 - 1) - - IZR (l_ref / 2 - 1)) with (2 * IZR (l_ref / 2 - 1)) by lra; reflexivity).
    destruct (mesh_entry l_ref lx ly k i j Hi Hj) as [A B]. rewrite A, B, <- Ex, <- Ey. repeat split; apply F_entry; assumption.
  - intros i j Hij. cbn [so_x so_y so_ux so_uy so_t]. destruct (mesh_rect l_ref lx ly k i j Hij) as [A B]. rewrite A, B. repeat split; apply F_rect; assumption.
Qed.
Print Assumptions C70_arrays.

(* without transposing, the fields have the indices exchanged but the coordinates have not *)
Theorem C70_untransposed : forall l_ref lx ly kt kb th tc t0 st mu s s',
  analytical_solution_microchannel l_ref lx ly kt kb th tc t0 st mu true = Some s ->
  analytical_solution_microchannel l_ref lx ly kt kb th tc t0 st mu false = Some s' ->
  so_x s' = so_x s /\ so_y s' = so_y s /\
  forall i j, entry (so_ux s') i j = entry (so_ux s) j i /\ entry (so_uy s') i j = entry (so_uy s) j i /\ entry (so_t s') i j = entry (so_t s) j i.
Proof.
  intros l_ref lx ly kt kb th tc t0 st mu s s' H H'. assert (HK : exists k, channel_constants l_ref kt kb th tc t0 st mu = Some k) by (apply constants_defined; apply (C70_defined l_ref lx ly kt kb th tc t0 st mu true); exists s; exact H).
  destruct HK as (k & HK). rewrite (solution_is _ _ _ _ _ _ _ _ _ _ _ HK) in H, H'. injection H as <-. injection H' as <-. cbn [so_x so_y so_ux so_uy so_t]. split; [reflexivity|]. split; [reflexivity|].
  intros i j. assert (D : (i < lx /\ j < ly)%nat \/ ((lx <= i)%nat \/ (ly <= j)%nat)) by lia. destruct D as [[Hi Hj]|Hij].
  - assert (E := fun g => F_entry l_ref lx ly k g i j Hi Hj). cbv zeta in E. repeat split; destruct (E (velocity_x_at k)), (E (velocity_y_at k)), (E (temperature_at k)); congruence.
  - assert (E := fun g => F_rect l_ref lx ly k g i j Hij). repeat split; destruct (E (velocity_x_at k)), (E (velocity_y_at k)), (E (temperature_at k)); congruence.
Qed.
Print Assumptions C70_untransposed.

(* so "the fields at the returned coordinates" is false of the untransposed result *)
Theorem C70_untransposed_refuted : forall l_ref lx ly kt kb th tc t0 st mu s, (0 < lx)%nat -> (0 < ly)%nat -> lx <> ly ->
  analytical_solution_microchannel l_ref lx ly kt kb th tc t0 st mu false = Some s ->
  exists i j, entry (so_x s) i j <> None /\ entry (so_y s) i j <> None /\ entry (so_ux s) i j = None /\ entry (so_uy s) i j = None /\ entry (so_t s) i j = None.
Proof.
  intros l_ref lx ly kt kb th tc t0 st mu s N1 N2 N H. assert (HK : exists k, channel_constants l_ref kt kb th tc t0 st mu = Some k) by (apply constants_defined; apply (C70_defined l_ref lx ly kt kb th tc t0 st mu false); exists s; exact H).
  destruct HK as (k & HK). rewrite (solution_is _ _ _ _ _ _ _ _ _ _ _ HK) in H. injection H as <-. cbn [so_x so_y so_ux so_uy so_t].
  assert (D : exists i j, (i < lx)%nat /\ (j < ly)%nat /\ ((lx <= j)%nat \/ (ly <= i)%nat)) by (destruct (le_lt_dec lx ly); [exists 0%nat, (ly - 1)%nat; lia|exists (lx - 1)%nat, 0%nat; lia]).
  destruct D as (i & j & Hi & Hj & Hij). exists j, i. destruct (mesh_entry l_ref lx ly k i j Hi Hj) as [A B]. split; [intros Z; discriminate (eq_trans (eq_sym A) Z)|]. split; [intros Z; discriminate (eq_trans (eq_sym B) Z)|]. repeat split; apply F_rect; assumption.
Qed.
Print Assumptions C70_untransposed_refuted.

(* heat conduction in both fluids, wall temperatures, and the heat flux through the interface *)
Theorem C70_temperature : forall l_ref kt kb th tc t0 st mu k, (4 <= l_ref)%Z -> channel_constants l_ref kt kb th tc t0 st mu = Some k ->
  conducts_heat (fun y => 0 < y) (temperature_at k) /\ conducts_heat (fun y => y < 0) (temperature_at k) /\
  forall x, temperature_at k x (IZR (l_ref / 2 - 1)) = tc /\ temperature_at k x (- IZR (l_ref / 2 - 1)) = th + t0 * cos (PI / IZR l_ref * x) /\
  exists dt db, right_derivative (temperature_at k x) 0 dt /\ left_derivative (temperature_at k x) 0 db /\ kt * dt = kb * db.
Proof.
  intros l_ref kt kb th tc t0 st mu k L H. destruct (heat_equation k) as [A B]. split; [exact A|]. split; [exact B|]. intros x. pose proof (constants_ok _ _ _ _ _ _ _ _ _ H) as K.
  pose proof (mp_pos _ _ _ _ _ _ _ _ _ L H) as P. destruct (walls_temperature _ _ _ _ _ _ _ _ _ H x P) as [E1 E2]. rewrite (ok_mp _ _ _ _ _ _ _ _ _ K) in E1, E2. rewrite (ok_w _ _ _ _ _ _ _ _ _ K) in E2. split; [exact E1|]. split; [exact E2|].
  exact (interface_heat _ _ _ _ _ _ _ _ _ H x).
Qed.
Print Assumptions C70_temperature.

(* creeping flow in both fluids, whatever their viscosities; no slip at the walls, no flow through the interface *)
Theorem C70_flow : forall l_ref kt kb th tc t0 st mu k, (4 <= l_ref)%Z -> channel_constants l_ref kt kb th tc t0 st mu = Some k ->
  (forall mt mb, exists p, creeping_flow (fun y => 0 < y) mt (velocity_x_at k) (velocity_y_at k) p /\ creeping_flow (fun y => y < 0) mb (velocity_x_at k) (velocity_y_at k) p) /\
  forall x, let M := IZR (l_ref / 2 - 1) in
  velocity_x_at k x M = 0 /\ velocity_y_at k x M = 0 /\ velocity_x_at k x (- M) = 0 /\ velocity_y_at k x (- M) = 0 /\
  velocity_y_at k x 0 = 0 /\ (exists d e, right_derivative (velocity_y_at k x) 0 d /\ left_derivative (velocity_y_at k x) 0 e).
Proof.
  intros l_ref kt kb th tc t0 st mu k L H. split; [intros mt mb; exact (stokes_equation k mt mb)|]. intros x M. pose proof (constants_ok _ _ _ _ _ _ _ _ _ H) as K.
  pose proof (mp_pos _ _ _ _ _ _ _ _ _ L H) as P. pose proof (walls_velocity _ _ _ _ _ _ _ _ _ H x P) as (E1 & E2 & E3 & E4). rewrite (ok_mp _ _ _ _ _ _ _ _ _ K) in E1, E2, E3, E4. do 4 (split; [assumption|]). exact (interface_through _ _ _ _ _ _ _ _ _ H x).
Qed.
Print Assumptions C70_flow.

(* surface tension varies by st per unit of temperature: the balance of tangential stresses at the interface holds exactly
   if the viscosity passed in is the mean of those of the two fluids (or nothing drives the flow) *)
Theorem C70_stress : forall l_ref kt kb th tc t0 st mu k, channel_constants l_ref kt kb th tc t0 st mu = Some k ->
  forall x, exists dt db dT, right_derivative (velocity_x_at k x) 0 dt /\ left_derivative (velocity_x_at k x) 0 db /\ partial_x (temperature_at k) x 0 dT /\
  forall mt mb, mt * dt - mb * db = - st * dT <-> (mt + mb) / 2 = mu \/ st * dT = 0.
Proof. exact stress_balance. Qed.
Print Assumptions C70_stress.

(* the parameter is documented as the viscosity of the light phase: with any other viscosity of the other phase the balance fails *)
Theorem C70_light_viscosity_refuted : forall l_ref kt kb th tc t0 st mu k mt, channel_constants l_ref kt kb th tc t0 st mu = Some k ->
  mt <> mu -> st <> 0 -> t0 <> 0 ->
  exists x dt db dT, right_derivative (velocity_x_at k x) 0 dt /\ left_derivative (velocity_x_at k x) 0 db /\ partial_x (temperature_at k) x 0 dT /\
  mt * dt - mu * db <> - st * dT /\ mu * dt - mt * db <> - st * dT.
Proof. exact stress_unbalanced. Qed.
Print Assumptions C70_light_viscosity_refuted.

(* the coordinates cover a period including both ends: the last column repeats the first *)
Theorem C70_last_column : forall l_ref lx ly kt kb th tc t0 st mu s j, (2 <= lx)%nat ->
  analytical_solution_microchannel l_ref lx ly kt kb th tc t0 st mu true = Some s ->
  entry (so_t s) j (lx - 1) = entry (so_t s) j 0 /\ entry (so_ux s) j (lx - 1) = entry (so_ux s) j 0 /\ entry (so_uy s) j (lx - 1) = entry (so_uy s) j 0.
Proof.
  intros l_ref lx ly kt kb th tc t0 st mu s j L H. assert (HK : exists k, channel_constants l_ref kt kb th tc t0 st mu = Some k) by (apply constants_defined; apply (C70_defined l_ref lx ly kt kb th tc t0 st mu true); exists s; exact H).
  destruct HK as (k & HK). rewrite (solution_is _ _ _ _ _ _ _ _ _ _ _ HK) in H. injection H as <-. cbn [so_ux so_uy so_t].
  destruct (le_lt_dec ly j) as [Hj|Hj].
  - repeat split; (etransitivity; [apply F_rect; right; exact Hj|symmetry; apply F_rect; right; exact Hj]).
  - assert (E : point (- IZR l_ref - 1 / 2) (IZR l_ref - 1 / 2) lx (lx - 1) = point (- IZR l_ref - 1 / 2) (IZR l_ref - 1 / 2) lx 0 + 2 * IZR l_ref) by (unfold point; cbn [INR]; field; apply not_0_INR; lia).
    pose proof (period _ _ _ _ _ _ _ _ k (point (- IZR l_ref - 1 / 2) (IZR l_ref - 1 / 2) lx 0) (point (- ch_mp k) (ch_mp k) ly j) HK) as (P1 & P2 & P3). rewrite <- E in P1, P2, P3.
    repeat split; (etransitivity; [apply F_entry; lia|symmetry; etransitivity; [apply F_entry; lia|]]); f_equal; symmetry; assumption.
Qed.
Print Assumptions C70_last_column.

(* a channel with 512 x 256 points *)
Example C70_example : exists s k, analytical_solution_microchannel 256 512 256 (1 / 5) (1 / 5) 20 10 4 (- 1 / 2000) (1 / 4) true = Some s /\
  channel_constants 256 (1 / 5) (1 / 5) 20 10 4 (- 1 / 2000) (1 / 4) = Some k /\ entry (so_t s) 0 0 = Some (20 + 4 * cos (PI / 256 * (- 256 - 1 / 2))) /\ entry (so_ux s) 255 511 = Some 0.
Proof.
  assert (HK : exists k, channel_constants 256 (1 / 5) (1 / 5) 20 10 4 (- 1 / 2000) (1 / 4) = Some k) by (apply constants_defined; repeat split; try lra; discriminate). destruct HK as (k & HK).
  destruct (C70_arrays 256 512 256 _ _ _ _ _ _ _ k HK) as (s & Hs & En & _). exists s, k. split; [exact Hs|]. split; [exact HK|].
  destruct (C70_temperature 256 _ _ _ _ _ _ _ k ltac:(lia) HK) as (_ & _ & W). destruct (C70_flow 256 _ _ _ _ _ _ _ k ltac:(lia) HK) as (_ & V). split.
  - destruct (En 0%nat 0%nat ltac:(lia) ltac:(lia)) as (_ & _ & _ & _ & E). cbn [INR] in E. rewrite E. f_equal. rewrite !Rmult_0_l, !Rplus_0_r. destruct (W (- 256 - 1 / 2)) as (_ & W2 & _). exact W2.
  - destruct (En 511%nat 255%nat ltac:(lia) ltac:(lia)) as (_ & _ & E & _). rewrite E. f_equal.
    replace (- IZR (256 / 2 - 1) + INR 255 * (2 * IZR (256 / 2 - 1) / INR (256 - 1))) with (IZR (256 / 2 - 1)); [apply V|]. replace (INR (256 - 1)) with (INR 255) by reflexivity. field. apply not_0_INR. discriminate.
Qed.
