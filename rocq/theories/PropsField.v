(* C74: interpolated fields and the vorticity of plane velocity fields. *)
From Coq Require Import List ZArith Bool Arith Reals Lra Lia.
From Verif Require Import FieldModel FieldSpec FieldProofs.
Import ListNotations.
Local Open Scope R_scope.

(* at the centers of the cells an interpolator returns the values of the cells, for scalars and for vectors *)
Theorem C74_centers : forall shape idx, Forall (fun n => 2 <= n)%nat shape -> in_shape shape idx ->
  (forall f, interpolate shape f (center idx) = Some (f idx)) /\
  (forall components v, interpolate_vector shape components v (center idx) = Some (map (v idx) (seq 0 components))).
Proof.
  intros shape idx H I. split; [intros f; exact (interp_center shape H f idx I)|]. intros k v. unfold interpolate_vector. apply components_ok. intros c _. exact (interp_center shape H (fun l => v l c) idx I).
Qed.
Print Assumptions C74_centers.

(* fields that depend linearly on the position are interpolated exactly, everywhere between the outermost centers *)
Theorem C74_linear : forall shape pos, Forall (fun n => 2 <= n)%nat shape -> between_centers shape pos ->
  (forall c a f, length a = length shape -> (forall idx, in_shape shape idx -> f idx = affine c a (center idx)) -> interpolate shape f pos = Some (affine c a pos)) /\
  (forall components c a v, (forall k, (k < components)%nat -> length (a k) = length shape) -> (forall idx k, in_shape shape idx -> (k < components)%nat -> v idx k = affine (c k) (a k) (center idx)) ->
    interpolate_vector shape components v pos = Some (map (fun k => affine (c k) (a k) pos) (seq 0 components))).
Proof.
  intros shape pos H B. split; [intros c a f L E; exact (interp_affine shape H a c f pos L B E)|]. intros n c a v L E. unfold interpolate_vector. apply (components_ok _ (fun k => affine (c k) (a k) pos)). intros k Hk. apply in_seq in Hk.
  apply (interp_affine shape H (a k) (c k) (fun l => v l k) pos); [apply L; lia|exact B|]. intros idx I. apply E; [exact I|lia].
Qed.
Print Assumptions C74_linear.

(* an interpolated value lies between the smallest and the largest value of the field *)
Theorem C74_bounds : forall shape pos f lo hi, Forall (fun n => 2 <= n)%nat shape -> between_centers shape pos -> (forall idx, in_shape shape idx -> lo <= f idx <= hi) -> exists v, interpolate shape f pos = Some v /\ lo <= v <= hi.
Proof. intros shape pos f lo hi H B E. exact (interp_bounds shape H f pos lo hi B E). Qed.
Print Assumptions C74_bounds.

(* between two centers that are neighbours along one axis the value is the weighted mean of the two cells *)
Theorem C74_between_neighbours : forall n f i t, (i + 1 < n)%nat -> 0 <= t <= 1 -> interpolate [n] f [INR i + 1 / 2 + t] = Some ((1 - t) * f [i] + t * f [(i + 1)%nat]).
Proof.
  intros n f i t Hi Ht. assert (Hn : (2 <= n)%nat) by lia. assert (B : 1 / 2 <= INR i + 1 / 2 + t <= INR n - 1 / 2) by (pose proof (pos_INR i); assert (INR (i + 2) <= INR n) by (apply le_INR; lia); rewrite plus_INR in *; cbn [INR] in *; lra).
  cbn [interpolate]. destruct (locate_ok n _ Hn B) as (k & u & E & K & U & X). rewrite E. f_equal. assert (Q : INR i + t = INR k + u) by lra. assert (L1 : (i <= k + 1)%nat) by (apply INR_le; rewrite plus_INR; cbn; lra). assert (L2 : (k <= i + 1)%nat) by (apply INR_le; rewrite plus_INR; cbn; lra).
  assert (C : (k = i \/ k = i + 1 \/ i = k + 1)%nat) by lia. destruct C as [->|[->| ->]].
  - replace (Datatypes.S i) with (i + 1)%nat by lia. assert (u = t) by lra. subst. reflexivity.
  - rewrite plus_INR in Q. cbn [INR] in Q. assert (t = 1) by lra. assert (u = 0) by lra. subst. ring.
  - rewrite plus_INR in Q. cbn [INR] in Q. assert (t = 0) by lra. assert (u = 1) by lra. subst. replace (Datatypes.S k) with (k + 1)%nat by lia. ring.
Qed.
Print Assumptions C74_between_neighbours.

(* positions in the outer halves of the border cells are in the domain, but have no value: the interpolator raises an exception for exactly the positions that are not between centers *)
Theorem C74_border_refuted : forall shape f pos, length pos = length shape -> Forall (fun n => 2 <= n)%nat shape -> (interpolate shape f pos = None <-> ~ between_centers shape pos).
Proof.
  intros shape f pos L H. split; [|exact (interp_none shape f pos L H)]. intros E B.
  revert f pos L B E. induction H as [|n shape Hn H IH]; intros f pos L B E; inversion B; subst; [discriminate|]. cbn [interpolate] in E. destruct (locate_ok n y Hn H2) as (i & t & Q & _). rewrite Q in E. assert (L' : length l' = length shape) by (cbn in L; lia).
  destruct (interpolate shape (fun l => f (i :: l)) l') eqn:E1; [|exact (IH _ _ L' H4 E1)]. destruct (interpolate shape (fun l => f (Datatypes.S i :: l)) l') eqn:E2; [discriminate|exact (IH _ _ L' H4 E2)].
Qed.
Print Assumptions C74_border_refuted.
Theorem C74_corner_refuted : forall shape f, shape <> [] -> Forall (fun n => 2 <= n)%nat shape -> in_domain shape (map (fun _ => 1 / 4) shape) /\ interpolate shape f (map (fun _ => 1 / 4) shape) = None.
Proof.
  intros shape f N H. split.
  - clear N. induction H as [|n shape Hn H IH]; [constructor|]. cbn [map]. constructor; [|exact IH]. assert (INR 2 <= INR n) by (apply le_INR; lia). cbn [INR] in *. lra.
  - apply (proj2 (C74_border_refuted shape f _ (map_length _ _) H)). intros B. destruct shape as [|n shape]; [tauto|]. inversion B; subst. lra.
Qed.
Print Assumptions C74_corner_refuted.

(* a velocity that depends linearly on the position has the vorticity dv/dx - du/dy in every cell; a rigid rotation with angular velocity w has 2 w *)
Theorem C74_vorticity_linear : forall nx ny v u0 ux uy v0 vx vy, (2 <= nx)%nat -> (2 <= ny)%nat ->
  (forall i j, (i < nx)%nat -> (j < ny)%nat -> v i j 0%nat = u0 + ux * INR i + uy * INR j /\ v i j 1%nat = v0 + vx * INR i + vy * INR j) ->
  exists w, vorticity_2d nx ny 2 v = Some w /\ forall i j, (i < nx)%nat -> (j < ny)%nat -> w i j = vx - uy.
Proof.
  intros nx ny v u0 ux uy v0 vx vy Hx Hy H. unfold vorticity_2d. cbn [Nat.eqb negb]. destruct (Nat.ltb_spec nx 2); [lia|]. destruct (Nat.ltb_spec ny 2); [lia|]. cbn [orb]. eexists. split; [reflexivity|]. intros i j Hi Hj. cbv beta zeta.
  rewrite (gradient_affine ny _ (u0 + ux * INR i) uy j Hy Hj) by (intros k Hk; exact (proj1 (H i k Hi Hk))). rewrite (gradient_affine nx _ (v0 + vy * INR j) vx i Hx Hi) by (intros k Hk; rewrite (proj2 (H k j Hk Hj)); ring). reflexivity.
Qed.
Print Assumptions C74_vorticity_linear.
Theorem C74_rigid_rotation : forall nx ny v x0 y0 omega, (2 <= nx)%nat -> (2 <= ny)%nat ->
  (forall i j, (i < nx)%nat -> (j < ny)%nat -> v i j 0%nat = - omega * (INR j - y0) /\ v i j 1%nat = omega * (INR i - x0)) ->
  exists w, vorticity_2d nx ny 2 v = Some w /\ forall i j, (i < nx)%nat -> (j < ny)%nat -> w i j = 2 * omega.
Proof.
  intros nx ny v x0 y0 om Hx Hy H. destruct (C74_vorticity_linear nx ny v (om * y0) 0 (- om) (- om * x0) om 0 Hx Hy) as (w & E & W); [intros i j Hi Hj; destruct (H i j Hi Hj) as [-> ->]; split; ring|]. exists w. split; [exact E|]. intros i j Hi Hj. rewrite (W i j Hi Hj). ring.
Qed.
Print Assumptions C74_rigid_rotation.

(* in the inner cells the vorticity is half the difference of the neighbours, exact for quadratic profiles *)
Theorem C74_vorticity_inner : forall nx ny v w i j, vorticity_2d nx ny 2 v = Some w -> (0 < i)%nat -> (i + 1 < nx)%nat -> (0 < j)%nat -> (j + 1 < ny)%nat ->
  w i j = (v (i + 1)%nat j 1%nat - v (i - 1)%nat j 1%nat) / 2 - (v i (j + 1)%nat 0%nat - v i (j - 1)%nat 0%nat) / 2.
Proof.
  intros nx ny v w i j E H1 H2 H3 H4. unfold vorticity_2d in E. cbn [Nat.eqb negb] in E. destruct ((nx <? 2)%nat || (ny <? 2)%nat); [discriminate|]. injection E as <-. rewrite !gradient_inner by assumption. reflexivity.
Qed.
Print Assumptions C74_vorticity_inner.
(* a channel flow along x with the profile u = b y + c y^2 has the vorticity -(b + 2 c y) inside; in the first and the last row the value is off by c *)
Theorem C74_channel : forall nx ny v b c, (2 <= nx)%nat -> (2 <= ny)%nat -> (forall i j, (i < nx)%nat -> (j < ny)%nat -> v i j 0%nat = b * INR j + c * INR j ^ 2 /\ v i j 1%nat = 0) ->
  exists w, vorticity_2d nx ny 2 v = Some w /\ forall i j, (i < nx)%nat -> (0 < j)%nat -> (j + 1 < ny)%nat -> w i j = - (b + 2 * c * INR j).
Proof.
  intros nx ny v b c Hx Hy H. unfold vorticity_2d. cbn [Nat.eqb negb]. destruct (Nat.ltb_spec nx 2); [lia|]. destruct (Nat.ltb_spec ny 2); [lia|]. cbn [orb]. eexists. split; [reflexivity|]. intros i j Hi Hj Hj2. cbv beta zeta.
  assert (Hj3 : (j < ny)%nat) by lia. rewrite (gradient_quadratic ny _ 0 b c j Hj Hj2) by (intros k Hk; rewrite (proj1 (H i k Hi Hk)); ring). rewrite (gradient_affine nx _ 0 0 i Hx Hi) by (intros k Hk; rewrite (proj2 (H k j Hk Hj3)); ring). ring.
Qed.
Print Assumptions C74_channel.
Theorem C74_channel_walls_refuted : forall nx ny v b c, (2 <= nx)%nat -> (2 <= ny)%nat -> (forall i j, (i < nx)%nat -> (j < ny)%nat -> v i j 0%nat = b * INR j + c * INR j ^ 2 /\ v i j 1%nat = 0) ->
  exists w, vorticity_2d nx ny 2 v = Some w /\ forall i, (i < nx)%nat -> w i 0%nat = - b - c /\ w i (ny - 1)%nat = - (b + 2 * c * INR (ny - 1)) + c.
Proof.
  intros nx ny v b c Hx Hy H. unfold vorticity_2d. cbn [Nat.eqb negb]. destruct (Nat.ltb_spec nx 2); [lia|]. destruct (Nat.ltb_spec ny 2); [lia|]. cbn [orb]. eexists. split; [reflexivity|]. intros i Hi. cbv beta zeta.
  destruct (gradient_edge ny (fun j' => v i j' 0%nat) 0 b c Hy) as [G0 G1]; [intros k Hk; rewrite (proj1 (H i k Hi Hk)); ring|]. rewrite G0, G1.
  assert (L0 : (0 < ny)%nat) by lia. assert (L1 : (ny - 1 < ny)%nat) by lia.
  rewrite (gradient_affine nx (fun i' => v i' 0%nat 1%nat) 0 0 i Hx Hi) by (intros k Hk; rewrite (proj2 (H k 0%nat Hk L0)); ring). rewrite (gradient_affine nx (fun i' => v i' (ny - 1)%nat 1%nat) 0 0 i Hx Hi) by (intros k Hk; rewrite (proj2 (H k (ny - 1)%nat Hk L1)); ring). split; ring.
Qed.
Print Assumptions C74_channel_walls_refuted.

(* periodic fields: shifting the velocity by one cell does not shift the vorticity, the border cells see no neighbour on the other side *)
Theorem C74_periodic_refuted : forall nx ny, (4 <= nx)%nat -> (2 <= ny)%nat -> exists v w w', let shifted := fun i j k => v (if (i =? 0)%nat then nx - 1 else i - 1)%nat j k in
  vorticity_2d nx ny 2 v = Some w /\ vorticity_2d nx ny 2 shifted = Some w' /\ w' 1%nat 0%nat <> w 0%nat 0%nat.
Proof.
  intros nx ny Hx Hy. exists (fun i _ k => if (k =? 1)%nat then if (i =? 1)%nat then 1 else 0 else 0). unfold vorticity_2d. cbn [Nat.eqb negb]. destruct (Nat.ltb_spec nx 2); [lia|]. destruct (Nat.ltb_spec ny 2); [lia|]. cbn [orb]. do 2 eexists. cbv zeta. split; [reflexivity|]. split; [reflexivity|]. cbv beta.
  unfold gradient. cbn [Nat.eqb]. destruct (Nat.eqb_spec 1 (nx - 1)); [lia|]. cbn [Nat.add Nat.sub Nat.eqb]. replace (nx - 1 =? 1)%nat with false by (symmetry; apply Nat.eqb_neq; lia). intros Q. destruct (nx - 1)%nat as [|[|k]] eqn:K; [lia|lia|]. cbv iota in Q. lra.
Qed.
Print Assumptions C74_periodic_refuted.
(* fields that are not plane vector fields or have less than two cells along an axis are errors *)
Theorem C74_errors : forall nx ny components v, vorticity_2d nx ny components v = None <-> components <> 2%nat \/ (nx < 2)%nat \/ (ny < 2)%nat.
Proof.
  intros nx ny k v. unfold vorticity_2d. destruct (Nat.eqb_spec k 2) as [->|N]; cbn [negb]; [|split; [intros _; left; exact N|reflexivity]]. destruct (Nat.ltb_spec nx 2); cbn [orb]; [split; [intros _; right; left; assumption|reflexivity]|]. destruct (Nat.ltb_spec ny 2); [split; [intros _; right; right; assumption|reflexivity]|]. split; [discriminate|]. intros [Q|[Q|Q]]; [congruence|lia|lia].
Qed.
Print Assumptions C74_errors.

Example C74_example : interpolate [3; 2]%nat (fun l => match l with [i; j] => INR i + 10 * INR j | _ => 0 end) [2; 1] = Some (1 + 1 / 2 + 10 * (1 / 2)) /\ between_centers [3; 2]%nat [2; 1] /\
  in_shape [3; 2]%nat [2; 1]%nat /\ interpolate [3; 2]%nat (fun l => match l with [i; j] => INR i + 10 * INR j | _ => 0 end) (center [2; 1]%nat) = Some 12.
Proof.
  assert (F : Forall (fun n => 2 <= n)%nat [3; 2]%nat) by (repeat constructor). assert (B : between_centers [3; 2]%nat [2; 1]) by (unfold between_centers; repeat constructor; cbn [INR]; lra). assert (S : in_shape [3; 2]%nat [2; 1]%nat) by (unfold in_shape; repeat constructor). split; [|split; [exact B|split; [exact S|]]].
  - rewrite (proj1 (C74_linear [3; 2]%nat [2; 1] F B) (- (1 / 2) - 5) [1; 10]); [f_equal; cbn [affine]; lra|reflexivity|]. intros idx I. inversion I as [|? i ? ? ? I2]; subst. inversion I2 as [|? j ? ? ? I3]; subst. inversion I3; subst. cbn [center map affine]. lra.
  - rewrite (proj1 (C74_centers [3; 2]%nat [2; 1]%nat F S)). f_equal. cbn [INR]. lra.
Qed.
