(* C29: partially saturated cells. *)
From Coq Require Import List ZArith Bool Arith Reals Lra Lia.
From Verif Require Import StencilModel StencilProofs AccessModel StreamModel StreamSpec AccessProofs RealLib LinLib EqModel EqSpec PropsEq TransModel CollModel PsmModel PsmProofs.
Import ListNotations.
Local Open Scope R_scope.

Definition valid_option (SC : Z) : Prop := SC = 1%Z \/ SC = 2%Z \/ SC = 3%Z.

(* Zero solid fraction: whatever the collision operator, the result is the plain collision and all particle forces are 0. *)
Theorem C29_zero_fraction : forall D S collision rates equilibrium velocity SC omega individual object_velocity n f g,
  symmetric_stencil D S -> valid_option SC -> (forall p, (p < n)%nat -> individual p = 0) ->
  collision rates f = Ok g -> length g = length S ->
  psm_update S collision rates equilibrium velocity SC omega 0 individual object_velocity n f = Ok (g, rzero (n * D)).
Proof.
  intros D S collision rates equilibrium velocity SC omega individual ov n f g HS HSC Hz Hc Hl.
  apply psm_zero; try assumption. rewrite scaled_rates_one by reflexivity. exact Hc.
Qed.
Print Assumptions C29_zero_fraction.

(* Mass: option 3 keeps the density of the collision rule for any equilibrium, option 1 if the density of the equilibrium
   does not depend on the velocity, option 2 if in addition the equilibrium has the density of the populations. *)
Theorem C29_mass : forall D S collision rates equilibrium velocity SC omega fraction individual object_velocity n f g F main,
  symmetric_stencil D S -> valid_option SC ->
  length f = length S -> length main = length S -> (forall u, length (equilibrium f u) = length S) ->
  (SC <> 3%Z -> forall u v, density (equilibrium f u) S = density (equilibrium f v) S) ->
  (SC = 2%Z -> density (equilibrium f (velocity f)) S = density f S) ->
  collision (scaled_rates rates fraction) f = Ok main ->
  psm_update S collision rates equilibrium velocity SC omega fraction individual object_velocity n f = Ok (g, F) ->
  density g S = density main S.
Proof.
  intros D S collision rates equilibrium velocity SC omega fraction individual ov n f g F main HS HSC Hf Hm He H1 H2 Hc Hu.
  eapply psm_density; try eassumption. intros p _. unfold mass_neutral.
  destruct HSC as [E|[E|E]]; rewrite E in *; [apply H1; discriminate|split; [apply H1; discriminate|apply H2; reflexivity]|exact I].
Qed.
Print Assumptions C29_mass.

(* In particular with lbmpy's discrete hydrodynamic Maxwellian evaluated at the density of the populations, for every
   predefined stencil, every velocity of every particle and every collision operator that conserves mass. *)
Theorem C29_mass_maxwellian : forall name ord D S collision rates equilibrium velocity SC omega fraction individual object_velocity n f g F main compr dev order,
  predefined_stencils name ord = Ok S -> symmetric_stencil D S -> valid_option SC -> length f = length S ->
  (forall u, hydro_maxwellian S compr dev order (density f S + if dev then 1 else 0) u (1 / 3) = Ok (equilibrium f u)) ->
  (forall u, length (equilibrium f u) = length S) ->
  collision (scaled_rates rates fraction) f = Ok main -> length main = length S -> density main S = density f S ->
  psm_update S collision rates equilibrium velocity SC omega fraction individual object_velocity n f = Ok (g, F) ->
  density g S = density f S.
Proof.
  intros name ord D S collision rates equilibrium velocity SC omega fraction individual ov n f g F main compr dev order Hn HS HSC Hf He Hl Hc Hm Hd Hu.
  rewrite <- Hd. apply (C29_mass D S collision rates equilibrium velocity SC omega fraction individual ov n f g F main); try assumption.
  - intros _ u v. rewrite (C10_density name ord S compr dev order _ u _ Hn (He u)), (C10_density name ord S compr dev order _ v _ Hn (He v)). reflexivity.
  - intros _. rewrite (C10_density name ord S compr dev order _ _ _ Hn (He (velocity f))). lra.
Qed.
Print Assumptions C29_mass_maxwellian.

(* The force reported for the particles is the momentum taken from the fluid: momentum of the populations plus the sum over
   all particles of their force is the momentum the collision rule alone would have left. *)
Theorem C29_force : forall D S collision rates equilibrium velocity SC omega fraction individual object_velocity n f g F main j,
  symmetric_stencil D S -> valid_option SC -> length main = length S -> (j < D)%nat ->
  collision (scaled_rates rates fraction) f = Ok main ->
  psm_update S collision rates equilibrium velocity SC omega fraction individual object_velocity n f = Ok (g, F) ->
  momentum g S j + rsum (map (fun p => nth (p * D + j) F 0) (seq 0 n)) = momentum main S j.
Proof. intros. eapply psm_momentum; eassumption. Qed.
Print Assumptions C29_force.

(* ... and particle by particle: the force on the last particle is the momentum by which its presence changes the result. *)
Theorem C29_force_per_particle : forall D S collision rates equilibrium velocity SC omega fraction individual object_velocity n f g F g' F' main j,
  symmetric_stencil D S -> valid_option SC -> length main = length S -> (j < D)%nat ->
  collision (scaled_rates rates fraction) f = Ok main ->
  psm_update S collision rates equilibrium velocity SC omega fraction individual object_velocity n f = Ok (g, F) ->
  psm_update S collision rates equilibrium velocity SC omega fraction individual object_velocity (n + 1) f = Ok (g', F') ->
  nth (n * D + j) F' 0 = momentum g S j - momentum g' S j /\ (forall q, (q < n)%nat -> nth (q * D + j) F' 0 = nth (q * D + j) F 0).
Proof.
  intros D S collision rates equilibrium velocity SC omega fraction individual ov n f g F g' F' main j HS HSC Hm Hj Hc H1 H2.
  assert (Hq : forall q, (q < n)%nat -> nth (q * D + j) F' 0 = nth (q * D + j) F 0).
  { intros q Hq. apply (psm_inv D) in H1 as (? & _ & _ & ->); [|assumption..]. apply (psm_inv D) in H2 as (? & _ & _ & ->); [|assumption..].
    rewrite !(force_entry D S HS) by lia. reflexivity. }
  split; [|exact Hq].
  pose proof (psm_momentum D S HS _ _ _ _ _ _ _ _ _ HSC n f g F main j H1 Hc Hm Hj) as E1.
  pose proof (psm_momentum D S HS _ _ _ _ _ _ _ _ _ HSC (n + 1) f g' F' main j H2 Hc Hm Hj) as E2.
  rewrite seq_app, map_app, rsum_app in E2. cbn [plus seq map rsum fold_right] in E2.
  rewrite (rsum_ext (fun p => nth (p * D + j) F' 0) (fun p => nth (p * D + j) F 0)) in E2 by (intros q Hin; apply in_seq in Hin; apply Hq; lia). lra.
Qed.
Print Assumptions C29_force_per_particle.

(* A collision operator that relaxes moments leaves the populations alone in a cell which is completely solid (all rates
   scaled by 0); together with the next two theorems: it is a bounce back with the velocity of the particle. *)
Theorem C29_zero_rates : forall D S ps zc compr eqm ws M fwd bwd d f m,
  fwd f = Ok m -> length m = length S -> length ps = length S -> length d = length S -> bwd m = Ok f ->
  moment_collision D S ps zc compr eqm ws M fwd bwd (scaled_rates d 1) None f = Ok f.
Proof.
  intros D S ps zc compr eqm ws M fwd bwd d f m H1 L1 L2 L3 H2. unfold moment_collision. cbn [rbind]. unfold collide. rewrite H1. cbn [rbind].
  match goal with |- bwd ?x = _ => replace x with m; [exact H2|] end.
  set (eqs := equilibrium_values _ _). assert (Le : length eqs = length S) by (unfold eqs, equilibrium_values; now rewrite map_length).
  assert (Ls : length (scaled_rates d 1) = length S) by (unfold scaled_rates; now rewrite map_length).
  unfold relax. apply list_ext; [rewrite !radd_length, rmul_length, rsub_length, rzero_length; lia|]. intros i Hi.
  rewrite !nth_radd, nth_rmul, nth_rsub, nth_rzero by (rewrite ?radd_length, ?rmul_length, ?rsub_length, ?rzero_length; lia).
  unfold scaled_rates. rewrite (nth_indep (map _ d) 0 ((fun w => w * (1 - 1)) 0)) by (rewrite map_length; lia). rewrite (map_nth (fun w => w * (1 - 1))). lra.
Qed.
Print Assumptions C29_zero_rates.

(* A completely solid cell, one particle, solid collision option 3: every population leaves in the direction it came from,
   plus the antisymmetric part of the equilibrium at the velocity of the particle. *)
Theorem C29_solid_option3 : forall D S collision rates equilibrium velocity omega individual object_velocity f g F i k,
  symmetric_stencil D S -> length f = length S -> collision (scaled_rates rates 1) f = Ok f -> individual 0%nat = 1 ->
  psm_update S collision rates equilibrium velocity 3 omega 1 individual object_velocity 1 f = Ok (g, F) ->
  opposite S i k ->
  let eS := equilibrium f (object_velocity 0%nat) in
  nth i g 0 = nth k f 0 + (nth i eS 0 - nth k eS 0).
Proof.
  intros D S collision rates equilibrium velocity omega individual ov f g F i k HS Hf Hc H1 Hu Ho eS.
  destruct (solid_entry D S HS collision rates equilibrium velocity 3 omega individual ov (or_intror (or_intror eq_refl)) f g F i k Hf Hc H1 Hu Ho) as (Hk & E).
  rewrite E. unfold sc_val. rewrite Hk, H1. cbn [Z.eqb Pos.eqb]. fold eS. lra.
Qed.
Print Assumptions C29_solid_option3.

(* option 1: the non-equilibrium part is bounced back and added to the equilibrium at the velocity of the particle *)
Theorem C29_solid_option1 : forall D S collision rates equilibrium velocity omega individual object_velocity f g F i k,
  symmetric_stencil D S -> length f = length S -> collision (scaled_rates rates 1) f = Ok f -> individual 0%nat = 1 ->
  psm_update S collision rates equilibrium velocity 1 omega 1 individual object_velocity 1 f = Ok (g, F) ->
  opposite S i k ->
  nth i g 0 = nth i (equilibrium f (object_velocity 0%nat)) 0 + (nth k f 0 - nth k (equilibrium f (velocity f)) 0).
Proof.
  intros D S collision rates equilibrium velocity omega individual ov f g F i k HS Hf Hc H1 Hu Ho.
  destruct (solid_entry D S HS collision rates equilibrium velocity 1 omega individual ov (or_introl eq_refl) f g F i k Hf Hc H1 Hu Ho) as (Hk & E).
  rewrite E. unfold sc_val. rewrite Hk, H1. cbn [Z.eqb Pos.eqb]. lra.
Qed.
Print Assumptions C29_solid_option1.

(* option 2 with single relaxation time: a particle that moves with the fluid is invisible, for every fraction *)
Theorem C29_option2_transparent : forall D S equilibrium velocity w fraction individual object_velocity n f,
  symmetric_stencil D S -> length f = length S -> (forall u, length (equilibrium f u) = length S) ->
  (forall p, (p < n)%nat -> object_velocity p = velocity f) -> rsum (map individual (seq 0 n)) = fraction ->
  let srt := fun d h => Ok (relax d (equilibrium h (velocity h)) h) in
  let rates := repeat w (length S) in
  exists g F, psm_update S srt rates equilibrium velocity 2 w fraction individual object_velocity n f = Ok (g, F) /\ srt rates f = Ok g.
Proof. intros D S equilibrium velocity w fraction individual ov n f HS Hf He Hv Hs srt rates. apply (option2_srt D); assumption. Qed.
Print Assumptions C29_option2_transparent.

(* A one-dimensional stencil, its moments 1, x, x^2 and its equilibrium at rest, for the examples. *)
Notation st3 := [[0]; [1]; [-1]]%Z.
Notation m3 := [[1; 1; 1]; [0; 1; -1]; [0; 1; 1]].
Notation m3inv := [[1; 0; -1]; [0; 1 / 2; 1 / 2]; [0; - 1 / 2; 1 / 2]].
Example st3_symmetric : symmetric_stencil 1 st3.
Proof.
  split; [discriminate|]. split; [|split].
  - repeat constructor; cbn; intuition discriminate.
  - intros d [<-|[<-|[<-|[]]]]; reflexivity.
  - intros d [<-|[<-|[<-|[]]]]; cbn; tauto.
Qed.

(* ... but the rate used is that of the first moment, which for a method with several rates is a conserved one with rate 0:
   then a particle is felt although it moves with the fluid. *)
Theorem C29_option2_mrt_refuted : ~ (forall D S M Minv collision rates equilibrium velocity fraction individual object_velocity n f g h F,
  symmetric_stencil D S -> is_inverse (length S) M Minv ->
  length f = length S -> (forall u, length (equilibrium f u) = length S) ->
  (forall p, (p < n)%nat -> object_velocity p = velocity f) -> rsum (map individual (seq 0 n)) = fraction ->
  collision = (fun d h => collide (fun h => Ok (mv M h)) (fun m => Ok (mv Minv m)) d (mv M (equilibrium h (velocity h))) (rzero (length S)) h) ->
  length rates = length S -> collision rates f = Ok h ->
  psm_update S collision rates equilibrium velocity 2 (nth 0 rates 0) fraction individual object_velocity n f = Ok (g, F) -> g = h).
Proof.
  intros H.
  pose (f := [1/3; 1/3; 1/3]). pose (eq := fun (_ _ : list R) => [2/3; 1/6; 1/6]).
  pose (col := fun d h => collide (fun h => Ok (mv m3 h)) (fun m => Ok (mv m3inv m)) d (mv m3 (eq h [0])) (rzero 3) h).
  destruct (psm_update_total 1 st3 st3_symmetric col [0; 0; 1] eq (fun _ => [0]) 2 0 1 (fun _ => 1) (fun _ => [0])
              (or_intror (or_introl eq_refl)) 1 f (mv m3inv (radd (relax (scaled_rates [0;0;1] 1) (mv m3 (eq f [0])) (mv m3 f)) (rzero 3)))) as ([g F] & E); [reflexivity|].
  specialize (H 1%nat st3 m3 m3inv col [0; 0; 1] eq (fun _ => [0]) 1 (fun _ => 1) (fun _ => [0]) 1%nat f g (mv m3inv (radd (relax [0;0;1] (mv m3 (eq f [0])) (mv m3 f)) (rzero 3))) F st3_symmetric).
  assert (I : is_inverse 3 m3 m3inv).
  { split; [split; [reflexivity|repeat constructor]|]. split; [split; [reflexivity|repeat constructor]|]. split; intros [|x [|y [|z [|]]]] Hx; try discriminate; cbn; repeat f_equal; field. }
  specialize (H I eq_refl (fun _ => eq_refl) (fun _ _ => eq_refl)).
  assert (E1 : rsum (map (fun _ : nat => 1) (seq 0 1)) = 1) by (cbn; lra). specialize (H E1 eq_refl eq_refl eq_refl E).
  unfold psm_update, col at 1, collide in E. cbn [rbind] in E. rewrite (add_psm_ok 1 st3 st3_symmetric) in E by tauto. injection E as Eg _.
  apply (f_equal (fun l => nth 0 l 0)) in H. rewrite <- Eg in H. unfold sc_list, sc_val, eq, f in H. cbn in H. lra.
Qed.
Print Assumptions C29_option2_mrt_refuted.

(* Any other solid collision option is rejected (as soon as there is a particle). *)
Theorem C29_invalid_option : forall D S collision rates equilibrium velocity SC omega fraction individual object_velocity n f main,
  symmetric_stencil D S -> ~ valid_option SC -> collision (scaled_rates rates fraction) f = Ok main ->
  psm_update S collision rates equilibrium velocity SC omega fraction individual object_velocity (Datatypes.S n) f = Err ValueError.
Proof.
  intros D S collision rates equilibrium velocity SC omega fraction individual ov n f main HS HSC Hc.
  unfold psm_update. rewrite Hc. cbn [rbind]. unfold add_psm. cbn [seq mapM].
  enough (E : particle_collision S equilibrium velocity SC omega individual ov f 0 = Err ValueError) by now rewrite E.
  unfold particle_collision, sizeQ. destruct S as [|c S]; [destruct HS; congruence|]. cbn [length seq mapM].
  match goal with |- rbind ?x _ = _ => enough (E : x = Err ValueError) by now rewrite E end.
  unfold solid_collision. destruct (opp_spec D (c :: S) HS 0) as (E & _); [cbn; lia|]. unfold dir in E. rewrite E.
  unfold valid_option in HSC.
  destruct (Z.eqb_spec SC 1); [tauto|]. destruct (Z.eqb_spec SC 2); [tauto|]. destruct (Z.eqb_spec SC 3); [tauto|]. reflexivity.
Qed.
Print Assumptions C29_invalid_option.

(* The kernel with one conditional block per number of particles, on two population fields: in a fluid cell it does the
   plain update and leaves the force field alone; in a cell whose last overlapping particle is k it writes the populations
   of the update with all particles, and the forces of particles 0..k. *)
Theorem C29_kernel_fluid : forall S collision rates equilibrium velocity SC omega fraction individual object_velocity plain n f st g,
  fraction <= 0 -> (forall p, (p < n)%nat -> individual p <= 0) -> plain f = Ok g ->
  psm_kernel S collision rates equilibrium velocity SC omega fraction individual object_velocity plain n f st = Ok (g, snd st).
Proof. intros. apply psm_kernel_fluid; assumption. Qed.
Print Assumptions C29_kernel_fluid.

Theorem C29_kernel_solid : forall D S collision rates equilibrium velocity SC omega fraction individual object_velocity plain k m f st main,
  symmetric_stencil D S -> valid_option SC -> collision (scaled_rates rates fraction) f = Ok main -> length main = length S ->
  fraction > 0 -> individual k > 0 -> (forall p, (k < p < k + 1 + m)%nat -> individual p = 0) ->
  exists g F, psm_update S collision rates equilibrium velocity SC omega fraction individual object_velocity (k + 1 + m) f = Ok (g, F) /\
    psm_kernel S collision rates equilibrium velocity SC omega fraction individual object_velocity plain (k + 1 + m) f st
      = Ok (g, firstn ((k + 1) * D) F ++ skipn ((k + 1) * D) (snd st)).
Proof. intros. eapply psm_kernel_ok; eassumption. Qed.
Print Assumptions C29_kernel_solid.

Theorem C29_kernel_single : forall S collision rates equilibrium velocity SC omega fraction individual object_velocity plain f st,
  (forall n, n <> 1%nat -> psm_kernel_single S collision rates equilibrium velocity SC omega fraction individual object_velocity plain n f st = Err AssertionError) /\
  (forall g, fraction <= 0 -> plain f = Ok g -> psm_kernel_single S collision rates equilibrium velocity SC omega fraction individual object_velocity plain 1 f st = Ok (g, snd st)) /\
  (forall g F, fraction > 0 -> psm_update S collision rates equilibrium velocity SC omega fraction individual object_velocity 1 f = Ok (g, F) ->
     psm_kernel_single S collision rates equilibrium velocity SC omega fraction individual object_velocity plain 1 f st = Ok (g, F ++ skipn (dimD S) (snd st))).
Proof.
  intros. unfold psm_kernel_single. split; [|split].
  - intros n Hn. apply Nat.eqb_neq in Hn. now rewrite Hn.
  - intros g Hf Hp. cbn [Nat.eqb negb]. unfold when. rewrite leb_true, ltb_false by lra. unfold plain_block. now rewrite Hp.
  - intros g F Hf Hu. cbn [Nat.eqb negb]. unfold when. rewrite leb_false, ltb_true by lra. cbn [rbind]. unfold psm_block. rewrite Hu. cbn [rbind fst snd].
    unfold write_forces. now rewrite Nat.mul_1_l.
Qed.
Print Assumptions C29_kernel_single.

(* The force field of a particle that no longer overlaps the cell is not reset. *)
Theorem C29_stale_force_refuted : ~ (forall D S collision rates equilibrium velocity SC omega fraction individual object_velocity plain n f st g F p j,
  symmetric_stencil D S -> valid_option SC -> fraction = rsum (map individual (seq 0 n)) -> (forall p, 0 <= individual p) ->
  psm_kernel S collision rates equilibrium velocity SC omega fraction individual object_velocity plain n f st = Ok (g, F) ->
  (p < n)%nat -> (j < D)%nat -> individual p = 0 -> nth (p * D + j) F 0 = 0).
Proof.
  intros H.
  specialize (H 1%nat st3 (fun _ f => Ok f) [] (fun f _ => f) (fun _ => [0]) 3%Z 0 0 (fun _ => 0) (fun _ => [0]) (fun f => Ok f) 1%nat
                [1; 1; 1] ([0; 0; 0], [5]) [1; 1; 1] [5] 0%nat 0%nat st3_symmetric (or_intror (or_intror eq_refl))).
  enough (5 = 0) by lra. apply H; try lia; try reflexivity; try (cbn; lra); [intros; lra|].
  rewrite (C29_kernel_fluid _ _ _ _ _ _ _ _ _ _ _ _ _ _ [1; 1; 1]); [reflexivity|lra|intros; lra|reflexivity].
Qed.
Print Assumptions C29_stale_force_refuted.

(* With an in-place streaming pattern the blocks are executed one after the other on the same populations: two overlapping
   particles do not give the update with two particles. *)
Theorem C29_inplace_refuted : ~ (forall D S collision rates equilibrium velocity SC omega fraction individual object_velocity plain n f F0 g F g' F',
  symmetric_stencil D S -> valid_option SC -> length f = length S -> (forall u, length (equilibrium f u) = length S) ->
  fraction = rsum (map individual (seq 0 n)) -> 0 < fraction <= 1 -> (forall p, (p < n)%nat -> 0 < individual p) ->
  psm_update S collision rates equilibrium velocity SC omega fraction individual object_velocity n f = Ok (g, F) ->
  psm_kernel_inplace S collision rates equilibrium velocity SC omega fraction individual object_velocity plain n (f, F0) = Ok (g', F') ->
  g' = g).
Proof.
  intros H. pose (f := [0; 1; 0]). pose (eq := fun (_ _ : list R) => [2/3; 1/6; 1/6]).
  assert (V3 : 3%Z = 1%Z \/ 3%Z = 2%Z \/ 3%Z = 3%Z) by tauto.
  set (u := psm_update st3 (fun _ f => Ok f) [] eq (fun _ => [0]) 3 0 1 (fun _ => 1/2) (fun _ => [0])) in *.
  assert (E : forall n h, u n h = Ok (fold_left radd (map (sc_list st3 eq (fun _ => [0]) 3 0 (fun _ => 1/2) (fun _ => [0]) h) (seq 0 n)) h,
                             concat (map (fun p => particle_force st3 (sc_list st3 eq (fun _ => [0]) 3 0 (fun _ => 1/2) (fun _ => [0]) h p)) (seq 0 n)))).
  { intros n h. unfold u, psm_update. cbn [rbind]. apply (add_psm_ok 1 st3 st3_symmetric). exact V3. }
  destruct (u 2%nat f) as [[g F]|] eqn:Eu; [|rewrite E in Eu; discriminate].
  destruct (psm_kernel_inplace st3 (fun _ f => Ok f) [] eq (fun _ => [0]) 3 0 1 (fun _ => 1/2) (fun _ => [0]) (fun f => Ok f) 2 (f, [0; 0])) as [[g' F']|] eqn:Ek.
  - specialize (H 1%nat st3 (fun _ f => Ok f) [] eq (fun _ => [0]) 3%Z 0 1 (fun _ => 1/2) (fun _ => [0]) (fun f => Ok f) 2%nat f [0; 0] g F g' F'
                 st3_symmetric V3 eq_refl (fun _ => eq_refl)).
    assert (E1 : 1 = rsum (map (fun _ : nat => 1/2) (seq 0 2))) by (cbn; lra).
    specialize (H E1). assert (E2 : 0 < 1 <= 1) by lra. specialize (H E2). assert (E3 : forall p, (p < 2)%nat -> 0 < 1/2) by (intros; lra).
    specialize (H E3 Eu Ek). unfold psm_kernel_inplace in Ek. cbn [seq inplace_blocks] in Ek. unfold when in Ek. rewrite leb_false in Ek by lra. cbn [rbind] in Ek.
    rewrite !ltb_true in Ek by lra. unfold psm_block in Ek. cbn [plus fst] in Ek. fold u in Ek. rewrite !E in Ek. cbn [rbind fst snd] in Ek. rewrite E in Ek. cbn [rbind fst snd] in Ek.
    injection Ek as Eg' _. rewrite E in Eu. injection Eu as Eg _. apply (f_equal (fun l => nth 1 l 0)) in H. rewrite <- Eg, <- Eg' in H. unfold sc_list, sc_val, eq, f in H. cbn in H. lra.
  - unfold psm_kernel_inplace in Ek. cbn [seq inplace_blocks] in Ek. unfold when in Ek. rewrite leb_false in Ek by lra. cbn [rbind] in Ek.
    rewrite !ltb_true in Ek by lra. unfold psm_block in Ek. cbn [plus fst] in Ek. fold u in Ek. rewrite E in Ek. cbn [rbind fst snd] in Ek. rewrite E in Ek. discriminate.
Qed.
Print Assumptions C29_inplace_refuted.

(* ---- the hypotheses are met ---- *)
Example C29_cases : exists g F,
  psm_update st3 (fun _ f => Ok f) [] (fun _ _ => [2/3; 1/6; 1/6]) (fun _ => [0]) 3 0 1 (fun _ => 1) (fun _ => [0]) 1 [0; 1; 0] = Ok (g, F) /\
  nth 1 g 0 = 0 /\ nth 2 g 0 = 1 /\ nth 0 F 0 = 2.
Proof.
  unfold psm_update. cbn [rbind]. rewrite (add_psm_ok 1 st3 st3_symmetric) by tauto. eexists _, _. split; [reflexivity|]. unfold sc_list, sc_val. cbn. repeat split; lra.
Qed.
Example C29_srt_case : exists g F,
  psm_update st3 (fun d h => Ok (relax d [2/3; 1/6; 1/6] h)) [1; 1; 1] (fun _ _ => [2/3; 1/6; 1/6]) (fun _ => [0]) 2 1 (1/2) (fun _ => 1/2) (fun _ => [0]) 1 [0; 1; 0] = Ok (g, F) /\
  nth 1 g 0 = 1/6.
Proof.
  unfold psm_update. cbn [rbind]. rewrite (add_psm_ok 1 st3 st3_symmetric) by tauto. eexists _, _. split; [reflexivity|]. unfold sc_list, sc_val. cbn. lra.
Qed.
