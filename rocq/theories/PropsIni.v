(* C52: collisions with prescribed density and velocity, and the iterative initialisation of a velocity field. *)
From Coq Require Import String List ZArith Bool Arith QArith Qreals Reals Lra Lia.
From Verif Require Import StencilModel RealLib LinLib TransSpec TransModel MomModel EqModel EqSpec CollSpec CollModel CollProofs CollProofs2 CollProofs3 PropsTrans PropsColl IniModel IniSpec IniProofs IniProofs2.
Import ListNotations.
Local Open Scope R_scope.

(* raw moments: the mass moves towards the given density with the rate of the zeroth moment, the momentum towards the momentum
   of given density and velocity with the rates of the first moments, every other moment towards its equilibrium at the given
   density and velocity *)
Theorem C52_prescribed_raw : forall name ord S ws exps ps P Minv Pinv Mpinv zc dev compr eqm fwd bwd d f rho_in v,
  method_setup name ord S ws exps ps P Minv Pinv Mpinv -> hydro_moments (dimD S) compr dev eqm ->
  raw_transform S exps ps P Minv Pinv Mpinv (background S ws zc dev) fwd bwd ->
  length d = sizeQ S -> length f = sizeQ S -> (dev = true -> zc = true) -> (dimD S <= length v)%nat ->
  let rho := mass zc S f in
  let r := match rho_in with Some r => r | None => rho end in
  exists f', raw_input_collision (dimD S) S ps zc compr eqm fwd bwd d rho_in (Some v) f = Ok f' /\ length f' = sizeQ S /\
    (rho_in = None -> mass zc S f' = rho) /\
    (forall i, nth_error ps i = Some [(1, zero_exponents (dimD S))] -> mass zc S f' = rho + nth i d 0 * (r - rho)) /\
    (forall i a, (a < dimD S)%nat -> nth_error ps i = Some [(1, unit_exponents (dimD S) a)] ->
       momentum f' S a = momentum f S a + nth i d 0 * (carrier compr r * nth a v 0 - momentum f S a)) /\
    (forall i p, nth_error ps i = Some p ->
       let m g := poly_moment (radd g (background S ws zc dev)) S (rzero (dimD S)) p in
       m f' = m f + nth i d 0 * (rsum (map (fun t => fst t * eqm r (firstn (dimD S) v) (snd t)) p) - m f)).
Proof.
  intros name ord S ws exps ps P Minv Pinv Mpinv zc dev compr eqm fwd bwd d f rho_in v HS He HT Hd Hf Hdz Hv. cbv zeta.
  destruct (setup_facts _ _ _ _ _ _ _ _ _ _ HS) as (F1 & F2 & F3). pose proof HS as [H1 H2 H3 H4 H5 H6 H7].
  pose proof (background_ok _ _ _ _ zc dev H1 H2) as HB. pose proof (raw_transform_ok _ _ _ _ _ _ _ _ _ _ _ _ _ HS (proj1 HB) HT) as HT'.
  destruct (raw_input_step (dimD S) (sizeQ S) S ps zc dev compr (background S ws zc dev) d f F1 eq_refl F3 Hd Hf Hdz HB rho_in v Hv eqm fwd bwd HT' He) as (f' & E1 & E2 & E3 & E4 & E5).
  destruct (has_zero (dimD S) ps H7) as [j Hj].
  exists f'. split; [exact E1|]. split; [exact E2|]. split; [intros ->; rewrite (E4 j Hj); ring|]. split; [exact E4|]. split; [apply E5; eauto|]. exact E3.
Qed.
Print Assumptions C52_prescribed_raw.

(* central moments: the same for the mass; the momentum has an additional term if a density is given and the rates of the
   zeroth and the first moments differ *)
Theorem C52_prescribed_central : forall name ord S ws exps ps P Minv Pinv Mpinv zc dev compr eqc fwd bwd d f rho_in v,
  method_setup name ord S ws exps ps P Minv Pinv Mpinv -> hydro_central_moments (dimD S) compr dev eqc ->
  (forall u, length u = dimD S -> central_transform S exps ps P Minv Pinv Mpinv (background S ws zc dev) u (fwd u) (bwd u)) ->
  length d = sizeQ S -> length f = sizeQ S -> (dev = true -> zc = true) -> (dimD S <= length v)%nat ->
  let rho := mass zc S f in
  let r := match rho_in with Some r => r | None => rho end in
  exists f', central_input_collision (dimD S) S ps zc compr eqc fwd bwd d rho_in (Some v) f = Ok f' /\ length f' = sizeQ S /\
    (rho_in = None -> mass zc S f' = rho) /\
    (forall i, nth_error ps i = Some [(1, zero_exponents (dimD S))] -> mass zc S f' = rho + nth i d 0 * (r - rho)) /\
    (forall i j a, (a < dimD S)%nat -> nth_error ps i = Some [(1, unit_exponents (dimD S) a)] -> nth_error ps j = Some [(1, zero_exponents (dimD S))] ->
       momentum f' S a = momentum f S a + nth i d 0 * (carrier compr r * nth a v 0 - momentum f S a)
         + nth a v 0 * (nth j d 0 - nth i d 0) * (r - rho)) /\
    (forall i p, nth_error ps i = Some p ->
       let m g := poly_moment (radd g (background S ws zc dev)) S (firstn (dimD S) v) p in
       m f' = m f + nth i d 0 * (rsum (map (fun t => fst t * eqc r (firstn (dimD S) v) (snd t)) p) - m f)).
Proof.
  intros name ord S ws exps ps P Minv Pinv Mpinv zc dev compr eqc fwd bwd d f rho_in v HS He HT Hd Hf Hdz Hv. cbv zeta.
  destruct (setup_facts _ _ _ _ _ _ _ _ _ _ HS) as (F1 & F2 & F3). pose proof HS as [H1 H2 H3 H4 H5 H6 H7].
  pose proof (background_ok _ _ _ _ zc dev H1 H2) as HB.
  assert (HT' : forall u, length u = dimD S -> moment_transform (sizeQ S) S ps (background S ws zc dev) u (fwd u) (bwd u)).
  { intros u Hu. eapply central_transform_ok; eauto. apply HB. }
  destruct (central_input_step (dimD S) (sizeQ S) S ps zc dev compr (background S ws zc dev) d f F1 eq_refl F3 Hd Hf Hdz HB rho_in v Hv eqc fwd bwd HT' He) as (f' & E1 & E2 & E3 & E4 & E5).
  destruct (has_zero (dimD S) ps H7) as [j Hj].
  exists f'. split; [exact E1|]. split; [exact E2|]. split; [intros ->; rewrite (E4 j Hj); ring|]. split; [exact E4|]. split; [exact E5|]. exact E3.
Qed.
Print Assumptions C52_prescribed_central.

Theorem C52_density_needs_velocity : forall D S ps zc compr eq1 eq2 fwd bwd fwd' bwd' d r f,
  raw_input_collision D S ps zc compr eq1 fwd bwd d (Some r) None f = Err ValueError /\
  central_input_collision D S ps zc compr eq2 fwd' bwd' d (Some r) None f = Err ValueError.
Proof. intros. split; reflexivity. Qed.
Print Assumptions C52_density_needs_velocity.
(* without input the collision is the usual one *)
Theorem C52_no_input : forall D S ps zc compr eq1 eq2 ws M Minv fwd bwd fwd' bwd' d f,
  raw_input_collision D S ps zc compr eq1 fwd bwd d None None f = moment_collision D S ps zc compr eq1 ws M fwd bwd d None f /\
  central_input_collision D S ps zc compr eq2 fwd' bwd' d None None f = central_collision D S ps zc compr eq2 ws M Minv fwd' bwd' d None f.
Proof. intros. split; reflexivity. Qed.
Print Assumptions C52_no_input.
(* components that are not given keep the velocity of the populations *)
Theorem C52_given_components : forall D S zc compr rho_in v f, (length v <= D)%nat ->
  exists r u, input_quantities D S zc compr rho_in (Some v) f = Ok (r, u) /\ length u = D /\
    forall a, (a < D)%nat -> nth a u 0 = if (a <? length v)%nat then nth a v 0 else nth a (equilibrium_velocity D S zc compr None f) 0.
Proof.
  intros D S zc compr rho_in v f Hv. assert (L : length (equilibrium_velocity D S zc compr None f) = D) by (apply velocity_length; discriminate).
  exists (match rho_in with Some r => r | None => pdf_density zc f end), (overwrite (equilibrium_velocity D S zc compr None f) v).
  split; [destruct rho_in; reflexivity|]. unfold overwrite. rewrite L, firstn_all2 by exact Hv. split; [rewrite app_length, skipn_length; lia|].
  intros a Ha. destruct (Nat.ltb_spec a (length v)); [now rewrite app_nth1|]. rewrite app_nth2 by lia.
  rewrite <- (firstn_skipn (length v) (equilibrium_velocity D S zc compr None f)) at 2. rewrite app_nth2; rewrite firstn_length, L; [|lia]. f_equal. lia.
Qed.
Print Assumptions C52_given_components.

(* the velocity setter: the mass is kept whatever the rate of the zeroth moment, the momentum moves towards the given velocity
   with the given rate, every other moment towards its equilibrium with the rate of the method *)
Theorem C52_velocity_setter_raw : forall name ord S ws exps ps P Minv Pinv Mpinv zc dev compr eqm fwd bwd d f rate v,
  method_setup name ord S ws exps ps P Minv Pinv Mpinv -> hydro_moments (dimD S) compr dev eqm ->
  raw_transform S exps ps P Minv Pinv Mpinv (background S ws zc dev) fwd bwd ->
  length d = sizeQ S -> length f = sizeQ S -> (dev = true -> zc = true) -> (dimD S <= length v)%nat ->
  exists f', velocity_setter_raw (dimD S) S ps zc compr eqm fwd bwd d rate v f = Ok f' /\ length f' = sizeQ S /\ density f' S = density f S /\
    (forall a, (a < dimD S)%nat -> momentum f' S a = momentum f S a + rate * (carrier compr (mass zc S f) * nth a v 0 - momentum f S a)) /\
    (forall i p, nth_error ps i = Some p -> (forall a, (a < dimD S)%nat -> p <> [(1, unit_exponents (dimD S) a)]) ->
       let m g := poly_moment (radd g (background S ws zc dev)) S (rzero (dimD S)) p in
       m f' = m f + nth i d 0 * (rsum (map (fun t => fst t * eqm (mass zc S f) (firstn (dimD S) v) (snd t)) p) - m f)).
Proof.
  intros name ord S ws exps ps P Minv Pinv Mpinv zc dev compr eqm fwd bwd d f rate v HS He HT Hd Hf Hdz Hv.
  destruct (setup_facts _ _ _ _ _ _ _ _ _ _ HS) as (F1 & F2 & F3). pose proof HS as [H1 H2 H3 H4 H5 H6 H7].
  pose proof (background_ok _ _ _ _ zc dev H1 H2) as HB. pose proof (raw_transform_ok _ _ _ _ _ _ _ _ _ _ _ _ _ HS (proj1 HB) HT) as HT'.
  exact (setter_raw_step (dimD S) (sizeQ S) S ps zc dev compr (background S ws zc dev) d F1 eq_refl F3 Hd Hdz HB H7 rate v Hv eqm fwd bwd f Hf HT' He).
Qed.
Print Assumptions C52_velocity_setter_raw.
Theorem C52_velocity_setter_central : forall name ord S ws exps ps P Minv Pinv Mpinv zc dev compr eqc fwd bwd d f rate v,
  method_setup name ord S ws exps ps P Minv Pinv Mpinv -> hydro_central_moments (dimD S) compr dev eqc ->
  (forall u, length u = dimD S -> central_transform S exps ps P Minv Pinv Mpinv (background S ws zc dev) u (fwd u) (bwd u)) ->
  length d = sizeQ S -> length f = sizeQ S -> (dev = true -> zc = true) -> (dimD S <= length v)%nat ->
  exists f', velocity_setter_central (dimD S) S ps zc compr eqc fwd bwd d rate v f = Ok f' /\ length f' = sizeQ S /\ density f' S = density f S /\
    (forall a, (a < dimD S)%nat -> momentum f' S a = momentum f S a + rate * (carrier compr (mass zc S f) * nth a v 0 - momentum f S a)) /\
    (forall i p, nth_error ps i = Some p -> (forall a, (a < dimD S)%nat -> p <> [(1, unit_exponents (dimD S) a)]) ->
       let m g := poly_moment (radd g (background S ws zc dev)) S (firstn (dimD S) v) p in
       m f' = m f + nth i d 0 * (rsum (map (fun t => fst t * eqc (mass zc S f) (firstn (dimD S) v) (snd t)) p) - m f)).
Proof.
  intros name ord S ws exps ps P Minv Pinv Mpinv zc dev compr eqc fwd bwd d f rate v HS He HT Hd Hf Hdz Hv.
  destruct (setup_facts _ _ _ _ _ _ _ _ _ _ HS) as (F1 & F2 & F3). pose proof HS as [H1 H2 H3 H4 H5 H6 H7].
  pose proof (background_ok _ _ _ _ zc dev H1 H2) as HB.
  assert (HT' : forall u, length u = dimD S -> moment_transform (sizeQ S) S ps (background S ws zc dev) u (fwd u) (bwd u)).
  { intros u Hu. eapply central_transform_ok; eauto. apply HB. }
  exact (setter_central_step (dimD S) (sizeQ S) S ps zc dev compr (background S ws zc dev) d F1 eq_refl F3 Hd Hdz HB H7 rate v Hv eqc fwd bwd f Hf HT' He).
Qed.
Print Assumptions C52_velocity_setter_central.
(* methods that do not relax the velocity components as moments of their own are rejected *)
Theorem C52_setter_rejected : forall D S ps zc compr eq1 eq2 fwd bwd fwd' bwd' d rate v f a,
  (a < D)%nat -> ~ In [(1, unit_exponents D a)] ps ->
  velocity_setter_raw D S ps zc compr eq1 fwd bwd d rate v f = Err AssertionError /\
  velocity_setter_central D S ps zc compr eq2 fwd' bwd' d rate v f = Err AssertionError.
Proof.
  intros D S ps zc compr eq1 eq2 fwd bwd fwd' bwd' d rate v f a Ha Hn. unfold velocity_setter_raw, velocity_setter_central.
  rewrite (first_rates_rejected D ps d rate a Ha Hn). split; reflexivity.
Qed.
Print Assumptions C52_setter_rejected.
(* homogeneous flow, where streaming changes nothing: after t steps the distance to the given momentum has been multiplied by
   (1 - rate)^t, the mass is the initial one *)
Theorem C52_setter_decay : forall name ord S ws exps ps P Minv Pinv Mpinv zc dev compr eqm fwd bwd d f rate v t a,
  method_setup name ord S ws exps ps P Minv Pinv Mpinv -> hydro_moments (dimD S) compr dev eqm ->
  raw_transform S exps ps P Minv Pinv Mpinv (background S ws zc dev) fwd bwd ->
  length d = sizeQ S -> length f = sizeQ S -> (dev = true -> zc = true) -> (dimD S <= length v)%nat -> (a < dimD S)%nat ->
  exists f', repeat_step (velocity_setter_raw (dimD S) S ps zc compr eqm fwd bwd d rate v) t f = Ok f' /\ density f' S = density f S /\
    momentum f' S a - carrier compr (mass zc S f) * nth a v 0 = (1 - rate) ^ t * (momentum f S a - carrier compr (mass zc S f) * nth a v 0).
Proof.
  intros name ord S ws exps ps P Minv Pinv Mpinv zc dev compr eqm fwd bwd d f rate v t a HS He HT Hd Hf Hdz Hv Ha.
  destruct (repeat_step_decay (velocity_setter_raw (dimD S) S ps zc compr eqm fwd bwd d rate v)
              (fun g => length g = sizeQ S /\ density g S = density f S) (fun g => momentum g S a) (carrier compr (mass zc S f) * nth a v 0) rate) with (t := t) (x := f) as (f' & E1 & (E2 & E3) & E4); auto.
  - intros g [Lg Dg]. destruct (C52_velocity_setter_raw _ _ _ _ _ _ _ _ _ _ zc dev compr eqm fwd bwd d g rate v HS He HT Hd Lg Hdz Hv) as (g' & G1 & G2 & G3 & G4 & _).
    exists g'. split; [exact G1|]. split; [split; congruence|]. rewrite (G4 a Ha). unfold mass. now rewrite Dg.
  - exists f'. split; [exact E1|]. split; [exact E3|]. rewrite E4. ring.
Qed.
Print Assumptions C52_setter_decay.

(* ---- the driver ---- *)
(* complete account of one call with positive check_residuum_after c: the k-th check looks at the velocity after k c steps; the
   first check below the threshold or not a number ends the loop *)
Theorem C52_initialisation : forall {P V} (sweep : R -> V -> P -> P) (getter : P -> V) residuum separate rate threshold max_steps (c : nat) (st : lb_state P V),
  (0 < c)%nat -> kernel_rate st = None -> separate = true ->
  let n := Z.to_nat (max_steps / Z.of_nat c) in
  let at_step j := applied (sweep rate (velocity st)) j (pdfs st) in
  let check k := residuum (velocity st) (getter (at_step (k * c)%nat)) in
  forall result st', run_iterative_initialization sweep getter residuum separate rate threshold max_steps (Z.of_nat c) st = (result, st') ->
  backup st' = velocity st /\ kernel_rate st' = Some rate /\
  ((n = 0%nat /\ result = Err AssertionError /\ pdfs st' = pdfs st /\ velocity st' = velocity st) \/
   (exists k r, first_decided threshold check n k /\ check k = Some r /\ r < threshold /\ result = Ok (r, (k * c)%nat) /\
      pdfs st' = at_step (k * c)%nat /\ velocity st' = getter (pdfs st') /\ (Z.of_nat (k * c) <= max_steps)%Z) \/
   (exists k, first_decided threshold check n k /\ check k = None /\ result = Err ValueError /\ pdfs st' = at_step (k * c)%nat /\ velocity st' = velocity st) \/
   ((0 < n)%nat /\ (forall k, (1 <= k <= n)%nat -> undecided threshold (check k)) /\ result = Err ValueError /\
      pdfs st' = at_step (n * c)%nat /\ velocity st' = velocity st)).
Proof.
  intros P V sweep getter residuum separate rate threshold max_steps c st Hc Hk Hs n at_step check result st' E.
  unfold run_iterative_initialization in E. rewrite Hk, Hs in E. destruct (Z.eqb_spec (Z.of_nat c) 0); [lia|]. rewrite Nat2Z.id in E. fold n in E.
  set (st1 := {| pdfs := pdfs st; velocity := velocity st; backup := velocity st; kernel_rate := Some rate |}) in E.
  destruct (outer sweep getter residuum n c rate threshold st1 0 None) as [[st2 steps] last] eqn:Eo.
  apply outer_spec in Eo as [(k & K & -> & -> & ->)|(K & [(N & -> & -> & ->)|(N & -> & -> & ->)])].
  - change (checks sweep getter residuum st1 rate c k) with (check k) in E. change (first_decided threshold check n k) in K.
    destruct (check k) as [r|] eqn:Ek; [destruct (Rlt_dec r threshold)|]; injection E as <- <-; cbn [backup kernel_rate pdfs velocity after].
    + split; [reflexivity|]. split; [reflexivity|]. right. left. exists k, r. do 5 (split; [auto; reflexivity|]). split; [reflexivity|].
      destruct K as [[K1 K2] _]. assert (Hz : (Z.of_nat k <= max_steps / Z.of_nat c)%Z) by (unfold n in K2; lia).
      pose proof (Z.mul_div_le max_steps (Z.of_nat c) ltac:(lia)). nia.
    + exfalso. destruct K as (_ & _ & K3). apply K3. exists r. split; [exact Ek|lra].
    + split; [reflexivity|]. split; [reflexivity|]. right. right. left. exists k. auto.
  - injection E as <- <-. split; [reflexivity|]. split; [reflexivity|]. left. auto.
  - assert (Kn : undecided threshold (check n)) by (apply K; lia). destruct Kn as (x & Ex & Hx).
    change (checks sweep getter residuum st1 rate c n) with (check n) in E. rewrite Ex in E. destruct (Rlt_dec x threshold); [lra|].
    injection E as <- <-. split; [reflexivity|]. split; [reflexivity|]. right. right. right. auto.
Qed.
Print Assumptions C52_initialisation.
(* fewer steps allowed than steps between checks, no steps between checks, first moments not relaxed separately: nothing is run *)
Theorem C52_initialisation_rejected : forall {P V} (sweep : R -> V -> P -> P) (getter : P -> V) residuum separate rate threshold max_steps c (st : lb_state P V),
  ((separate = true /\ (0 < c)%Z /\ (max_steps < c)%Z) \/ (separate = true /\ c = 0%Z) \/ (separate = false /\ kernel_rate st = None)) ->
  exists e st', run_iterative_initialization sweep getter residuum separate rate threshold max_steps c st = (Err e, st') /\
    (e = if separate && (c =? 0)%Z then ZeroDivisionError else AssertionError) /\ pdfs st' = pdfs st /\ velocity st' = velocity st.
Proof.
  intros P V sweep getter residuum separate rate threshold max_steps c st [(-> & Hc & Hm)|[(-> & ->)|(-> & Hk)]]; unfold run_iterative_initialization.
  - replace (Z.to_nat (max_steps / c)) with 0%nat.
    + destruct (Z.eqb_spec c 0); [lia|]. destruct (kernel_rate st); eexists _, _; (split; [reflexivity|]; split; [reflexivity|]; split; reflexivity).
    + assert (max_steps / c < 1)%Z by (apply Z.div_lt_upper_bound; lia). lia.
  - destruct (kernel_rate st); eexists _, _; (split; [reflexivity|]; split; [reflexivity|]; split; reflexivity).
  - rewrite Hk. eexists _, _; (split; [reflexivity|]; split; [reflexivity|]; split; reflexivity).
Qed.
Print Assumptions C52_initialisation_rejected.
(* the relaxation rate of the first call stays in use: later calls behave as if they had been given that rate *)
Theorem C52_rate_of_first_call : forall {P V} (sweep : R -> V -> P -> P) (getter : P -> V) residuum separate rate rate' threshold max_steps c (st : lb_state P V),
  kernel_rate st = Some rate' ->
  run_iterative_initialization sweep getter residuum separate rate threshold max_steps c st =
  run_iterative_initialization sweep getter residuum separate rate' threshold max_steps c st.
Proof. intros P V sweep getter residuum separate rate rate' threshold max_steps c st H. unfold run_iterative_initialization. now rewrite H. Qed.
Print Assumptions C52_rate_of_first_call.
Theorem C52_rate_refuted : exists (sweep : R -> R -> R -> R) getter residuum st rate,
  kernel_rate st <> None /\
  run_iterative_initialization sweep getter residuum true rate 1 1 1 st <>
  run_iterative_initialization sweep getter residuum true rate 1 1 1 {| pdfs := pdfs st; velocity := velocity st; backup := backup st; kernel_rate := None |}.
Proof.
  exists (fun r v p => p + r * (v - p)), (fun p => p), (fun v w => Some 0), {| pdfs := 0; velocity := 1; backup := 0; kernel_rate := Some 1 |}, 2.
  split; [discriminate|]. unfold run_iterative_initialization. cbn [kernel_rate pdfs velocity backup].
  change (1 =? 0)%Z with false. change (Z.to_nat (1 / 1)) with 1%nat. change (Z.to_nat 1) with 1%nat. cbn. destruct (Rlt_dec 0 1) as [H|H]; [|lra]. cbn. destruct (Rlt_dec 0 1); [|lra].
  intros E. apply (f_equal (fun x => pdfs (snd x))) in E. cbn in E. lra.
Qed.
Print Assumptions C52_rate_refuted.
(* the budget need not be used up before the call gives up: only whole rounds are run *)
Theorem C52_budget_refuted : exists (sweep : R -> nat -> nat -> nat) getter residuum (st : lb_state nat nat) max_steps c st',
  (0 < c)%Z /\ run_iterative_initialization sweep getter residuum true 1 1 max_steps c st = (Err ValueError, st') /\
  (Z.of_nat (pdfs st') < Z.of_nat (pdfs st) + max_steps)%Z /\ forall r v p, sweep r v p = Datatypes.S p.
Proof.
  exists (fun _ _ p => Datatypes.S p), (fun p => p), (fun _ _ => Some 1), {| pdfs := 0%nat; velocity := 0%nat; backup := 0%nat; kernel_rate := None |}, 5%Z, 3%Z.
  unfold run_iterative_initialization. cbn [kernel_rate pdfs velocity backup]. change (3 =? 0)%Z with false. change (Z.to_nat (5 / 3)) with 1%nat. change (Z.to_nat 3) with 3%nat.
  cbn. destruct (Rlt_dec 1 1) as [H|H]; [lra|]. eexists. cbn. destruct (Rlt_dec 1 1); [lra|]. split; [lia|]. split; [reflexivity|]. split; [cbn; lia|reflexivity].
Qed.
Print Assumptions C52_budget_refuted.

(* the residuum is the average over the processes if each has one block, and not a number if one of them is not *)
Theorem C52_residuum : forall l : list R, compute_residuum (map (fun x => [Some x]) l) = Some (average l).
Proof.
  intros l. unfold compute_residuum, average. rewrite map_map, map_length.
  assert (H : forall l x, fold_left oplus (map (fun x => local_residuum [Some x]) l) (Some x) = Some (x + rsum l)).
  { clear. induction l as [|y l IH]; intros x; cbn [map fold_left]; [unfold rsum; cbn; f_equal; lra|].
    cbn [local_residuum fold_left oplus]. rewrite IH. rewrite rsum_cons. f_equal. lra. }
  rewrite H. do 3 f_equal. lra.
Qed.
Print Assumptions C52_residuum.
Theorem C52_residuum_nan : forall processes, In None (map local_residuum processes) -> compute_residuum processes = None.
Proof.
  intros ps H. unfold compute_residuum. replace (fold_left oplus (map local_residuum ps) (Some 0)) with (@None R); [reflexivity|].
  assert (N : forall l, fold_left oplus l None = None) by (induction l as [|y l IH]; cbn; auto).
  assert (G : forall l x, In None l -> fold_left oplus l x = None).
  { induction l as [|y l IH]; intros x Hl; [destruct Hl|]. destruct Hl as [->|Hl]; cbn [fold_left]; [|now apply IH]. destruct x; apply N. }
  symmetry. now apply G.
Qed.
Print Assumptions C52_residuum_nan.
(* with several blocks on a process only the last one counts: a residuum of 0 although another block is far off, or not a number *)
Theorem C52_residuum_refuted : forall b : list (option R), compute_residuum [b ++ [Some 0]] = Some 0.
Proof.
  intros b. unfold compute_residuum, local_residuum. cbn [map length]. rewrite fold_left_app. cbn. f_equal. lra.
Qed.
Print Assumptions C52_residuum_refuted.

(* non-vacuity: the D2Q9 method of PropsColl with a given velocity; a call that converges after 2 of at most 3 rounds *)
Example setter_D2Q9 : exists ws Minv P Pinv Mpinv fwd bwd f', method_setup "D2Q9" "walberla" D2Q9_walberla ws exps_D2Q9 (map mono_poly exps_D2Q9) P Minv Pinv Mpinv /\
  velocity_setter_raw 2 D2Q9_walberla (map mono_poly exps_D2Q9) false true (fun rho u => continuous_maxwellian_moment 2 true false rho u (1 / 3))
    fwd bwd (repeat 1 9) 1 [1 / 10; 0] (repeat (2 / 9) 9) = Ok f' /\ momentum f' D2Q9_walberla 0 = 2 / 10.
Proof.
  destruct method_setup_D2Q9 as (ws & Minv & P & Pinv & Mpinv & HS & _).
  destruct (C52_velocity_setter_raw _ _ _ _ _ _ _ _ _ _ false false true (fun rho u => continuous_maxwellian_moment 2 true false rho u (1 / 3))
    _ _ (repeat 1 9) (repeat (2 / 9) 9) 1 [1 / 10; 0] HS (proj1 (C11_equilibria 2 true false (1 / 3))) (raw_by_chimera _ _ _ _ _ _ _ _)) as (f' & E1 & _ & _ & E2 & _); auto.
  eexists ws, Minv, P, Pinv, Mpinv, _, _, f'. split; [exact HS|]. split; [exact E1|]. rewrite (E2 0%nat) by (cbn; lia).
  unfold carrier, mass, momentum, density, fsum, comp. cbn. lra.
Qed.
Example initialisation_converges : exists st', run_iterative_initialization (fun r (v p : R) => p + r * (v - p)) (fun p => p) (fun v w => Some (v - w)) true
  (1 / 2) (1 / 4) 3 1 {| pdfs := 0; velocity := 1; backup := 0; kernel_rate := None |} = (Ok (1 / 8, 3%nat), st').
Proof.
  unfold run_iterative_initialization. cbn [kernel_rate pdfs velocity backup]. change (1 =? 0)%Z with false. change (Z.to_nat (3 / 1)) with 3%nat. change (Z.to_nat 1) with 1%nat. cbn. repeat (destruct (Rlt_dec _ _); [try lra|try lra]; cbn). eexists. match goal with |- (Ok (?x, _), _) = _ => replace x with (1 / 8) by lra end. reflexivity.
Qed.
