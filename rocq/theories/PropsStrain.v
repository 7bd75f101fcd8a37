(* C71: the strain rate tensor read from the populations. *)
From Coq Require Import String List ZArith Bool Arith QArith Reals Qreals Lra Lia.
From Verif Require Import StencilModel RealLib LinLib LinQ EqModel EqSpec TransModel TransSpec TransProofs CeModel CeSpec CeProofs CeProofs2 CeProofs3 CeProofs4 CeProofs5 StrainModel StrainSpec StrainProofs PropsCe.
Import ListNotations.
Local Open Scope R_scope.

(* one assignment for every entry of the D x D tensor, in order; nothing else is assigned *)
Theorem C71_assignments : forall S eq compr ws rho u f, length f = length eq -> carrier compr rho <> 0 ->
  exists l, strain_rate_tensor_getter S eq compr ws rho u f = Some l /\ map fst l = seq 0 (dimD S * dimD S) /\
  forall a b, (a < dimD S)%nat -> (b < dimD S)%nat -> exists v, stored (dimD S) l a b v /\ stored (dimD S) l b a v.
Proof.
  intros S eq compr ws rho u f L Hr. eexists. split; [exact (getter_is S eq compr ws rho u f Hr L)|]. split; [exact (getter_indices S eq compr ws rho u f Hr _ L (getter_is S eq compr ws rho u f Hr L))|].
  intros a b Ha Hb. eexists. split; [apply (getter_stored S eq compr ws rho u f Hr _ a b _ L Ha Hb (getter_is S eq compr ws rho u f Hr L)); reflexivity|].
  apply (getter_stored S eq compr ws rho u f Hr _ b a _ L Hb Ha (getter_is S eq compr ws rho u f Hr L)). rewrite !moment_value. unfold second_moment. f_equal. f_equal; apply fsum_ext; intros; unfold comp_product; cbn; ring.
Qed.
Print Assumptions C71_assignments.

(* nothing is strained in equilibrium *)
Theorem C71_equilibrium : forall S eq compr ws E l a b v, carrier compr (env_rho E) <> 0 -> (a < dimD S)%nat -> (b < dimD S)%nat ->
  strain_rate_tensor_getter S eq compr ws (env_rho E) (env_u E) (equilibrium_values eq E) = Some l -> stored (dimD S) l a b v -> v = 0.
Proof.
  intros S eq compr ws E l a b v Hr Ha Hb H Hv. assert (L : length (equilibrium_values eq E) = length eq) by (unfold equilibrium_values; apply map_length).
  apply (getter_stored S eq compr ws _ _ _ Hr _ a b v L Ha Hb H) in Hv. rewrite Hv, moment_value. unfold second_moment, equilibrium_values.
  rewrite (fsum_ext _ S (fun c => comp_product c [a; b]) (fun c => comp c a * comp c b)) by (intros; unfold comp_product; cbn; ring). ring.
Qed.
Print Assumptions C71_equilibrium.

(* the stored value for all rates and speeds of sound, before and after the collision *)
Theorem C71_value : forall S ps Minv rates ws wb cs2 compr eq rest E f1 pre, first_order S ps Minv rates ws wb cs2 compr eq rest E f1 ->
  exists l, strain_rate_tensor_getter S eq compr ws (env_rho E) (env_u E) (getter_pdfs pre (pre_collision eq E f1) (post_collision S ps Minv rates eq E f1)) = Some l /\
  forall a b v, (a < dimD S)%nat -> (b < dimD S)%nat -> stored (dimD S) l a b v <->
    let total i j := 3 * cs2 * strain_rate E i j + 3 / (2 * carrier compr (env_rho E)) * dexp_value E (stress_errors (dimD S) compr cs2 rest i j) in
    v = (1 - if pre then 0 else ws) * total a b - delta a b * (1 - ws / wb) / INR (dimD S) * rsum (map (fun c => total c c) (seq 0 (dimD S))).
Proof.
  intros S ps Minv rates ws wb cs2 compr eq rest E f1 pre H. destruct (getter_value S ps Minv rates ws wb cs2 compr eq rest E f1 H pre) as (l & Hl & HV). exists l. split; [exact Hl|]. intros a b v Ha Hb. rewrite (HV a b v Ha Hb). cbv beta zeta.
  pose proof (car_ne S ps Minv rates ws wb cs2 compr eq rest E f1 H) as N. unfold strain_value. match goal with |- v = ?x <-> v = ?y => replace x with y; [reflexivity|] end.
  set (K := 3 / (2 * carrier compr (env_rho E))).
  assert (Q : forall i j, 3 * cs2 * strain_rate E i j + K * dexp_value E (stress_errors (dimD S) compr cs2 rest i j) = K * (cs2 * carrier compr (env_rho E) * (env_gu E i j + env_gu E j i) + dexp_value E (stress_errors (dimD S) compr cs2 rest i j))).
  { intros i j. rewrite Rmult_plus_distr_l. f_equal. unfold K, strain_rate. field. exact N. }
  rewrite (rsum_ext _ (fun c => K * (cs2 * carrier compr (env_rho E) * (env_gu E c c + env_gu E c c) + dexp_value E (stress_errors (dimD S) compr cs2 rest c c)))) by (intros; apply Q). rewrite rsum_scal, Q. ring.
Qed.
Print Assumptions C71_value.

(* populations before the collision, one rate for all second moments, c_s^2 = 1/3: the strain rate up to the error terms of the expansion *)
Theorem C71_strain_rate : forall S ps Minv rates ws compr eq rest E f1, first_order S ps Minv rates ws ws (1 / 3) compr eq rest E f1 ->
  exists l, strain_rate_tensor_getter S eq compr ws (env_rho E) (env_u E) (getter_pdfs true (pre_collision eq E f1) (post_collision S ps Minv rates eq E f1)) = Some l /\
  forall a b v, (a < dimD S)%nat -> (b < dimD S)%nat -> stored (dimD S) l a b v <->
    v = strain_rate E a b + 3 / (2 * carrier compr (env_rho E)) * dexp_value E (stress_errors (dimD S) compr (1 / 3) rest a b).
Proof.
  intros S ps Minv rates ws compr eq rest E f1 H. destruct (C71_value S ps Minv rates ws ws (1 / 3) compr eq rest E f1 true H) as (l & Hl & HV). exists l. split; [exact Hl|]. intros a b v Ha Hb. rewrite (HV a b v Ha Hb). cbv beta zeta.
  replace (ws / ws) with 1 by (field; exact (fo_ws _ _ _ _ _ _ _ _ _ _ _ _ H)). match goal with |- v = ?x <-> v = ?y => replace x with y; [reflexivity|] end. pose proof (car_ne _ _ _ _ _ _ _ _ _ _ _ _ H) as N1. assert (N2 : INR (dimD S) <> 0) by (apply not_0_INR; pose proof (fo_pos _ _ _ _ _ _ _ _ _ _ _ _ H); lia). field. auto.
Qed.
Print Assumptions C71_strain_rate.

(* where the fluid is at rest the error terms of the library equilibria vanish: the strain rate exactly *)
Theorem C71_at_rest : forall S ps Minv rates ws compr eq E f1, first_order S ps Minv rates ws ws (1 / 3) compr eq (fun _ _ _ => []) E f1 -> (forall i, env_u E i = 0) ->
  exists l, strain_rate_tensor_getter S eq compr ws (env_rho E) (env_u E) (getter_pdfs true (pre_collision eq E f1) (post_collision S ps Minv rates eq E f1)) = Some l /\
  forall a b v, (a < dimD S)%nat -> (b < dimD S)%nat -> stored (dimD S) l a b v <-> v = strain_rate E a b.
Proof.
  intros S ps Minv rates ws compr eq E f1 H U. destruct (C71_strain_rate S ps Minv rates ws compr eq _ E f1 H) as (l & Hl & HV). exists l. split; [exact Hl|]. intros a b v Ha Hb. rewrite (HV a b v Ha Hb).
  rewrite (errors_at_rest _ compr (1 / 3) E a b U), Rmult_0_r, Rplus_0_r. reflexivity.
Qed.
Print Assumptions C71_at_rest.

(* the default reads the populations after the collision: the result is the strain rate times 1 - omega *)
Theorem C71_default_refuted : forall S ps Minv rates ws compr eq E f1, first_order S ps Minv rates ws ws (1 / 3) compr eq (fun _ _ _ => []) E f1 -> (forall i, env_u E i = 0) ->
  exists l, strain_rate_tensor_getter S eq compr ws (env_rho E) (env_u E) (getter_pdfs false (pre_collision eq E f1) (post_collision S ps Minv rates eq E f1)) = Some l /\
  forall a b v, (a < dimD S)%nat -> (b < dimD S)%nat -> stored (dimD S) l a b v -> v = (1 - ws) * strain_rate E a b /\ (strain_rate E a b <> 0 -> v <> strain_rate E a b).
Proof.
  intros S ps Minv rates ws compr eq E f1 H U. destruct (C71_value S ps Minv rates ws ws (1 / 3) compr eq _ E f1 false H) as (l & Hl & HV). exists l. split; [exact Hl|]. intros a b v Ha Hb Hv. apply (HV a b v Ha Hb) in Hv. cbv beta zeta in Hv. pose proof (fo_ws _ _ _ _ _ _ _ _ _ _ _ _ H) as N.
  rewrite (errors_at_rest _ compr (1 / 3) E a b U) in Hv. replace (ws / ws) with 1 in Hv by (field; exact N).
  assert (V : v = (1 - ws) * strain_rate E a b) by (rewrite Hv; pose proof (car_ne _ _ _ _ _ _ _ _ _ _ _ _ H) as N1; assert (N2 : INR (dimD S) <> 0) by (apply not_0_INR; pose proof (fo_pos _ _ _ _ _ _ _ _ _ _ _ _ H); lia); field; auto). split; [exact V|]. intros NS Q. rewrite V in Q. assert (Z : ws * strain_rate E a b = 0) by lra. apply Rmult_integral in Z. tauto.
Qed.
Print Assumptions C71_default_refuted.

(* a separate bulk rate: the trace is not the divergence but that times shear rate / bulk rate *)
Theorem C71_bulk_rate_refuted : forall S ps Minv rates ws wb compr eq E f1, first_order S ps Minv rates ws wb (1 / 3) compr eq (fun _ _ _ => []) E f1 -> (forall i, env_u E i = 0) ->
  exists l, strain_rate_tensor_getter S eq compr ws (env_rho E) (env_u E) (getter_pdfs true (pre_collision eq E f1) (post_collision S ps Minv rates eq E f1)) = Some l /\
  forall v, (forall a, (a < dimD S)%nat -> stored (dimD S) l a a (v a)) ->
    rsum (map v (seq 0 (dimD S))) = ws / wb * rsum (map (fun a => strain_rate E a a) (seq 0 (dimD S))).
Proof.
  intros S ps Minv rates ws wb compr eq E f1 H U. destruct (C71_value S ps Minv rates ws wb (1 / 3) compr eq _ E f1 true H) as (l & Hl & HV). exists l. split; [exact Hl|]. intros v Hv. pose proof (fo_wb _ _ _ _ _ _ _ _ _ _ _ _ H) as N.
  assert (ND : INR (dimD S) <> 0) by (apply not_0_INR; pose proof (fo_pos _ _ _ _ _ _ _ _ _ _ _ _ H); lia). set (T := rsum (map (fun a => strain_rate E a a) (seq 0 (dimD S)))).
  rewrite (rsum_ext _ (fun a => strain_rate E a a - (1 - ws / wb) / INR (dimD S) * T)).
  - rewrite rsum_minus, rsum_const, seq_length. fold T. field. auto.
  - intros a Ha. apply in_seq in Ha. assert (Ha' : (a < dimD S)%nat) by lia. pose proof (proj1 (HV a a (v a) Ha' Ha') (Hv a Ha')) as V. cbv beta zeta in V. rewrite V.
    rewrite (errors_at_rest _ compr (1 / 3) E a a U). rewrite (rsum_ext _ (fun c => strain_rate E c c)) by (intros c _; rewrite (errors_at_rest _ compr (1 / 3) E c c U); field; exact (car_ne _ _ _ _ _ _ _ _ _ _ _ _ H)). fold T. unfold delta. rewrite Nat.eqb_refl. field. repeat split; auto. exact (car_ne _ _ _ _ _ _ _ _ _ _ _ _ H).
Qed.
Print Assumptions C71_bulk_rate_refuted.

(* the assignments contain density and velocity as free symbols: with other values of these symbols the same populations give another tensor *)
Theorem C71_free_symbols_refuted : forall S eq compr cs2 rest ws rho u u' f l l' a b v v', hydrodynamic (dimD S) (equilibrium_moment S eq) compr cs2 rest ->
  rho <> 0 -> length f = length eq -> (a < dimD S)%nat -> (b < dimD S)%nat ->
  strain_rate_tensor_getter S eq compr ws rho u f = Some l -> strain_rate_tensor_getter S eq compr ws rho u' f = Some l' ->
  stored (dimD S) l a b v -> stored (dimD S) l' a b v' -> v - v' = 3 / 2 * ws * (u a * u b - u' a * u' b).
Proof.
  intros S eq compr cs2 rest ws rho u u' f l l' a b v v' HY Hr L Ha Hb H H' Hv Hv'. assert (N : carrier compr rho <> 0) by (unfold carrier; destruct compr; [exact Hr|lra]).
  apply (getter_stored S eq compr ws rho u f N _ a b v L Ha Hb H) in Hv. apply (getter_stored S eq compr ws rho u' f N _ a b v' L Ha Hb H') in Hv'. rewrite Hv, Hv', !(hyd_stress _ _ _ _ _ HY) by assumption. field. exact N.
Qed.
Print Assumptions C71_free_symbols_refuted.

(* such states exist: every density, velocity and gradients of both, on D2Q9 with arbitrary non-zero rates *)
Example C71_states : forall wc ws wb wh rho u gu gr, wc <> 0 -> ws <> 0 -> wb <> 0 -> wh <> 0 -> rho <> 0 -> exists wts Minv E f1, get_weights D2Q9_walberla = Ok wts /\
  env_rho E = rho /\ env_u E = u /\ env_gu E = gu /\ env_gr E = gr /\
  first_order D2Q9_walberla two_rate_polys Minv [wc; wc; wc; wb; ws; ws; wh; wh; wh] ws wb (1 / 3) true (quadratic_equilibria 2 D2Q9_walberla (map Q2R wts) (1 / 3) true) (fun _ _ _ => []) E f1.
Proof.
  intros wc ws wb wh rho u gu gr N1 N2 N3 N4 NR. destruct (C68_two_rate_method wc ws wb wh) as (Minv & HI & R0 & R1 & Rm & Rd & Rt).
  assert (HS : predefined_stencils "D2Q9" "walberla" = Ok D2Q9_walberla) by reflexivity. assert (H7 : sizeQ D2Q9_walberla <> 7%nat) by discriminate.
  destruct (get_weights D2Q9_walberla) as [wq|] eqn:Hw; [|discriminate Hw]. pose proof (library_hydro _ _ _ _ true HS Hw H7) as HY.
  set (E0 := {| env_rho := rho; env_u := u; env_gu := gu; env_gr := gr; env_tu := fun _ => 0; env_tr := 0 |}).
  destruct (states D2Q9_walberla two_rate_polys Minv [wc; wc; wc; wb; ws; ws; wh; wh; wh] ws wb (1 / 3) true (quadratic_equilibria 2 D2Q9_walberla (map Q2R wq) (1 / 3) true) (fun _ _ _ => []) E0) as (f1 & H).
  - repeat constructor.
  - reflexivity.
  - reflexivity.
  - exact HI.
  - cbn. lia.
  - exact HY.
  - exact NR.
  - unfold quadratic_equilibria. rewrite map_length, combine_length, map_length. assert (LW : length wq = 9%nat) by (vm_compute in Hw; injection Hw as <-; reflexivity). rewrite LW. reflexivity.
  - intros x Hx. cbn in Hx. repeat (destruct Hx as [<-|Hx]; [assumption|]). destruct Hx.
  - exact N2.
  - exact N3.
  - exists wc. split; [exact N1|exact R0].
  - intros a Ha. exists wc. split; [exact N1|exact (R1 a Ha)].
  - exact Rm.
  - exact Rd.
  - exact Rt.
  - exists wq, Minv, (solved_env 2 (equilibrium_moment D2Q9_walberla (quadratic_equilibria 2 D2Q9_walberla (map Q2R wq) (1 / 3) true)) true E0), f1. do 5 (split; [reflexivity|]). exact H.
Qed.

(* shear flow d u_x / d y = 1 around a point at rest, with all rates 1: the strain rate is 1/2 and read as 1/2 from the populations before and as 0 from those after the collision *)
Example C71_example : exists S ps Minv rates eq E f1 l l', first_order S ps Minv rates 1 1 (1 / 3) true eq (fun _ _ _ => []) E f1 /\ strain_rate E 0 1 = 1 / 2 /\ dimD S = 2%nat /\
  strain_rate_tensor_getter S eq true 1 (env_rho E) (env_u E) (getter_pdfs true (pre_collision eq E f1) (post_collision S ps Minv rates eq E f1)) = Some l /\ stored 2 l 0 1 (1 / 2) /\
  strain_rate_tensor_getter S eq true 1 (env_rho E) (env_u E) (getter_pdfs false (pre_collision eq E f1) (post_collision S ps Minv rates eq E f1)) = Some l' /\ stored 2 l' 0 1 0.
Proof.
  destruct (C71_states 1 1 1 1 1 (fun _ => 0) (fun a b => if Nat.eqb a 0 then if Nat.eqb b 1 then 1 else 0 else 0) (fun _ => 0) R1_neq_R0 R1_neq_R0 R1_neq_R0 R1_neq_R0 R1_neq_R0) as (wts & Minv & E & f1 & _ & HR & HU & HG & _ & H).
  assert (U : forall i, env_u E i = 0) by (intros i; rewrite HU; reflexivity). assert (HE : strain_rate E 0 1 = 1 / 2) by (unfold strain_rate; rewrite HG; cbn; lra).
  destruct (C71_at_rest _ _ _ _ _ _ _ _ _ H U) as (l & Hl & HV). destruct (C71_value _ _ _ _ _ _ _ _ _ _ _ _ false H) as (l' & Hl' & HV').
  do 7 eexists. exists l, l'. split; [exact H|]. split; [exact HE|]. split; [reflexivity|]. assert (L0 : (0 < 2)%nat) by lia. assert (L1 : (1 < 2)%nat) by lia.
  split; [exact Hl|]. split; [apply (HV 0%nat 1%nat _ L0 L1); symmetry; exact HE|]. split; [exact Hl'|]. apply (HV' 0%nat 1%nat _ L0 L1). cbv beta zeta. unfold delta. cbn [Nat.eqb]. unfold Rdiv. ring.
Qed.
