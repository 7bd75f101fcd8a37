(* C17, C18, C34: macroscopic values, partial sums, symbols for rates and forces. *)
From Coq Require Import String List ZArith Bool Arith QArith Qreals Reals Lra Lia.
From Verif Require Import StencilModel StencilProofs StencilProofs2 RealLib LinLib TransSpec TransModel TransProofs TransProofs2 TransProofs3 MomModel EqModel EqSpec PropsEq CumModel CollSpec CollModel CollProofs CollProofs2 CollProofs4 CollProofs5 CollProofs6 PropsTrans PropsColl MacroModel MacroSpec MacroProofs MacroProofs2.
Import ListNotations.
Local Open Scope R_scope.

(* ---- C17 ---- *)
(* the getter reports the physical density, its deviation from 1, the momentum with half of the force, the velocity belonging
   to it, and (zero-centred storage) the second moments of the full distribution f + weights *)
Theorem C17_getter : forall name ord S ws zc compr force f, predefined_stencils name ord = Ok S -> get_weights S = Ok ws ->
  length f = sizeQ S -> force_of_dim (dimD S) force ->
  output_density zc f = physical_density zc S f /\
  output_density_deviation zc f = physical_density zc S f - 1 /\
  (forall a, (a < dimD S)%nat -> nth a (output_momentum_density (dimD S) S force f) 0 = momentum f S a + half_force force a) /\
  (forall i j, (i < dimD S)%nat -> (j < dimD S)%nat ->
     output_second_moment zc (1 / 3) S f i j = second_moment (if zc then radd f (map Q2R ws) else f) S i j) /\
  ((compr = true -> physical_density zc S f <> 0) -> length (output_velocity (dimD S) S zc compr force f) = dimD S /\
     forall a, (a < dimD S)%nat -> nth a (output_velocity (dimD S) S zc compr force f) 0 * (if compr then physical_density zc S f else 1) = momentum f S a + half_force force a).
Proof.
  intros name ord S ws zc compr force f H1 H2 L HF. destruct (weights_isotropic _ _ _ _ H1 H2) as [Hd Hi].
  split; [now apply getter_density|]. split; [now apply getter_deviation|]. split; [intros a Ha; now apply getter_momentum|]. split.
  - intros i j Ia Ja. rewrite (getter_second (dimD S) S (map Q2R ws)) by auto. destruct zc; [|lra]. unfold second_moment. rewrite fsum_radd; [reflexivity|]. destruct Hi as [Lw _]. etransitivity; [exact L|symmetry; exact Lw].
  - intros Hr. assert (HR : reference_density compr (physical_density zc S f) <> 0) by now apply reference_nonzero.
    destruct (getter_velocity (dimD S) S zc compr force f L HF HR) as [LV V]. split; [exact LV|]. intros a Ha. rewrite V by auto. unfold reference_density in *. field. auto.
Qed.
Print Assumptions C17_getter.

(* what "round trip" means: whatever the populations were before, they are set to the same f', from which density, velocity
   and momentum are read back *)
Definition sets_and_reads_back (S : stencil) (zc compr : bool) (force : option (force_model * list R)) (setter : list R -> res (list R)) (rho : R) (u : list R) : Prop :=
  exists f', length f' = sizeQ S /\ (forall f, length f = sizeQ S -> setter f = Ok f') /\
    output_density zc f' = rho /\ output_density_deviation zc f' = rho - 1 /\ output_velocity (dimD S) S zc compr force f' = u /\
    output_momentum_density (dimD S) S force f' = rscal (if compr then rho else 1) u.

Theorem C17_raw_moments_round_trip : forall name ord S ws exps ps P Minv Pinv Mpinv zc dev compr eqm fwd bwd force rho u,
  method_setup name ord S ws exps ps P Minv Pinv Mpinv -> hydro_moments (dimD S) compr dev eqm ->
  raw_transform S exps ps P Minv Pinv Mpinv (background S ws zc dev) fwd bwd -> (dev = true -> zc = true) ->
  length u = dimD S -> force_of_dim (dimD S) force -> (compr = true -> rho <> 0) ->
  sets_and_reads_back S zc compr force (moment_setter (dimD S) S ps compr eqm fwd bwd force rho u) rho u.
Proof.
  intros name ord S ws exps ps P Minv Pinv Mpinv zc dev compr eqm fwd bwd force rho u HS He HT Hdz Lu HF Hr.
  destruct (setup_facts _ _ _ _ _ _ _ _ _ _ HS) as (F1 & F2 & F3). pose proof HS as [H1 H2 H3 H4 H5 H6 H7]. pose proof (background_ok _ _ _ _ zc dev H1 H2) as HB.
  assert (HT' : moment_transform (sizeQ S) S ps (background S ws zc dev) (rzero (dimD S)) fwd bwd) by (eapply raw_transform_ok; eauto; apply HB).
  assert (G : forall f, length f = sizeQ S -> exists f', moment_setter (dimD S) S ps compr eqm fwd bwd force rho u f = Ok f' /\ bwd (equilibrium_values ps (eqm rho (init_velocity (dimD S) compr rho u force))) = Ok f' /\ length f' = sizeQ S /\ has_state (dimD S) S zc compr force f' rho u).
  { intros f Lf. apply (moment_setter_state (dimD S) (sizeQ S) S ps zc dev compr eqm (background S ws zc dev) fwd bwd force rho u f); auto. }
  destruct (G (rzero (sizeQ S)) (rzero_length _)) as (f' & E1 & E2 & E3 & E4). exists f'. split; [exact E3|]. split.
  - intros f Lf. destruct (G f Lf) as (f1 & A1 & A2 & _). congruence.
  - eapply round_trip; eauto.
Qed.
Print Assumptions C17_raw_moments_round_trip.

Theorem C17_central_moments_round_trip : forall name ord S ws exps ps P Minv Pinv Mpinv zc dev compr eqc fwd bwd force rho u,
  method_setup name ord S ws exps ps P Minv Pinv Mpinv -> hydro_central_moments (dimD S) compr dev eqc ->
  (forall v, length v = dimD S -> central_transform S exps ps P Minv Pinv Mpinv (background S ws zc dev) v (fwd v) (bwd v)) -> (dev = true -> zc = true) ->
  length u = dimD S -> force_of_dim (dimD S) force -> (compr = true -> rho <> 0) ->
  sets_and_reads_back S zc compr force (central_setter (dimD S) S ps compr eqc fwd bwd force rho u) rho u.
Proof.
  intros name ord S ws exps ps P Minv Pinv Mpinv zc dev compr eqc fwd bwd force rho u HS He HT Hdz Lu HF Hr.
  destruct (setup_facts _ _ _ _ _ _ _ _ _ _ HS) as (F1 & F2 & F3). pose proof HS as [H1 H2 H3 H4 H5 H6 H7]. pose proof (background_ok _ _ _ _ zc dev H1 H2) as HB.
  assert (HT' : forall v, length v = dimD S -> moment_transform (sizeQ S) S ps (background S ws zc dev) v (fwd v) (bwd v)) by (intros v Hv; eapply central_transform_ok; eauto; apply HB).
  set (v := init_velocity (dimD S) compr rho u force).
  assert (G : forall f, length f = sizeQ S -> exists f', central_setter (dimD S) S ps compr eqc fwd bwd force rho u f = Ok f' /\ bwd v (equilibrium_values ps (eqc rho v)) = Ok f' /\ length f' = sizeQ S /\ has_state (dimD S) S zc compr force f' rho u).
  { intros f Lf. apply (central_setter_state (dimD S) (sizeQ S) S ps zc dev compr eqc (background S ws zc dev) fwd bwd force rho u f); auto. }
  destruct (G (rzero (sizeQ S)) (rzero_length _)) as (f' & E1 & E2 & E3 & E4). exists f'. split; [exact E3|]. split.
  - intros f Lf. destruct (G f Lf) as (f1 & A1 & A2 & _). congruence.
  - eapply round_trip; eauto.
Qed.
Print Assumptions C17_central_moments_round_trip.

Theorem C17_population_form_round_trip : forall name ord S ws exps ps P Minv Pinv Mpinv zc compr eqm force rho u,
  method_setup name ord S ws exps ps P Minv Pinv Mpinv -> hydro_moments (dimD S) compr zc eqm ->
  length u = dimD S -> force_of_dim (dimD S) force -> (compr = true -> rho <> 0) ->
  sets_and_reads_back S zc compr force (population_setter (dimD S) S ps zc zc compr eqm (moment_matrix ps S (rzero (dimD S))) Mpinv force rho u) rho u.
Proof.
  intros name ord S ws exps ps P Minv Pinv Mpinv zc compr eqm force rho u HS He Lu HF Hr.
  destruct (setup_facts _ _ _ _ _ _ _ _ _ _ HS) as (F1 & F2 & F3). pose proof HS as [H1 H2 H3 H4 H5 H6 H7].
  set (M := moment_matrix ps S (rzero (dimD S))).
  assert (HT' : moment_transform (sizeQ S) S ps (rzero (sizeQ S)) (rzero (dimD S)) (fun f => Ok (mv M f)) (fun m => Ok (mv Mpinv m))).
  { apply (transform_intro _ _ _ _ _ Mpinv); auto; [apply rzero_length| |].
    - intros f Lf. unfold M. rewrite mv_moment_matrix. f_equal. replace (radd f (rzero (sizeQ S))) with f; [reflexivity|]. rewrite <- Lf. symmetry. apply radd_zero_r.
    - intros f Lf. cbn [rbind]. f_equal. now apply H6. }
  assert (Hz : zc && negb zc = false) by now destruct zc.
  assert (HB : storage_background (dimD S) (sizeQ S) S zc zc (rzero (sizeQ S))) by now apply zero_storage.
  assert (G : forall f, length f = sizeQ S -> exists f', population_setter (dimD S) S ps zc zc compr eqm M Mpinv force rho u f = Ok f' /\ (fun m => Ok (mv Mpinv m)) (equilibrium_values ps (eqm rho (init_velocity (dimD S) compr rho u force))) = Ok f' /\ length f' = sizeQ S /\ has_state (dimD S) S zc compr force f' rho u).
  { intros f Lf. unfold M. rewrite (population_setter_is (dimD S) (sizeQ S)) by auto. eapply moment_setter_state; eauto. }
  destruct (G (rzero (sizeQ S)) (rzero_length _)) as (f' & E1 & E2 & E3 & E4). exists f'. split; [exact E3|]. split.
  - intros f Lf. destruct (G f Lf) as (f1 & A1 & A2 & _). congruence.
  - eapply round_trip; eauto.
Qed.
Print Assumptions C17_population_form_round_trip.

Theorem C17_cumulants_round_trip : forall name ord S ws cexps cms ps P Minv Pinv Pcms Pcinv Mpinv zc dev eqC fwd bwd force rho u,
  method_setup name ord S ws cms (map mono_poly cms) Pcms Minv Pcinv Mpinv -> length cms = sizeQ S ->
  NoDup cexps -> Forall (fun p : poly => NoDup (map snd p)) ps -> mono_to_poly cexps ps = Ok P -> is_inverse (length cexps) P Pinv ->
  has_conserved_modes (dimD S) ps -> hydro_cumulants (dimD S) eqC ->
  (forall v, length v = dimD S -> central_transform S cms (map mono_poly cms) Pcms Minv Pcinv Mpinv (background S ws zc false) v (fwd v) (bwd v)) ->
  zc && dev = false -> length u = dimD S -> force_of_dim (dimD S) force -> 0 < rho ->
  sets_and_reads_back S zc true force (cumulant_setter (dimD S) S ps zc dev true cexps cms P Pinv eqC fwd bwd force rho u) rho u.
Proof.
  intros name ord S ws cexps cms ps P Minv Pinv Pcms Pcinv Mpinv zc dev eqC fwd bwd force rho u HS Lc Hne Hnp HP HPi Hmodes He HT Hz Lu HF Hr.
  destruct (setup_facts _ _ _ _ _ _ _ _ _ _ HS) as (F1 & F2 & F3). pose proof HS as [H1 H2 H3 H4 H5 H6 [H7 H8]]. pose proof (background_ok _ _ _ _ zc false H1 H2) as HB.
  assert (Hmono : forall e, In [(1, e)] (map mono_poly cms) -> In e cms). { intros e Hin. apply in_map_iff in Hin as (x & E & Hx). now injection E as <-. }
  assert (HT' : forall v, length v = dimD S -> moment_transform (sizeQ S) S (map mono_poly cms) (background S ws zc false) v (fwd v) (bwd v)) by (intros v Hv; eapply central_transform_ok; eauto; apply HB).
  set (v := init_velocity (dimD S) true rho u force).
  assert (G : forall f, length f = sizeQ S -> exists f', cumulant_setter (dimD S) S ps zc dev true cexps cms P Pinv eqC fwd bwd force rho u f = Ok f' /\
    bwd v (cumulant_backward (dimD S) v rho cexps Pinv (equilibrium_values ps (eqC rho v)) cms) = Ok f' /\ length f' = sizeQ S /\ has_state (dimD S) S zc true force f' rho u).
  { intros f Lf. apply (cumulant_setter_state (dimD S) (sizeQ S) S ps zc dev (background S ws zc false)); auto. apply H3. }
  destruct (G (rzero (sizeQ S)) (rzero_length _)) as (f' & E1 & E2 & E3 & E4). exists f'. split; [exact E3|]. split.
  - intros f Lf. destruct (G f Lf) as (f1 & A1 & A2 & _). congruence.
  - eapply round_trip; eauto. intros _. lra.
Qed.
Print Assumptions C17_cumulants_round_trip.
Example C17_D2Q9_Guo : exists ws Mpinv, get_weights D2Q9_walberla = Ok ws /\
  let ps := map mono_poly exps_D2Q9 in let b := map (poly_moment (map Q2R ws) D2Q9_walberla (rzero 2)) ps in
  sets_and_reads_back D2Q9_walberla true true (Some (Guo, [1 / 10; 0]))
    (moment_setter 2 D2Q9_walberla ps true (fun rho u => continuous_maxwellian_moment 2 true false rho u (1 / 3))
       (fun f => Ok (matrix_forward (moment_matrix ps D2Q9_walberla (rzero 2)) b f)) (fun m => Ok (matrix_backward Mpinv b m)) (Some (Guo, [1 / 10; 0])) 2 [1 / 5; 0]) 2 [1 / 5; 0].
Proof.
  destruct method_setup_D2Q9 as (ws & Minv & P & Pinv & Mpinv & HS & _). exists ws, Mpinv. split; [apply HS|]. cbn zeta.
  eapply C17_raw_moments_round_trip with (dev := false); [exact HS|apply continuous_hydro|apply raw_by_matrix|discriminate|reflexivity| |intros _; lra].
  intros fm F [= <- <-]. reflexivity.
Qed.
(* methods for which no equilibrium kernel is generated *)
Theorem C17_rejected_setters : forall D S ps compr eqm M Minv force rho u f cexps cms P Pinv eqC fwd bwd,
  population_setter D S ps true false compr eqm M Minv force rho u f = Err PlainException /\
  cumulant_setter D S ps true true compr cexps cms P Pinv eqC fwd bwd force rho u f = Err AssertionError.
Proof. intros. split; reflexivity. Qed.
Print Assumptions C17_rejected_setters.

(* compile_macroscopic_values_setter accepts ghost_layers and iteration_slice but compiles for the default iteration region *)
Theorem C17_setter_region_refuted : ~ (forall gl sl, setter_config gl sl = getter_config gl sl) /\
  forall gl sl gl' sl', setter_config gl sl = setter_config gl' sl'.
Proof. split; [intros H; discriminate (H 1%nat None)|reflexivity]. Qed.
Print Assumptions C17_setter_region_refuted.

(* ---- C18 ---- *)
Theorem C18_partial_sums : forall (S : stencil) f, length f = sizeQ S -> (forall i, (i < dimD S)%nat -> (2 <= length (momentum_expr S i))%nat) ->
  lin_value f (velo_subexpressions S) (density_expr S) = Some (rsum f) /\
  (forall i, (i < dimD S)%nat -> lin_value f (velo_subexpressions S) (velocity_expr S i) = Some (momentum f S i)) /\
  (forall i j, (i < dimD S)%nat -> (j < dimD S)%nat -> lin_value f (velo_subexpressions S) (second_moment_expr S i j) = Some (second_moment f S i j)).
Proof.
  intros S f L _. split; [now apply density_expr_value|]. split; [intros; now apply velocity_expr_value|intros; now apply second_expr_value].
Qed.
Print Assumptions C18_partial_sums.
(* the shared sums have no population in common and only contain populations moving in the positive direction *)
Theorem C18_shared_sums : forall (S : stencil) i r, nth_error (velo_subexpressions S) i = Some r ->
  NoDup r /\ (forall q, In q r -> nth i (nth q S []) 0%Z = 1%Z) /\
  forall j r' q, nth_error (velo_subexpressions S) j = Some r' -> i <> j -> In q r -> ~ In q r'.
Proof. exact shared_sums. Qed.
Print Assumptions C18_shared_sums.
(* the sums the library shares for D2Q9, D3Q19 and D3Q7 (no simplification for the last) *)
Example C18_D2Q9 : velo_subexpressions D2Q9_walberla = [[4; 6; 8]; [1; 5]]%nat /\
  density_expr D2Q9_walberla = [(1, Pdf 0); (1, Pdf 2); (1, Pdf 3); (1, Pdf 7); (1, Vel 0); (1, Vel 1)]%Z /\
  (forall i, (i < 2)%nat -> (2 <= length (momentum_expr D2Q9_walberla i))%nat).
Proof. split; [vm_compute; reflexivity|]. split; [vm_compute; reflexivity|]. intros [|[|i]] H; [vm_compute; lia..|lia]. Qed.
(* all predefined stencils have at least two velocities along every axis *)
Theorem C18_predefined : forall name ord S f, predefined_stencils name ord = Ok S -> length f = sizeQ S ->
  lin_value f (velo_subexpressions S) (density_expr S) = Some (rsum f) /\
  (forall i, (i < dimD S)%nat -> lin_value f (velo_subexpressions S) (velocity_expr S i) = Some (momentum f S i)).
Proof.
  intros name ord S f HS L. assert (H : forallb (fun t => forallb (fun i => (2 <=? length (momentum_expr (snd t) i))%nat) (seq 0 (dimD (snd t)))) predefined_table = true) by (vm_compute; reflexivity).
  rewrite forallb_forall in H. specialize (H _ (predefined_In _ _ _ HS)). cbn [snd] in H. rewrite forallb_forall in H.
  destruct (C18_partial_sums S f L) as (H1 & H2 & _); [|auto]. intros i Hi. apply Nat.leb_le, H, in_seq. lia.
Qed.
Print Assumptions C18_predefined.

(* ---- C34 ---- *)
Section RatesStatement.
  Variables (K : Type) (keqb : K -> K -> bool) (is_zero : K -> bool) (float_zero : K).
  (* keqb is the equality of dictionary keys; user symbols are not among rr_0, rr_1, ... *)
  Definition no_clash (rates : list (rate K)) : Prop := forall s i, In (RSym s) rates -> s <> rr_symbol i.
End RatesStatement.
Theorem C34_substitution_transparent : forall K keqb is_zero (float_zero : K) rates, (forall a b, keqb a b = true <-> a = b) -> no_clash K rates ->
  let (subs, symbols) := symbolic_rates K keqb is_zero float_zero rates in
  length symbols = length rates /\
  (* assigning the introduced symbols gives back the rates, whatever the values of user symbols and keys are *)
  (forall env val, (forall k, is_zero k = true -> val k = val float_zero) ->
     map (assigned K env val subs) symbols = map (rate_value K env val) rates) /\
  (* user symbols stay as they are *)
  (forall i s, nth_error rates i = Some (RSym s) -> nth_error symbols i = Some s) /\
  (* equal values share a symbol, different ones do not *)
  (forall i j k k' s s', nth_error rates i = Some (RVal k) -> nth_error rates j = Some (RVal k') -> nth_error symbols i = Some s -> nth_error symbols j = Some s' ->
     (s = s' <-> (if is_zero k then float_zero else k) = (if is_zero k' then float_zero else k'))) /\
  (* an introduced symbol is not a user symbol *)
  (forall i j k s s', nth_error rates i = Some (RVal k) -> nth_error rates j = Some (RSym s') -> nth_error symbols i = Some s -> s <> s').
Proof.
  intros K keqb is_zero fz rates Hk Hc. pose proof (symbolic_main K keqb is_zero fz Hk rates) as [HI HF]. destruct (symbolic_rates K keqb is_zero fz rates) as [subs symbols]. cbn [fst snd] in *.
  assert (NTH : forall i r, nth_error rates i = Some r -> exists s, nth_error symbols i = Some s /\ symbol_of K is_zero fz subs r s).
  { clear -HF. induction HF as [|r s rs ss H HF IH]; intros [|i] r' Hr; try discriminate; cbn in *; [injection Hr as <-; eauto|auto]. }
  assert (LEN : length symbols = length rates) by (symmetry; eapply Forall2_length; eauto).
  split; [exact LEN|]. split; [|split; [|split]].
  - intros env val Hv. clear NTH LEN. induction HF as [|r s rs ss H HF IH]; [reflexivity|]. cbn [map]. f_equal; [|apply IH; intros s' i Hin; apply Hc; now right].
    destruct r as [s'|k]; cbn in *.
    + subst s. apply assigned_out; auto. intros i. apply Hc. now left.
    + rewrite (assigned_in K env val subs _ s HI H). unfold norm. destruct (is_zero k) eqn:E; [symmetry; now apply Hv|reflexivity].
  - intros i s Hi. destruct (NTH _ _ Hi) as (s' & A & B). cbn in B. congruence.
  - intros i j k k' s s' Hi Hj Hs Hs'. destruct (NTH _ _ Hi) as (s1 & A & B), (NTH _ _ Hj) as (s2 & A' & B'). cbn in B, B'. rewrite Hs in A. rewrite Hs' in A'. injection A as <-. injection A' as <-.
    fold (norm K is_zero fz k) (norm K is_zero fz k'). split.
    + intros <-. eapply inv_snd; eauto.
    + intros E. rewrite E in B. eapply inv_fst; eauto.
  - intros i j k s s' Hi Hj Hs. destruct (NTH _ _ Hi) as (s1 & A & B). rewrite Hs in A. injection A as <-. cbn in B. destruct HI as [HI _]. apply In_nth_error in B as [m B]. apply HI in B. cbn in B. subst s.
    intros E. apply (Hc s' m); [now apply nth_error_In in Hj|symmetry; exact E].
Qed.
Print Assumptions C34_substitution_transparent.
(* without that hypothesis it fails: a user symbol rr_0 next to a number is overwritten by the number *)
Theorem C34_name_clash_refuted : exists rates : list (rate Q), exists env val,
  let (subs, symbols) := symbolic_rates Q Qeq_bool (fun q => Qeq_bool q 0) 0%Q rates in
  map (assigned Q env val subs) symbols <> map (rate_value Q env val) rates.
Proof.
  exists [RSym "rr_0"%string; RVal (3 # 2)%Q], (fun _ => 1), Q2R. vm_compute symbolic_rates. cbn. unfold assigned. cbn. intros H. injection H as H. unfold Q2R in H. cbn in H. lra.
Qed.
Print Assumptions C34_name_clash_refuted.
Example C34_example : symbolic_rates Z Z.eqb (Z.eqb 0) 0%Z [RVal 0%Z; RSym "omega"%string; RVal 7%Z; RVal 7%Z; RVal 0%Z] =
  ([(0%Z, "rr_0"%string); (7%Z, "rr_1"%string)], ["rr_0"; "omega"; "rr_1"; "rr_1"; "rr_0"]%string).
Proof. reflexivity. Qed.

(* force components: numbers get the symbols F_x, F_y, F_z, symbols are kept.  The kernel sees the user's force unless a
   component is the user symbol F_j while component j is a number *)
Theorem C34_force_symbols : forall force env, (length force <= 3)%nat ->
  (forall i j s v, nth_error force i = Some (FSym s) -> nth_error FORCE_SYMBOLS j = Some s -> nth_error force j <> Some (FNum v)) ->
  map (kernel_force_value env (subs_dict_force force)) (symbolic_force force) = map (entry_value env) force.
Proof.
  intros force env Hl Hc. apply force_values; [exact Hl|]. intros i s Hi j Hj. right. destruct (nth_error force j) as [[s'|v]|] eqn:E; [exists s'; now left| |exists s; now right].
  exfalso. eapply Hc; eauto.
Qed.
Print Assumptions C34_force_symbols.
Theorem C34_force_clash_refuted : exists force env, (length force = 2)%nat /\
  map (kernel_force_value env (subs_dict_force force)) (symbolic_force force) <> map (entry_value env) force.
Proof.
  exists [FSym "F_y"%string; FNum 3], (fun _ => 1). split; [reflexivity|]. unfold kernel_force_value. cbn. intros H. injection H as H. lra.
Qed.
Print Assumptions C34_force_clash_refuted.
Example C34_force_example : symbolic_force [FSym "F_x"%string; FNum 3] = ["F_x"; "F_y"]%string /\ subs_dict_force [FSym "F_x"%string; FNum 3] = [("F_y"%string, FNum 3)].
Proof. split; reflexivity. Qed.
