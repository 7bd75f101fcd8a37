(* C66: coupled phase-field simulations conserve every phase and balance the momentum *)
From Coq Require Import String List ZArith Bool Arith QArith Reals Qreals Lra Lia.
From Verif Require Import StencilModel StencilProofs StencilProofs2 RealLib LinLib LinQ TransSpec TransModel TransProofs TransProofs2 TransProofs3 MomModel EqModel EqSpec PropsEq CumModel CollSpec CollModel CollProofs CollProofs2 CollProofs3 CollProofs4 CollProofs5 CollProofs6 CollProofs7 PropsTrans EqProofs StreamModel GridModel GridProofs ChModel ChSpec ChProofs ChProofs2 PropsColl CoupModel CoupSpec CoupProofs CoupProofs2 CoupProofs3 CoupProofs5.
Import ListNotations.
Local Open Scope R_scope.

(* the methods of the package are such hydrodynamic methods: moment-based collisions with any force model *)
Theorem C66_hydro : forall name ord S ws exps ps P Minv Pinv Mpinv zc dev compr eqm fwd bwd d fm,
  method_setup name ord S ws exps ps P Minv Pinv Mpinv -> hydro_moments (dimD S) compr dev eqm ->
  raw_transform S exps ps P Minv Pinv Mpinv (background S ws zc dev) fwd bwd -> length d = sizeQ S -> (dev = true -> zc = true) -> In fm [Simple; Luo; Guo; He; Buick; EDM; ShanChen] ->
  hydro_method S (fun f => compr = true -> pdf_density zc f <> 0) (fun F => moment_collision (dimD S) S ps zc compr eqm (map Q2R ws) (moment_matrix ps S (rzero (dimD S))) fwd bwd d (Some (fm, F))).
Proof. intros. intros F f HF Hf Hk. eapply C12_raw_moments_impulse; eassumption. Qed.
Print Assumptions C66_hydro.

Section Coupled.
  (* periodic domain, predefined stencil with weights, K order parameters, invertible moment matrix, any kernel for the chemical potentials, any hydrodynamic method
     that keeps mass and adds the force, any output of the velocity *)
  Variables (N : list positive) (name ord : string) (S : stencil) (M Minv : mat) (K : nat).
  Hypothesis stencil_ok : predefined_stencils name ord = Ok S.
  Hypothesis weights_ok : has_weights S = true.
  Hypothesis dimension_ok : length N = dimD S.
  Hypothesis inverse_ok : is_inverse (sizeQ S) M Minv.
  Variables (mu_kernel : (cell (torus N) -> list R) -> cell (torus N) -> list R) (hydro : list R -> list R -> res (list R)) (velocity : list R -> list R -> list R).
  Hypothesis mu_ok : forall phi x, length (mu_kernel phi x) = K.
  Variable ok : list R -> Prop.
  Hypothesis hydro_ok : hydro_method S ok hydro.
  Variables (fd : nat -> list (vec * R)) (om ga : per_phase).

  (* initialisation: works when there is a parameter for every phase; the populations hold the given order parameters *)
  Theorem C66_init : forall rest (phi : cell (torus N) -> list R), covers K ga -> (forall x, length (phi x) = K) -> length rest = sizeQ S ->
    exists st, (forall x, coupled_init S K ga rest phi x = Ok (st x)) /\ (forall x, sized S K (st x)) /\ (forall x, c_phi (st x) = phi x) /\
      (forall x i, (i < K)%nat -> rsum (nth i (c_ch (st x)) []) = nth i (phi x) 0).
  Proof. eapply coupled_init_ok; eassumption. Qed.

  (* a list of parameters without an entry for every phase never gets past the initialisation or the first step *)
  Theorem C66_missing_parameter : forall rest (phi : cell (torus N) -> list R) (st : cell (torus N) -> ph_cell) x c,
    (~ covers K ga -> coupled_init S K ga rest phi x <> Ok c) /\
    (~ covers K om \/ ~ covers K ga -> direct_step S M Minv K mu_kernel hydro velocity fd om ga st x <> Ok c).
  Proof.
    intros rest phi st x c. assert (HM : forall p, ~ covers K p -> exists i, (i < K)%nat /\ of_phase p i = Err IndexError).
    { intros [r|l] Hp; cbn [covers] in Hp; [tauto|]. exists (length l). split; [lia|]. cbn [of_phase]. rewrite (proj2 (nth_error_None l (length l))) by lia. reflexivity. }
    split.
    - intros Hg. destruct (HM ga Hg) as (i & Hi & E). unfold coupled_init. intros H.
      destruct (mapM _ (seq 0 K)) as [l|] eqn:EM in H; [|discriminate]. apply (mapM_seq_nth _ _ _ []) in EM. destruct EM as (_ & EM). specialize (EM i Hi). rewrite E in EM. discriminate.
    - intros Hp. unfold direct_step. intros H. destruct (pulled _ _ x) as [h|] in H; [|discriminate]. cbn [rbind] in H. destruct (hydro _ h) as [h'|] in H; [|discriminate]. cbn [rbind] in H.
      unfold direct_phases in H. destruct (mapM _ (seq 0 K)) as [l|] eqn:EM in H; [|discriminate]. apply (mapM_seq_nth _ _ _ (0, [])) in EM. destruct EM as (_ & EM).
      destruct Hp as [Hp|Hp]; destruct (HM _ Hp) as (i & Hi & E); specialize (EM i Hi); destruct (pulled _ _ x) as [f|] in EM; try discriminate; cbn [rbind] in EM.
      + rewrite E in EM. discriminate.
      + destruct (of_phase om i); [|discriminate]. cbn [rbind] in EM. rewrite E in EM. discriminate.
  Qed.

  Section Direct.
    (* a run of PhaseFieldStepDirect *)
    Variables (phi0 : cell (torus N) -> list R) (rest : list R) (st : nat -> cell (torus N) -> ph_cell).
    Hypothesis params_ok : covers K om /\ covers K ga.
    Hypothesis phi0_ok : forall x, length (phi0 x) = K.
    Hypothesis rest_ok : length rest = sizeQ S.
    Hypothesis init : forall x, coupled_init S K ga rest phi0 x = Ok (st 0%nat x).
    Hypothesis run : forall t x, direct_step S M Minv K mu_kernel hydro velocity fd om ga (st t) x = Ok (st (Datatypes.S t) x).
    Hypothesis fluid_ok : forall t x f, pulled S (fun y => Ok (c_hyd (st t y))) x = Ok f -> ok f.
    (* no error ever occurs: every state the run reaches has a successor *)
    Theorem C66_direct_runs : forall t x, sized S K (st t x) /\ exists c, direct_step S M Minv K mu_kernel hydro velocity fd om ga (st t) x = Ok c.
    Proof. eapply direct_runs; eassumption. Qed.
    (* the amount of every phase is that of the initial order parameters, after every number of steps *)
    Theorem C66_direct_phase : forall t i, (i < K)%nat -> phase_total N i (fun x => c_phi (st t x)) = phase_total N i phi0 /\ stored_total N i (st t) = phase_total N i phi0.
    Proof. eapply direct_phase; eassumption. Qed.
    (* the mass of the fluid is constant, its momentum changes by the total force *)
    Theorem C66_direct_fluid : forall t, fluid_mass N (st t) = fluid_mass N (st 0%nat) /\
      forall a, (a < dimD S)%nat -> fluid_momentum N S a (st (Datatypes.S t)) = fluid_momentum N S a (st t) + total_force N a (st (Datatypes.S t)).
    Proof. eapply direct_fluid; eassumption. Qed.
    (* the sum of all phases moves like one phase whose chemical potential is the weighted sum of all (one relaxation rate for all phases) *)
    Theorem C66_direct_sum : forall omega t x, om = One omega -> exists f g, pulled S (fun y => Ok (all_phases S (st t y))) x = Ok f /\ (forall i, (i < K)%nat -> of_phase ga i = Ok (g i)) /\
      ch_collision S M Minv omega 1 (rsum (map (fun i => g i * nth i (c_mu (st (Datatypes.S t) x)) 0) (seq 0 K))) (c_vel (st (Datatypes.S t) x)) f = Ok (all_phases S (st (Datatypes.S t) x)).
    Proof. eapply direct_sum; eassumption. Qed.
    (* a uniform mixture stays uniform and unchanged, without any force *)
    Theorem C66_direct_uniform : derivative_stencil (dimD S) fd -> (forall phi, (forall x y, phi x = phi y) -> forall x y, mu_kernel phi x = mu_kernel phi y) -> (forall x y, phi0 x = phi0 y) ->
      forall t x, (forall y, st t x = st t y) /\ c_phi (st t x) = phi0 x /\ forall a, nth a (c_force (st t x)) 0 = 0.
    Proof. eapply direct_uniform; eassumption. Qed.
  End Direct.

  Section Tensor.
    Variables (tensor : (cell (torus N) -> list R) -> cell (torus N) -> nat -> nat -> R) (extra : list (nat * list R)).
    Variables (phi0 : cell (torus N) -> list R) (rest : list R) (st : nat -> cell (torus N) -> ph_cell).
    Hypothesis params_ok : covers K om /\ covers K ga.
    Hypothesis phi0_ok : forall x, length (phi0 x) = K.
    Hypothesis rest_ok : length rest = sizeQ S.
    Hypothesis init : forall x, coupled_init S K ga rest phi0 x = Ok (st 0%nat x).
    Hypothesis run : forall t x, tensor_step S M Minv K mu_kernel hydro velocity fd tensor extra om ga (st t) x = Ok (st (Datatypes.S t) x).
    Hypothesis fluid_ok : forall t x, ok (c_hyd (st t x)).
    (* as above *)
    Theorem C66_tensor_runs : forall t x, sized S K (st t x) /\ exists c, tensor_step S M Minv K mu_kernel hydro velocity fd tensor extra om ga (st t) x = Ok c.
    Proof. eapply tensor_runs; eassumption. Qed.
    (* every phase is conserved *)
    Theorem C66_tensor_phase : forall t i, (i < K)%nat -> phase_total N i (fun x => c_phi (st t x)) = phase_total N i phi0 /\ stored_total N i (st t) = phase_total N i phi0.
    Proof. eapply tensor_phase; eassumption. Qed.
    (* the pressure tensor gives no total force: the momentum changes only by the extra forces, a constant amount each step *)
    Theorem C66_tensor_fluid : derivative_stencil (dimD S) fd -> (forall e, In e extra -> (fst e < K)%nat) -> forall t, fluid_mass N (st t) = fluid_mass N (st 0%nat) /\
      forall a, (a < dimD S)%nat -> fluid_momentum N S a (st t) = fluid_momentum N S a (st 0%nat) + INR t * rsum (map (fun e => nth a (snd e) 0 * phase_total N (fst e) phi0) extra).
    Proof. eapply tensor_fluid; eassumption. Qed.
  End Tensor.

  (* one step of the model of Nestler: works, keeps every phase and the mass, adds the force *)
  Theorem C66_nestler_step : forall st : cell (torus N) -> ph_cell, (forall x, sized S K (st x)) -> (forall x, ok (c_hyd (st x))) -> exists mid,
    (forall x, nestler_step S M Minv K mu_kernel hydro velocity fd st x = Ok (mid x)) /\ (forall x, sized S K (mid x)) /\
    (forall i, (i < K)%nat -> phase_total N i (fun x => c_phi (mid x)) = phase_total N i (fun x => c_phi (st x)) /\ stored_total N i mid = phase_total N i (fun x => c_phi (st x))) /\
    fluid_mass N mid = fluid_mass N st /\ (forall a, (a < dimD S)%nat -> fluid_momentum N S a mid = fluid_momentum N S a st + total_force N a mid).
  Proof. eapply nestler_balance; eassumption. Qed.

  Section Nestler.
    Variables (project : (cell (torus N) -> list R) -> cell (torus N) -> list R) (st mid : nat -> cell (torus N) -> ph_cell).
    Hypothesis start_ok : forall x, sized S K (st 0%nat x).
    Hypothesis project_ok : forall phi x, (forall y, length (phi y) = K) -> length (project phi x) = K.
    Hypothesis run : forall t x, nestler_step S M Minv K mu_kernel hydro velocity fd (st t) x = Ok (mid t x) /\ st (Datatypes.S t) x = projected project (mid t) x.
    Hypothesis fluid_ok : forall t x, ok (c_hyd (st t x)).
    (* in a run: the projection is what changes the amounts of the phases *)
    Theorem C66_nestler_run : forall t, (forall x, sized S K (st t x)) /\
      (forall i, (i < K)%nat -> phase_total N i (fun x => c_phi (st (Datatypes.S t) x)) = phase_total N i (fun x => c_phi (st t x)) +
         rsum (map (fun x => nth i (project (fun y => c_phi (mid t y)) x) 0 - nth i (c_phi (mid t x)) 0) (torus_cells N))) /\
      fluid_mass N (st t) = fluid_mass N (st 0%nat) /\ (forall a, (a < dimD S)%nat -> fluid_momentum N S a (st (Datatypes.S t)) = fluid_momentum N S a (st t) + total_force N a (st (Datatypes.S t))).
    Proof. eapply nestler_run_step; eassumption. Qed.
    (* without projection every phase is conserved *)
    Theorem C66_nestler_phase : (forall phi x, project phi x = phi x) -> forall t i, (i < K)%nat -> phase_total N i (fun x => c_phi (st t x)) = phase_total N i (fun x => c_phi (st 0%nat x)).
    Proof. eapply nestler_phase; eassumption. Qed.
  End Nestler.

  (* the runs exist, from every start *)
  Theorem C66_direct_exists : (forall f, ok f) -> covers K om /\ covers K ga -> forall s0 : cell (torus N) -> ph_cell, (forall x, sized S K (s0 x)) ->
    exists st, st 0%nat = s0 /\ forall t x, direct_step S M Minv K mu_kernel hydro velocity fd om ga (st t) x = Ok (st (Datatypes.S t) x).
  Proof. eapply direct_exists; eassumption. Qed.
  (* the runs exist, from every start *)
  Theorem C66_tensor_exists : forall tensor extra, (forall f, ok f) -> covers K om /\ covers K ga -> forall s0 : cell (torus N) -> ph_cell, (forall x, sized S K (s0 x)) ->
    exists st, st 0%nat = s0 /\ forall t x, tensor_step S M Minv K mu_kernel hydro velocity fd tensor extra om ga (st t) x = Ok (st (Datatypes.S t) x).
  Proof. eapply tensor_exists; eassumption. Qed.
End Coupled.

(* the interfacial parts of the chemical potentials of all phases sum to zero: with equal rates the interfaces do not change the sum of the phases *)
Theorem C66_interfacial : forall n alpha eps c lap, rsum (map (interfacial_potential n alpha eps c lap) (seq 0 n)) = 0.
Proof. exact interfacial_total. Qed.
Print Assumptions C66_init.
Print Assumptions C66_missing_parameter.
Print Assumptions C66_direct_runs.
Print Assumptions C66_direct_phase.
Print Assumptions C66_direct_fluid.
Print Assumptions C66_direct_sum.
Print Assumptions C66_direct_uniform.
Print Assumptions C66_tensor_runs.
Print Assumptions C66_tensor_phase.
Print Assumptions C66_tensor_fluid.
Print Assumptions C66_nestler_step.
Print Assumptions C66_nestler_run.
Print Assumptions C66_nestler_phase.
Print Assumptions C66_direct_exists.
Print Assumptions C66_tensor_exists.
Print Assumptions C66_interfacial.

(* non-vacuity: two phases on a periodic 4 x 4 domain with the raw-moment method of D2Q9 with the force model of Guo, central differences, chemical potential equal to the order parameters *)
Definition central_differences (a : nat) : list (vec * R) := match a with O => [([1%Z; 0%Z], 1 / 2); ([(-1)%Z; 0%Z], - (1 / 2))] | _ => [([0%Z; 1%Z], 1 / 2); ([0%Z; (-1)%Z], - (1 / 2))] end.
Example central_differences_ok : derivative_stencil 2 central_differences.
Proof. intros [|[|a]] Ha; [| |exfalso; lia]; (split; [intros ow [<-|[<-|[]]]; reflexivity|unfold rsum; cbn; lra]). Qed.
Example C66_example : exists M Minv hydro st, is_inverse 9 M Minv /\ hydro_method D2Q9_walberla (fun _ => True) hydro /\
  (forall x : cell (torus [4%positive; 4%positive]), coupled_init D2Q9_walberla 2 (One 1) (repeat (1 / 9) 9) (fun x : cell (torus [4%positive; 4%positive]) => [if Z.eqb (nth 0 (proj1_sig x) 0%Z) 0 then 1 else 1 / 3; 1 / 2]) x = Ok (st 0%nat x)) /\
  (forall t x, direct_step (L := torus [4%positive; 4%positive]) D2Q9_walberla M Minv 2 (fun phi x => map (fun i => nth i (phi x) 0) (seq 0 2)) hydro (fun F f => repeat 0 2) central_differences (Each [1; 1 / 2]) (One 1) (st t) x = Ok (st (Datatypes.S t) x)).
Proof.
  destruct method_setup_D2Q9 as (ws & Minv & P & Pinv & Mpinv & HS & _). pose proof HS as [H1 H2 H3 H4 H5 H6 H7].
  set (N := [4%positive; 4%positive]). set (phi0 := fun x : cell (torus N) => [if Z.eqb (nth 0 (proj1_sig x) 0%Z) 0 then 1 else 1 / 3; 1 / 2]).
  set (M := moment_matrix (map mono_poly exps_D2Q9) D2Q9_walberla (rzero 2)). set (b := map (poly_moment (background D2Q9_walberla ws false false) D2Q9_walberla (rzero 2)) (map mono_poly exps_D2Q9)).
  set (hydro := fun F => moment_collision 2 D2Q9_walberla (map mono_poly exps_D2Q9) false false (discrete_raw_moments D2Q9_walberla false false (Some 2%Z)) (map Q2R ws) M
    (fun f => Ok (matrix_forward M b f)) (fun m => Ok (matrix_backward Mpinv b m)) (repeat (3 / 2) 9) (Some (Guo, F))).
  assert (HH : hydro_method D2Q9_walberla (fun _ => True) hydro).
  { intros F f HF Hf _. apply (C66_hydro _ _ _ _ _ _ _ _ _ _ false false false (discrete_raw_moments D2Q9_walberla false false (Some 2%Z)) (fun f => Ok (matrix_forward M b f)) (fun m => Ok (matrix_backward Mpinv b m)) (repeat (3 / 2) 9) Guo HS);
      [|apply raw_by_matrix|reflexivity|discriminate|cbn; tauto|exact HF|exact Hf|discriminate].
    apply (discrete_hydro "D2Q9" "walberla" D2Q9_walberla ws false false (Some 2%Z) H1 H2). right. cbn. lia. }
  assert (W : has_weights D2Q9_walberla = true) by (vm_compute; reflexivity).
  destruct (coupled_init_ok N "D2Q9" "walberla" D2Q9_walberla 2 H1 W eq_refl (One 1) (repeat (1 / 9) 9) phi0 I (fun x => eq_refl) eq_refl) as (s0 & E0 & Hs & _).
  destruct (direct_exists N "D2Q9" "walberla" D2Q9_walberla M Mpinv 2 H1 W eq_refl H6 (fun phi x => map (fun i => nth i (phi x) 0) (seq 0 2)) hydro (fun _ _ => repeat 0 2) (fun _ _ => eq_refl) (fun _ => True) HH
    central_differences (Each [1; 1 / 2]) (One 1) (fun _ => I) (conj (le_n 2) I) s0 Hs) as (st & E & Hr).
  exists M, Mpinv, hydro, st. split; [exact H6|]. split; [exact HH|]. split; [|exact Hr]. rewrite E. exact E0.
Qed.
