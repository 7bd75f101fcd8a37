(* C09 lattice weights, C10 discrete equilibrium. *)
From Coq Require Import String List ZArith Bool Arith QArith Reals Qreals Lra Lia.
From Verif Require Import StencilModel StencilProofs StencilProofs2 RealLib EqModel EqSpec EqProofs.
Import ListNotations.
Local Open Scope R_scope.

(* number of nonzero components of a lattice velocity *)
Definition speed_class (c : vec) : nat := length (filter (fun x => negb (Z.eqb x 0)) c).

Theorem C09_weights : forall name ord S,
  predefined_stencils name ord = Ok S -> In (sizeQ S) [7; 9; 15; 19; 27]%nat ->
  exists ws, get_weights S = Ok ws /\ length ws = length S /\
    Forall (fun w => 0 <= Q2R w) ws /\
    rsum (map Q2R ws) = 1 /\
    (forall i j wi wj ci cj, nth_error ws i = Some wi -> nth_error ws j = Some wj ->
       nth_error S i = Some ci -> nth_error S j = Some cj -> speed_class ci = speed_class cj -> Q2R wi = Q2R wj).
Proof.
  intros name ord S HS Hq.
  assert (HW : has_weights S = true). { unfold has_weights. cbn in Hq |- *. rewrite !orb_true_iff, !Nat.eqb_eq. intuition. }
  destruct (weights_facts name ord S HS HW) as (ws & Hw & Hu & Hn & Hm & Hc). exists ws. split; [exact Hw|].
  pose proof (get_weights_length _ _ Hw) as HL. split; [exact HL|]. split.
  { eapply Forall_impl; [|exact Hn]. intros w H. apply Qle_Rle in H. rewrite RMicromega.Q2R_0 in H. exact H. }
  split.
  { destruct (iso_facts name ord S HS HW) as (ws' & Hw' & _ & _ & Hiso). rewrite Hw in Hw'. injection Hw' as <-.
    specialize (Hiso [] ltac:(cbn; lia) ltac:(intros a [])). cbn [iso] in Hiso. rewrite RMicromega.Q2R_1 in Hiso. rewrite <- Hiso.
    unfold fsum, rprod. cbn [map fold_right]. clear - HL. revert S HL; induction ws as [|w ws IH]; intros [|c S] HL; try discriminate; [reflexivity|].
    cbn [map combine]. rewrite !rsum_cons, <- IH by (injection HL; auto). cbn [fst]. ring. }
  intros i j wi wj ci cj H1 H2 H3 H4 Hs. apply Qeq_eqR. apply (Hc i j wi wj ci cj); try assumption. unfold same_speed. apply Nat.eqb_eq. exact Hs.
Qed.
Print Assumptions C09_weights.

(* all moments of the weights, for every exponent tuple *)
Theorem C09_all_moments : forall name ord S ws e,
  predefined_stencils name ord = Ok S -> get_weights S = Ok ws -> length e = dimD S ->
  (Exists (fun n => Nat.odd n = true) e -> raw_moment (map Q2R ws) S e = 0) /\
  (Forall (fun n => Nat.odd n = false) e ->
     match length (filter (fun n => negb (Nat.eqb n 0)) e) with
     | 0%nat => raw_moment (map Q2R ws) S e = 1
     | 1%nat => raw_moment (map Q2R ws) S e = 1 / 3
     | 2%nat => raw_moment (map Q2R ws) S e = if Nat.eqb (sizeQ S) 7 then 0 else 1 / 9
     | _ => raw_moment (map Q2R ws) S e = if Nat.eqb (sizeQ S) 15 then 1 / 9 else if Nat.eqb (sizeQ S) 27 then 1 / 27 else 0
     end).
Proof.
  intros name ord S ws e HS Hw He.
  assert (HW : has_weights S = true).
  { destruct (has_weights S) eqn:E; [reflexivity|]. destruct S as [|c S]; [discriminate He || (vm_compute in Hw; apply predefined_In in HS; exfalso)|rewrite (weights_rejected (c :: S)) in Hw by (assumption || discriminate); discriminate].
    pose proof table_checked as T. rewrite forallb_forall in T. specialize (T _ HS). cbn in T. discriminate. }
  destruct (weights_facts name ord S HS HW) as (ws' & Hw' & _ & _ & Hm & _). rewrite Hw in Hw'. injection Hw' as <-.
  rewrite (Hm e He). unfold lattice_moment, nonzero_count. split.
  - intros HE. assert (X : existsb Nat.odd e = true) by (apply existsb_exists; apply Exists_exists in HE; exact HE). rewrite X. apply RMicromega.Q2R_0.
  - intros HF. assert (X : existsb Nat.odd e = false).
    { destruct (existsb Nat.odd e) eqn:X; [|reflexivity]. apply existsb_exists in X as (n & H1 & H2). rewrite Forall_forall in HF. rewrite (HF n H1) in H2. discriminate. }
    rewrite X. destruct (length (filter (fun n => negb (Nat.eqb n 0)) e)) as [|[|[|k]]]; [apply RMicromega.Q2R_1|rewrite Q2R_frac; reflexivity|destruct (Nat.eqb (sizeQ S) 7)|destruct (Nat.eqb (sizeQ S) 15), (Nat.eqb (sizeQ S) 27)];
      rewrite ?RMicromega.Q2R_0, ?Q2R_frac; lra.
Qed.
Print Assumptions C09_all_moments.

(* agreement with the Gaussian of variance 1/3 up to the order of the lattice *)
Theorem C09_gaussian_quadrature : forall name ord S ws e,
  predefined_stencils name ord = Ok S -> get_weights S = Ok ws -> length e = dimD S ->
  (fold_right Nat.add 0 e <= if Nat.eqb (sizeQ S) 7 then 3 else 5)%nat ->
  raw_moment (map Q2R ws) S e = gauss_moment e.
Proof.
  intros name ord S ws e HS Hw He Hs.
  assert (HW : has_weights S = true).
  { destruct (has_weights S) eqn:E; [reflexivity|]. destruct S as [|c S]; [apply predefined_In in HS; exfalso|rewrite (weights_rejected (c :: S)) in Hw by (assumption || discriminate); discriminate].
    pose proof table_checked as T. rewrite forallb_forall in T. specialize (T _ HS). cbn in T. discriminate. }
  destruct (weights_facts name ord S HS HW) as (ws' & Hw' & _ & _ & Hm & _). rewrite Hw in Hw'. injection Hw' as <-.
  destruct (iso_facts name ord S HS HW) as (_ & _ & HD & _). rewrite <- He in HD.
  rewrite (Hm e He). destruct (Nat.eqb_spec (sizeQ S) 7) as [E|E]; [rewrite E; apply gauss_lattice7|apply gauss_lattice]; assumption.
Qed.
Print Assumptions C09_gaussian_quadrature.

(* stencils without tabulated weights are rejected, never given wrong weights *)
Theorem C09_rejected : forall S, S <> [] -> ~ In (sizeQ S) [7; 9; 15; 19; 27]%nat -> get_weights S = Err KeyError.
Proof.
  intros S Hne Hn. apply weights_rejected; [exact Hne|]. unfold has_weights. cbn [existsb]. rewrite !orb_false_iff, !Nat.eqb_neq. cbn [In] in Hn. intuition.
Qed.
Print Assumptions C09_rejected.

(* the fourth order isotropy that a Navier-Stokes method needs fails on D3Q7 *)
Theorem C09_d3q7_refuted : exists S ws, predefined_stencils "D3Q7" "walberla" = Ok S /\ get_weights S = Ok ws /\
  raw_moment (map Q2R ws) S [2; 2; 0]%nat <> gauss_moment [2; 2; 0]%nat.
Proof.
  eexists. eexists. split; [reflexivity|]. split; [reflexivity|].
  rewrite raw_moment_Q. intros H. assert (E : (1 # 9 == 0)%Q); [|discriminate E]. apply eqR_Qeq.
  rewrite RMicromega.Q2R_0, Q2R_frac. replace (1 / 9) with (gauss_moment [2; 2; 0]%nat) by (unfold gauss_moment; cbn; lra). rewrite <- H.
  rewrite <- RMicromega.Q2R_0. apply Qeq_eqR. vm_compute. reflexivity.
Qed.
Print Assumptions C09_d3q7_refuted.

(* the order used by the equilibrium: None means 4 *)
Definition eq_order (order : option Z) : Z := match order with Some o => o | None => 4%Z end.

(* The equilibrium exists for every stencil with weights, density and velocity. *)
Theorem C10_defined : forall name ord S compr dev order rho u cs2,
  predefined_stencils name ord = Ok S -> In (sizeQ S) [7; 9; 15; 19; 27]%nat ->
  exists f, hydro_maxwellian S compr dev order rho u cs2 = Ok f /\ length f = length S.
Proof.
  intros name ord S compr dev order rho u cs2 HS Hq. destruct (C09_weights name ord S HS Hq) as (ws & Hw & HL & _).
  assert (HE : exists f, hydro_maxwellian S compr dev order rho u cs2 = Ok f).
  { unfold hydro_maxwellian, discrete_maxwellian_equilibrium. rewrite Hw. cbn [rbind]. destruct dev; eexists; reflexivity. }
  destruct HE as (f & Hf). exists f. split; [exact Hf|]. destruct (hydro_split S ws compr dev order rho u cs2 f Hw Hf) as (_ & _ & _ & H & _). exact H.
Qed.
Print Assumptions C10_defined.

(* [dev] = zero-centred (deviation from the rest state) storage *)
Theorem C10_density : forall name ord S compr dev order rho u f,
  predefined_stencils name ord = Ok S -> hydro_maxwellian S compr dev order rho u (1 / 3) = Ok f ->
  density f S = rho - (if dev then 1 else 0).
Proof. intros. eapply hydro_density; eassumption. Qed.
Print Assumptions C10_density.

Theorem C10_momentum : forall name ord S compr dev order rho u f a,
  predefined_stencils name ord = Ok S -> hydro_maxwellian S compr dev order rho u (1 / 3) = Ok f ->
  (a < dimD S)%nat -> (sizeQ S <> 7%nat \/ (eq_order order <= 2)%Z) ->
  momentum f S a = (if compr then rho else 1) * nth a u 0.
Proof. intros. eapply hydro_momentum; eassumption. Qed.
Print Assumptions C10_momentum.

Theorem C10_euler_stress : forall name ord S compr dev order rho u f a b,
  predefined_stencils name ord = Ok S -> hydro_maxwellian S compr dev order rho u (1 / 3) = Ok f ->
  (a < dimD S)%nat -> (b < dimD S)%nat -> sizeQ S <> 7%nat -> (2 <= eq_order order)%Z ->
  second_moment f S a b = (rho - if dev then 1 else 0) * delta a b / 3 + (if compr then rho else 1) * nth a u 0 * nth b u 0.
Proof. intros. eapply hydro_stress; eassumption. Qed.
Print Assumptions C10_euler_stress.

Theorem C10_linear_stress : forall name ord S compr dev order rho u f a b,
  predefined_stencils name ord = Ok S -> hydro_maxwellian S compr dev order rho u (1 / 3) = Ok f ->
  (a < dimD S)%nat -> (b < dimD S)%nat -> (eq_order order <= 1)%Z ->
  second_moment f S a b = (rho - if dev then 1 else 0) * delta a b / 3.
Proof. intros. eapply hydro_stress1; eassumption. Qed.
Print Assumptions C10_linear_stress.

(* third moment (the one entering the viscous stress) of the second order equilibrium *)
Theorem C10_third_moment : forall name ord S compr dev order rho u f a b c,
  predefined_stencils name ord = Ok S -> hydro_maxwellian S compr dev order rho u (1 / 3) = Ok f ->
  (a < dimD S)%nat -> (b < dimD S)%nat -> (c < dimD S)%nat -> sizeQ S <> 7%nat -> (eq_order order <= 2)%Z ->
  fsum f S (fun v => comp v a * comp v b * comp v c) =
    (if compr then rho else 1) / 3 * (nth a u 0 * delta b c + nth b u 0 * delta a c + nth c u 0 * delta a b).
Proof. intros. eapply hydro_third; eassumption. Qed.
Print Assumptions C10_third_moment.

(* up to second order the discrete and the continuous Maxwellian have the same moments *)
Theorem C10_matches_continuous : forall name ord S compr dev order rho u f e,
  predefined_stencils name ord = Ok S -> hydro_maxwellian S compr dev order rho u (1 / 3) = Ok f ->
  length e = dimD S -> (dimD S <= length u)%nat -> sizeQ S <> 7%nat -> (2 <= eq_order order)%Z ->
  (fold_right Nat.add 0 e <= 2)%nat ->
  raw_moment f S e = continuous_maxwellian_moment (dimD S) compr dev rho u (1 / 3) e.
Proof. intros. eapply hydro_continuous; eassumption. Qed.
Print Assumptions C10_matches_continuous.

(* the background distribution is the lattice weights, whatever the order and speed of sound *)
Theorem C10_background : forall S ws order cs2, get_weights S = Ok ws -> background_distribution S order cs2 = Ok (map Q2R ws).
Proof. intros. apply background_aux. assumption. Qed.
Print Assumptions C10_background.

(* D3Q7 with the default order: the first moment is not the momentum. *)
Theorem C10_d3q7_refuted : exists S f, predefined_stencils "D3Q7" "walberla" = Ok S /\
  hydro_maxwellian S true false None 1 [1; 1; 0] (1 / 3) = Ok f /\ momentum f S 0 = - (1 / 2).
Proof.
  eexists. eexists. split; [reflexivity|]. split; [reflexivity|].
  unfold momentum, fsum, comp, discrete_equilibrium, e_times_u, u_times_u. cbn. unfold Q2R. cbn. field.
Qed.
Print Assumptions C10_d3q7_refuted.

Example C10_non_vacuous : exists S f, predefined_stencils "D2Q9" "walberla" = Ok S /\
  hydro_maxwellian S true false (Some 2%Z) 2 [1/10; 0] (1 / 3) = Ok f /\ sizeQ S <> 7%nat /\
  density f S = 2 /\ momentum f S 0 = 2/10 /\ second_moment f S 0 0 = 2/3 + 2/100.
Proof.
  assert (HS : predefined_stencils "D2Q9" "walberla" = Ok D2Q9_walberla) by reflexivity.
  destruct (C10_defined _ _ _ true false (Some 2%Z) 2 [1/10; 0] (1/3) HS) as (f & Hf & _); [cbn; tauto|].
  exists D2Q9_walberla, f. split; [exact HS|]. split; [exact Hf|]. split; [discriminate|].
  split; [rewrite (C10_density _ _ _ _ _ _ _ _ _ HS Hf); lra|].
  split; [rewrite (C10_momentum _ _ _ _ _ _ _ _ _ 0%nat HS Hf); [cbn; lra|cbn; lia|right; cbn; lia]|].
  rewrite (C10_euler_stress _ _ _ _ _ _ _ _ _ 0%nat 0%nat HS Hf); [unfold delta; cbn; lra|cbn; lia|cbn; lia|discriminate|cbn; lia].
Qed.
