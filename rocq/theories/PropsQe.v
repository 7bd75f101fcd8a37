(* C67: the generic quadratic equilibrium: its coefficients are found exactly when they exist, and moment constraints mean what they say *)
From Coq Require Import String List ZArith Bool Arith QArith Reals Qreals Lra Lia.
From Verif Require Import StencilModel StencilProofs StencilProofs2 RealLib EqModel EqSpec EqProofs PropsEq CollProofs4 QeModel QeSpec QeProofs QeProofs2 QeProofs3 QeProofs4.
Import ListNotations.
Local Open Scope R_scope.

(* a polynomial for each direction *)
Definition well_formed (D : nat) (S : stencil) (eqs : list upoly) : Prop := (forall d, In d S -> length d = D) /\ (forall p, In p eqs -> in_variables D p).
Lemma pair_ok D S eqs d p : well_formed D S eqs -> In (d, p) (combine S eqs) -> length d = D /\ in_variables D p.
Proof. intros [H1 H2] H. split; [apply H1; eapply in_combine_l; eauto|apply H2; eapply in_combine_r; eauto]. Qed.

(* what is returned is right: every completion of the dictionary gives all equilibria, for all velocities; and it has exactly the symbols of the directions *)
Theorem C67_sound : forall D S eqs r, well_formed D S eqs -> match_ansatz D S eqs = Ok r ->
  (forall g, extends r g -> forall d p, In (d, p) (combine S eqs) -> forall u, length u = D -> ueval p u = quadratic_form g d u) /\
  (forall x s, lookup r (x, s) <> None <-> exists d p, In (d, p) (combine S eqs) /\ s = abs_sum d /\ (In x [LA; LD] \/ exists z, In z d /\ z <> 0%Z)).
Proof.
  intros D S eqs r HW H. destruct (fold_sound D _ _ _ H) as (_ & H2 & H3). split.
  - intros g Hg d p Hin u Hu. destruct (pair_ok _ _ _ _ _ HW Hin) as [Hd Hp]. destruct (H2 d p Hin) as (s & Es & Hs). apply (solve_sound D d p s Hd Hp Es); [|exact Hu]. intros x v Hx. apply Hg, Hs, Hx.
  - assert (RS : forall d, resting d = false <-> exists z, In z d /\ z <> 0%Z).
    { intros d. unfold resting. split.
      - induction d as [|z d IH]; cbn [forallb]; [discriminate|]. destruct (Z.eqb_spec 0 z) as [<-|Hz]; cbn [andb]; intros E; [destruct (IH E) as (y & Hy & Hn); exists y; split; [right; exact Hy|exact Hn]|exists z; split; [left; reflexivity|congruence]].
      - intros (z & Hz & Hn). destruct (forallb (Z.eqb 0) d) eqn:F; [|reflexivity]. rewrite forallb_forall in F. specialize (F z Hz). apply Z.eqb_eq in F. congruence. }
    assert (LT : forall d x, In x (letters d) <-> (In x [LA; LD] \/ exists z, In z d /\ z <> 0%Z)).
    { intros d x. rewrite <- RS. unfold letters. destruct (resting d); destruct x; cbn; intuition congruence. }
    intros x s. split.
    + intros Hl. destruct (lookup r (x, s)) as [v|] eqn:E; [|contradiction]. destruct (H3 _ _ E) as [Hn|(d & p & l & Hin & Es & Hx)]; [discriminate|]. exists d, p. split; [exact Hin|].
      destruct (pair_ok _ _ _ _ _ HW Hin) as [Hd Hp]. destruct (solve_sound D d p l Hd Hp Es) as [Hm _]. apply (in_map fst) in Hx. rewrite Hm in Hx. cbn [fst] in Hx. apply in_map_iff in Hx as (y & Ey & Hy). injection Ey as -> ->. split; [reflexivity|]. apply LT. exact Hy.
    + intros (d & p & Hin & -> & Hx). apply LT in Hx. destruct (pair_ok _ _ _ _ _ HW Hin) as [Hd Hp]. destruct (H2 d p Hin) as (l & Es & Hs). destruct (solve_sound D d p l Hd Hp Es) as [Hm _].
      assert (Hi : In (x, abs_sum d) (map fst l)) by (rewrite Hm; apply in_map_iff; exists x; auto). apply in_map_iff in Hi as ([y v] & Ey & Hy). cbn [fst] in Ey. subst y. rewrite (Hs _ _ Hy). discriminate.
Qed.
Print Assumptions C67_sound.

(* if such coefficients exist they are found *)
Theorem C67_complete : forall D S eqs g, (2 <= D)%nat -> well_formed D S eqs -> (forall d p, In (d, p) (combine S eqs) -> forall u, length u = D -> ueval p u = quadratic_form g d u) ->
  exists r, match_ansatz D S eqs = Ok r /\ extends r g.
Proof.
  intros D S eqs g HD HW H. apply (fold_complete D g HD (combine S eqs)); [|intros x v E; discriminate]. intros d p Hin. destruct (pair_ok _ _ _ _ _ HW Hin). auto.
Qed.
Print Assumptions C67_complete.

(* otherwise ValueError *)
Theorem C67_rejected : forall D S eqs, (2 <= D)%nat -> well_formed D S eqs ->
  (match_ansatz D S eqs = Err ValueError <-> ~ exists g, forall d p, In (d, p) (combine S eqs) -> forall u, length u = D -> ueval p u = quadratic_form g d u).
Proof.
  intros D S eqs HD HW. split.
  - intros E (g & H). destruct (C67_complete D S eqs g HD HW H) as (r & Er & _). congruence.
  - intros H. destruct (match_ansatz D S eqs) as [r|e] eqn:E; [|f_equal; exact (fold_error D _ _ _ E)]. exfalso. apply H.
    exists (fun x => match lookup r x with Some v => v | None => 0 end). apply (proj1 (C67_sound D S eqs r HW E)). intros x v Ex. rewrite Ex. reflexivity.
Qed.
Print Assumptions C67_rejected.

(* the generic equilibrium with coefficients g has the quadratic form, and matching gives the coefficients back *)
Theorem C67_ansatz : forall D S g, (2 <= D)%nat -> (forall d, In d S -> length d = D) ->
  (forall u, length u = D -> map (fun p => ueval p u) (generic_ansatz D S g) = map (fun d => quadratic_form g d u) S) /\ exists r, match_ansatz D S (generic_ansatz D S g) = Ok r /\ extends r g.
Proof.
  intros D S g HD HS. assert (E : forall u, length u = D -> map (fun p => ueval p u) (generic_ansatz D S g) = map (fun d => quadratic_form g d u) S).
  { intros u Hu. unfold generic_ansatz. rewrite map_map. apply map_ext_in. intros d Hd. cbv zeta. rewrite generic_eval by auto. reflexivity. }
  split; [exact E|]. apply C67_complete; [exact HD| |].
  - split; [exact HS|]. intros p Hp. unfold generic_ansatz in Hp. apply in_map_iff in Hp as (d & <- & _). apply generic_variables.
  - intros d p Hin u Hu. symmetry. apply (combine_maps (fun d => quadratic_form g d u) (fun p => ueval p u) S (generic_ansatz D S g)); [symmetry; apply E; exact Hu|exact Hin].
Qed.
Print Assumptions C67_ansatz.

(* the discrete Maxwellian of second order, of every stencil with weights: A = w rho, B = w f / c_s^2, C = w f / (2 c_s^4), D = - w f / (2 c_s^2) with f = rho, or 1 for incompressible methods *)
Theorem C67_maxwellian : forall name ord S ws rho cs2 (compr : bool) eqs, predefined_stencils name ord = Ok S -> get_weights S = Ok ws -> cs2 <> 0 -> well_formed (dimD S) S eqs ->
  (forall u, length u = dimD S -> discrete_maxwellian_equilibrium S rho u 2 cs2 compr = Ok (map (fun p => ueval p u) eqs)) ->
  exists r, match_ansatz (dimD S) S eqs = Ok r /\ forall d w, In (d, w) (combine S ws) -> let f := if compr then rho else 1 in
    lookup r (LA, abs_sum d) = Some (Q2R w * rho) /\ lookup r (LD, abs_sum d) = Some (- (Q2R w * f / (2 * cs2))) /\
    ((exists z, In z d /\ z <> 0%Z) -> lookup r (LB, abs_sum d) = Some (Q2R w * f / cs2) /\ lookup r (LC, abs_sum d) = Some (Q2R w * f / (2 * cs2 ^ 2))).
Proof.
  intros name ord S ws rho cs2 compr eqs HS Hw Hc HW H. set (g := maxwellian_coefficients (sizeQ S) rho cs2 compr).
  assert (HD : (2 <= dimD S)%nat) by (destruct (EqProofs.iso_facts name ord S HS (has_weights_of name ord S ws HS Hw)) as (_ & _ & [E|E] & _); rewrite E; lia).
  assert (E : forall u, length u = dimD S -> map (fun d => quadratic_form g d u) S = map (fun p => ueval p u) eqs).
  { intros u Hu. specialize (H u Hu). rewrite (maxwellian_quadratic S rho cs2 compr ws u Hc Hw Hu) in H. injection H as H. exact H. }
  assert (HQ : forall d p, In (d, p) (combine S eqs) -> forall u, length u = dimD S -> ueval p u = quadratic_form g d u).
  { intros d p Hin u Hu. symmetry. apply (combine_maps (fun d => quadratic_form g d u) (fun p => ueval p u) S eqs (E u Hu) d p Hin). }
  destruct (C67_complete (dimD S) S eqs g HD HW HQ) as (r & Er & Hx). exists r. split; [exact Er|]. intros d w Hdw. cbv zeta.
  assert (Wd : weight_of_speed (sizeQ S) (abs_sum d) = Q2R w).
  { apply weight_speed. clear - Hw Hdw. unfold get_weights in Hw. revert Hw Hdw. generalize (sizeQ S). intros n. revert ws. induction S as [|c S IH]; intros ws Hw Hdw; [destruct Hdw|]. cbn [mapM] in Hw.
    destruct (weight_for_direction n c) eqn:Ec; cbn [rbind] in Hw; [|discriminate]. destruct (mapM (weight_for_direction n) S) eqn:Em; cbn [rbind] in Hw; [|discriminate]. injection Hw as <-. destruct Hdw as [E|Hin]; [injection E as <- <-; exact Ec|eauto]. }
  assert (LE : length S = length eqs) by (specialize (E (repeat 0 (dimD S)) (repeat_length _ _)); apply (f_equal (@length R)) in E; rewrite !map_length in E; exact E).
  assert (Hp : exists p, In (d, p) (combine S eqs)).
  { apply in_combine_l in Hdw. clear - LE Hdw. revert eqs LE. induction S as [|c S IH]; intros eqs LE; [destruct Hdw|]. destruct eqs as [|p eqs]; [discriminate|]. destruct Hdw as [->|Hin]; [exists p; left; reflexivity|]. injection LE as LE. destruct (IH Hin eqs LE) as (q & Hq). exists q. right. exact Hq. }
  destruct Hp as (p & Hp). destruct (C67_sound (dimD S) S eqs r HW Er) as [_ HL].
  assert (V : forall x, (In x [LA; LD] \/ exists z, In z d /\ z <> 0%Z) -> lookup r (x, abs_sum d) = Some (g (x, abs_sum d))).
  { intros x Hl. destruct (lookup r (x, abs_sum d)) as [v|] eqn:El; [rewrite (Hx _ _ El); reflexivity|]. exfalso. apply (proj2 (HL x (abs_sum d))); [|exact El]. exists d, p. auto. }
  rewrite <- Wd. split; [apply V; cbn; auto|]. split; [apply V; cbn; auto|]. intros Hz. split; apply V; auto.
Qed.
Print Assumptions C67_maxwellian.

(* moment constraints: all equations hold exactly when the equilibrium has the desired moments, for all velocities *)
Theorem C67_constraints : forall D S eqs values, well_formed D S eqs -> (forall mv, In mv values -> in_variables D (snd mv)) ->
  ((forall c, In c (moment_constraints S eqs values) -> c = 0) <-> forall m v, In (m, v) values -> forall u, length u = D -> raw_moment (map (fun p => ueval p u) eqs) S m = ueval v u).
Proof. intros D S eqs values [_ He] Hv. apply constraints_spec; assumption. Qed.
Print Assumptions C67_constraints.

(* the values for Navier-Stokes: moments of the continuous Maxwellian with c_s^2 = p / rho, unchanged up to second order *)
Theorem C67_values : forall rho p e u, (fold_right Nat.add 0%nat e <= 2)%nat -> length e = length u -> ueval (hydrodynamic_value rho p e) u = psi_moment rho u (p / rho) e.
Proof. exact hydrodynamic_low. Qed.
Print Assumptions C67_values.

(* the second-order Maxwellian of every stencil with weights except D3Q7 meets all constraints up to third order, with p = rho / 3 *)
Theorem C67_navier_stokes : forall name ord S ws rho eqs moms, predefined_stencils name ord = Ok S -> get_weights S = Ok ws -> sizeQ S <> 7%nat -> rho <> 0 -> well_formed (dimD S) S eqs ->
  (forall u, length u = dimD S -> discrete_maxwellian_equilibrium S rho u 2 (1 / 3) true = Ok (map (fun p => ueval p u) eqs)) ->
  (forall e, In e moms -> length e = dimD S /\ (fold_right Nat.add 0%nat e <= 3)%nat) ->
  forall c, In c (moment_constraints S eqs (map (fun e => (e, hydrodynamic_value rho (rho / 3) e)) moms)) -> c = 0.
Proof.
  intros name ord S ws rho eqs moms HS Hw H7 Hr HW H Hm. apply (C67_constraints (dimD S) S eqs _ HW).
  - intros mv Hin. apply in_map_iff in Hin as (e & <- & He). cbn [snd]. rewrite <- (proj1 (Hm e He)). apply hydrodynamic_variables.
  - intros m v Hin u Hu. apply in_map_iff in Hin as (e & E & He). injection E as <- <-. destruct (Hm e He) as [H1 H2].
    apply (maxwellian_constraints name ord S rho u _ e HS (has_weights_of name ord S ws HS Hw) H7 Hr Hu H1 H2). apply H. exact Hu.
Qed.
Print Assumptions C67_navier_stokes.

(* polynomials as in the last theorems exist for every stencil with weights: the generic equilibrium with the coefficients above *)
Theorem C67_exists : forall name ord S ws rho cs2 compr, predefined_stencils name ord = Ok S -> get_weights S = Ok ws -> cs2 <> 0 ->
  exists eqs, well_formed (dimD S) S eqs /\ length eqs = length S /\ forall u, length u = dimD S -> discrete_maxwellian_equilibrium S rho u 2 cs2 compr = Ok (map (fun p => ueval p u) eqs).
Proof.
  intros name ord S ws rho cs2 compr HS Hw Hc. destruct (predefined_wf name ord S HS) as ((_ & _ & HL & _) & _).
  destruct (EqProofs.iso_facts name ord S HS (has_weights_of name ord S ws HS Hw)) as (_ & _ & HD & _).
  assert (HD2 : (2 <= dimD S)%nat) by (destruct HD as [E|E]; rewrite E; lia).
  exists (generic_ansatz (dimD S) S (maxwellian_coefficients (sizeQ S) rho cs2 compr)). split; [split; [exact HL|]|split].
  - intros p Hp. unfold generic_ansatz in Hp. apply in_map_iff in Hp as (d & <- & _). apply generic_variables.
  - unfold generic_ansatz. apply map_length.
  - intros u Hu. rewrite (maxwellian_quadratic S rho cs2 compr ws u Hc Hw Hu). f_equal. symmetry. apply (proj1 (C67_ansatz (dimD S) S _ HD2 HL)). exact Hu.
Qed.
Print Assumptions C67_exists.

(* a term of third order is not quadratic: ValueError *)
Theorem C67_third_order : forall S eqs, well_formed 2 S eqs -> (exists d p, In (d, p) (combine S eqs) /\ ueval p [2; 0] - 2 * ueval p [1; 0] + 2 * ueval p [-1; 0] - ueval p [-2; 0] <> 0) -> match_ansatz 2 S eqs = Err ValueError.
Proof.
  intros S eqs HW (d & p & Hin & Hn). apply C67_rejected; [lia|exact HW|]. intros (g & Hg). apply Hn. rewrite !(Hg d p Hin) by reflexivity.
  destruct (pair_ok _ _ _ _ _ HW Hin) as [Hd _]. destruct d as [|a [|b [|]]]; try discriminate. unfold quadratic_form, e_times_u, u_times_u. cbn. ring.
Qed.
Print Assumptions C67_third_order.

Example C67_example_D2Q9 : exists S ws, predefined_stencils "D2Q9" "walberla" = Ok S /\ get_weights S = Ok ws /\ sizeQ S = 9%nat /\ In ([1; 1]%Z, (1 # 36)%Q) (combine S ws).
Proof. eexists _, _. split; [reflexivity|]. split; [vm_compute; reflexivity|]. split; [reflexivity|]. cbn. tauto. Qed.
Example C67_example_cubic : match_ansatz 2 [[1; 0]%Z] [[([3; 0]%nat, 1)]] = Err ValueError.
Proof.
  apply C67_third_order.
  - split; [intros d [<-|[]]; reflexivity|intros p [<-|[]] t [<-|[]]; reflexivity].
  - exists [1; 0]%Z, [([3; 0]%nat, 1)]. split; [left; reflexivity|]. unfold ueval. cbn. lra.
Qed.
