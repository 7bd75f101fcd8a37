(* When the check for the Navier-Stokes equations accepts a method. *)
From Coq Require Import List ZArith Bool Arith Reals Lra Lia.
From Verif Require Import StencilModel RealLib LinLib EqSpec TransModel TransSpec CeModel CeSpec CeProofs CeProofs2 CeProofs3 CeProofs5.
Import ListNotations.
Local Open Scope R_scope.

Section Check.
  Variables (D : nat) (eqm : list nat -> epoly) (compr : bool) (cs2 : R) (rest : nat -> nat -> nat -> epoly) (wm wn wb : R).
  Hypothesis HY : hydrodynamic D eqm compr cs2 rest.
  Hypothesis HD : (2 <= D)%nat.
  Let A := 1 / wm - 1 / wn.
  Let B := (1 / wn - 1 / wb) / INR D.
  Lemma coeff_sigma a b k l rho : rho <> 0 -> (a < D)%nat -> (b < D)%nat -> (k < D)%nat ->
    coeff (GU k l) (sigma D eqm wm wn wb a b) rho =
    (1 / 2 - 1 / second_rate wm wn a b) * (cs2 * carrier compr rho * (is_at a b k l + is_at b a k l)) + delta a b * ((1 / second_rate wm wn a b - 1 / wb) / INR D) * (2 * cs2 * carrier compr rho * delta k l).
  Proof. intros. unfold sigma. apply (coeff_stress D eqm compr cs2 rest _ wb HY HD); assumption. Qed.
  Lemma sigma_value E a b : env_rho E <> 0 -> (a < D)%nat -> (b < D)%nat ->
    dexp_value E (sigma D eqm wm wn wb a b) =
    (1 / 2 - 1 / second_rate wm wn a b) * (cs2 * carrier compr (env_rho E) * (env_gu E a b + env_gu E b a)) +
    delta a b * ((1 / second_rate wm wn a b - 1 / wb) / INR D) * (2 * cs2 * carrier compr (env_rho E) * divergence D E).
  Proof. intros. unfold sigma. apply (stress_value D eqm compr cs2 rest _ wb HY HD); assumption. Qed.
  Lemma reference_ok rho : rho <> 0 -> viscosity_reference D eqm wm wn wb rho = - (cs2 * carrier compr rho * (1 / wm - 1 / 2)).
  Proof. intros HR. unfold viscosity_reference. rewrite coeff_sigma by (try exact HR; lia). unfold second_rate, is_at, delta. cbn [Nat.eqb andb]. ring. Qed.

  Lemma pair_ok rho p : rho <> 0 -> In p (axis_pairs D) -> Forall (fun c => c = 0) (pair_conditions D eqm wm wn wb rho p).
  Proof.
    intros HR Hp. destruct p as [i j]. unfold axis_pairs in Hp. apply filter_In in Hp. destruct Hp as (Hp & Hl). apply in_prod_iff in Hp. destruct Hp as (Hi & Hj). apply in_seq in Hi, Hj.
    cbn [fst snd] in Hl. apply Nat.ltb_lt in Hl. assert (N1 : (i =? j)%nat = false) by (apply Nat.eqb_neq; lia). assert (N2 : (j =? i)%nat = false) by (apply Nat.eqb_neq; lia).
    cbn [pair_conditions]. constructor.
    - rewrite reference_ok, coeff_sigma by (try exact HR; lia). unfold second_rate, is_at, delta. rewrite !N1, ?N2, !Nat.eqb_refl. cbn [andb]. ring.
    - rewrite Forall_forall. intros x Hx. apply in_map_iff in Hx. destruct Hx as (k & <- & Hk). apply in_seq in Hk. rewrite coeff_sigma by (try exact HR; lia).
      unfold is_at, delta. rewrite N1. assert (Z1 : (i =? k)%nat && (j =? k)%nat = false).
      { destruct (Nat.eqb_spec i k) as [->|]; [|reflexivity]. cbn [andb]. exact N2. }
      rewrite Z1, andb_comm, Z1. ring.
  Qed.

  (* the environment without the derivatives that are set to 0 *)
  Definition silenced (i j : nat) (E : env) : env :=
    {| env_rho := env_rho E; env_u := env_u E; env_gu := fun a b => if vanishes i j (GU a b) then 0 else env_gu E a b; env_gr := env_gr E; env_tu := env_tu E; env_tr := env_tr E |}.
  Lemma silenced_value i j E p : dexp_value E (filter (fun t : dterm => let '(_, _, l) := t in negb (existsb (vanishes i j) l)) p) = dexp_value (silenced i j E) p.
  Proof.
    induction p as [|[[c k] l] p IH]; [reflexivity|]. cbn [filter].
    assert (HL : existsb (vanishes i j) l = false -> map (sym_value (silenced i j E)) l = map (sym_value E) l).
    { induction l as [|s l IHl]; [reflexivity|]. cbn [existsb map]. intros H. apply orb_false_iff in H. destruct H as (H1 & H2). rewrite (IHl H2). f_equal.
      destruct s as [a|a b|b|a|]; try reflexivity. unfold sym_value, silenced. cbn [env_gu]. rewrite H1. reflexivity. }
    assert (HZ : existsb (vanishes i j) l = true -> fold_right Rmult 1 (map (sym_value (silenced i j E)) l) = 0).
    { clear HL. induction l as [|s l IHl]; [discriminate|]. cbn [existsb map fold_right]. intros H. apply orb_true_iff in H. destruct H as [H|H]; [|rewrite (IHl H); ring].
      destruct s as [a|a b|b|a|]; try discriminate. unfold sym_value at 1, silenced at 1. cbn [env_gu]. rewrite H. ring. }
    unfold dexp_value in *. destruct (existsb (vanishes i j) l) eqn:EX; cbn [negb]; cbn [map].
    - rewrite IH. cbn [rsum fold_right]. unfold dterm_value at 2. rewrite (HZ eq_refl). fold (rsum (map (dterm_value (silenced i j E)) p)). ring.
    - cbn [rsum fold_right]. fold (rsum (map (dterm_value (silenced i j E)) p)).
      match goal with |- _ + fold_right Rplus 0 ?m = _ => change (fold_right Rplus 0 m) with (rsum m) end. rewrite IH. f_equal. unfold dterm_value. rewrite (HL eq_refl). reflexivity.
  Qed.
  Lemma remaining_ok E p : env_rho E <> 0 -> In p (axis_pairs D) -> dexp_value E (remaining D eqm wm wn wb (fst p) (snd p)) = 0.
  Proof.
    intros HR Hp. destruct p as [i j]. unfold axis_pairs in Hp. apply filter_In in Hp. destruct Hp as (Hp & Hl). apply in_prod_iff in Hp. destruct Hp as (Hi & Hj). apply in_seq in Hi, Hj.
    cbn [fst snd] in *. apply Nat.ltb_lt in Hl. unfold remaining. rewrite silenced_value, sigma_value by (cbn [silenced env_rho]; try exact HR; lia).
    unfold silenced. cbn [env_gu env_rho vanishes]. rewrite !Nat.eqb_refl. cbn [andb]. rewrite !orb_true_r. unfold delta. replace (i =? j)%nat with false by (symmetry; apply Nat.eqb_neq; lia). cbn [orb]. ring.
  Qed.

  Lemma bulk_coefficient_ok rho i k l : rho <> 0 -> (i < D)%nat -> (k < D)%nat -> (l < D)%nat ->
    bulk_coefficient D eqm wm wn wb rho i (k, l) = 2 * cs2 * carrier compr rho * (is_at i i k l * A + delta k l * B).
  Proof.
    intros HR Hi Hk Hl. unfold bulk_coefficient. cbn [fst snd]. rewrite reference_ok, coeff_sigma by (try exact HR; lia).
    unfold second_rate, is_at. rewrite Nat.eqb_refl, (Nat.eqb_sym k i), (Nat.eqb_sym l i). unfold A, B. unfold delta at 1. rewrite Nat.eqb_refl.
    destruct ((i =? k)%nat && (i =? l)%nat); unfold Rdiv; ring.
  Qed.
  Lemma occurring_in l x : In x (occurring l) <-> In x l /\ x <> 0.
  Proof. unfold occurring. rewrite filter_In. destruct (Req_EM_T x 0) as [E|N]; split; intros (H1 & H2); split; auto; congruence. Qed.
  Definition raw_candidates rho := flat_map (fun i => occurring (map (bulk_coefficient D eqm wm wn wb rho i) (list_prod (seq 0 D) (seq 0 D)))) (seq 0 D).
  Lemma raw_in rho x : rho <> 0 -> In x (raw_candidates rho) ->
    x <> 0 /\ (x = 2 * cs2 * carrier compr rho * (A + B) \/ x = 2 * cs2 * carrier compr rho * B).
  Proof.
    intros HR Hx. unfold raw_candidates in Hx. apply in_flat_map in Hx. destruct Hx as (i & Hi & Hx). apply occurring_in in Hx. destruct Hx as (Hx & NZ). split; [exact NZ|].
    apply in_map_iff in Hx. destruct Hx as ([k l] & Hx & Hkl). apply in_prod_iff in Hkl. destruct Hkl as (Hk & Hl). apply in_seq in Hi, Hk, Hl. subst x.
    rewrite bulk_coefficient_ok in * by (try exact HR; lia). unfold is_at, delta in *. destruct (Nat.eqb_spec i k) as [E1|N1], (Nat.eqb_spec i l) as [E2|N2]; cbn [andb] in *.
    - rewrite <- E1, <- E2, Nat.eqb_refl in *. left. ring.
    - destruct (Nat.eqb k l); [right; ring|]. exfalso. apply NZ. ring.
    - destruct (Nat.eqb k l); [right; ring|]. exfalso. apply NZ. ring.
    - destruct (Nat.eqb k l); [right; ring|]. exfalso. apply NZ. ring.
  Qed.
  Lemma raw_has rho : rho <> 0 ->
    (2 * cs2 * carrier compr rho * (A + B) <> 0 -> In (2 * cs2 * carrier compr rho * (A + B)) (raw_candidates rho)) /\
    (2 * cs2 * carrier compr rho * B <> 0 -> In (2 * cs2 * carrier compr rho * B) (raw_candidates rho)).
  Proof.
    intros HR. split; intros NZ; unfold raw_candidates; apply in_flat_map; exists 0%nat; (split; [apply in_seq; lia|]); apply occurring_in; (split; [|exact NZ]); apply in_map_iff.
    - exists (0%nat, 0%nat). split; [|apply in_prod; apply in_seq; lia]. rewrite bulk_coefficient_ok by (try exact HR; lia). unfold is_at, delta. cbn [Nat.eqb andb]. ring.
    - exists (1%nat, 1%nat). split; [|apply in_prod; apply in_seq; lia]. rewrite bulk_coefficient_ok by (try exact HR; lia). unfold is_at, delta. cbn [Nat.eqb andb]. ring.
  Qed.
  Lemma conditions_equal rho : Forall (fun c => c = 0) (bulk_conditions D eqm wm wn wb rho) <-> forall x y, In x (bulk_candidates D eqm wm wn wb rho) -> In y (bulk_candidates D eqm wm wn wb rho) -> x = y.
  Proof.
    unfold bulk_conditions. destruct (bulk_candidates D eqm wm wn wb rho) as [|c l]; [split; [intros _ x y []|constructor]|].
    rewrite Forall_forall. split.
    - intros H. assert (HC : forall x, In x (c :: l) -> x = c). { intros x [->|Hx]; [reflexivity|]. specialize (H (c - x) (in_map _ _ _ Hx)). lra. }
      intros x y Hx Hy. rewrite (HC x Hx), (HC y Hy). reflexivity.
    - intros H z Hz. apply in_map_iff in Hz. destruct Hz as (x & <- & Hx). rewrite (H c x (or_introl eq_refl) (or_intror Hx)). ring.
  Qed.
  Lemma bulk_raw rho : bulk_candidates D eqm wm wn wb rho = match raw_candidates rho with [] => [0] | l => l end.
  Proof. reflexivity. Qed.
  Hypothesis Hc : cs2 <> 0.
  Lemma scale_nz rho : rho <> 0 -> 2 * cs2 * carrier compr rho <> 0.
  Proof. intros HR. assert (carrier compr rho <> 0) by (unfold carrier; destruct compr; [exact HR|lra]). repeat apply Rmult_integral_contrapositive_currified; auto; lra. Qed.
  Lemma bulk_ok rho : rho <> 0 -> Forall (fun c => c = 0) (bulk_conditions D eqm wm wn wb rho) <-> A = 0 \/ B = 0 \/ A + B = 0.
  Proof.
    intros HR. rewrite conditions_equal, bulk_raw. pose proof (scale_nz rho HR) as HK. set (K := 2 * cs2 * carrier compr rho) in *. split.
    - intros H. destruct (Req_EM_T B 0) as [HB|HB]; [auto|]. destruct (Req_EM_T (A + B) 0) as [HAB|HAB]; [auto|]. left.
      destruct (raw_has rho HR) as (P1 & P2). fold K in P1, P2. assert (Q1 := P1 (Rmult_integral_contrapositive_currified _ _ HK HAB)). assert (Q2 := P2 (Rmult_integral_contrapositive_currified _ _ HK HB)).
      assert (HE : K * (A + B) = K * B). { apply H; destruct (raw_candidates rho); [destruct Q1| |destruct Q1|]; assumption. }
      apply Rmult_eq_reg_l in HE; [lra|exact HK].
    - intros H x y. pose proof (raw_in rho) as HIN. destruct (raw_candidates rho) as [|c l] eqn:ER; [cbn [In]; intros [<-|[]] [<-|[]]; reflexivity|].
      intros Hx Hy. destruct (HIN x HR Hx) as (Nx & Hx'), (HIN y HR Hy) as (Ny & Hy'). fold K in Hx', Hy'. destruct H as [H|[H|H]].
      + rewrite H, Rplus_0_l in *. destruct Hx' as [->| ->], Hy' as [->| ->]; reflexivity.
      + rewrite H, ?Rmult_0_r in *. destruct Hx' as [->| ->], Hy' as [->| ->]; try reflexivity; exfalso; auto.
      + rewrite H, ?Rmult_0_r in *. destruct Hx' as [->| ->], Hy' as [->| ->]; try reflexivity; exfalso; auto.
  Qed.
  Lemma check_ok : check_accepts D eqm wm wn wb <-> A = 0 \/ B = 0 \/ A + B = 0.
  Proof.
    split.
    - intros H. set (E := {| env_rho := 1; env_u := fun _ => 0; env_gu := fun _ _ => 0; env_gr := fun _ => 0; env_tu := fun _ => 0; env_tr := 0 |}).
      destruct (H E ltac:(cbn; lra)) as (H1 & _). unfold navier_stokes_conditions in H1. inversion H1 as [|? ? _ H2]; subst. apply Forall_app in H2. destruct H2 as (_ & H2).
      apply (bulk_ok 1); [lra|exact H2].
    - intros H E HE. split.
      + unfold navier_stokes_conditions. constructor; [reflexivity|]. apply Forall_app. split; [|apply bulk_ok; assumption].
        rewrite Forall_forall. intros x Hx. apply in_flat_map in Hx. destruct Hx as (p & Hp & Hx). pose proof (pair_ok (env_rho E) p HE Hp) as HF. rewrite Forall_forall in HF. auto.
      + unfold navier_stokes_remaining. rewrite Forall_forall. intros x Hx. apply in_map_iff in Hx. destruct Hx as (p & <- & Hp). apply remaining_ok; assumption.
  Qed.

  (* one derivative only *)
  Lemma divergence_only rho v k l : (k < D)%nat -> divergence D (only rho v k l) = delta k l * v.
  Proof.
    intros Hk. unfold divergence. cbn [only env_gu]. rewrite (rsum_ext _ (fun c => delta k c * (delta k l * v))).
    - apply (delta_sum D k (fun _ => delta k l * v) Hk).
    - intros c _. unfold delta. rewrite (Nat.eqb_sym k c). destruct (Nat.eqb_spec c k) as [->|N]; cbn [andb]; [|ring]. destruct (Nat.eqb k l); ring.
  Qed.
  Lemma newtonian_iff : is_newtonian D eqm wm wn wb <-> A = 0.
  Proof.
    split.
    - intros (mu & zeta & H). pose proof (scale_nz 1 R1_neq_R0) as HK.
      pose proof (H (only 1 1 0 1) 0%nat 1%nat R1_neq_R0 ltac:(lia) ltac:(lia)) as H1. pose proof (H (only 1 1 0 0) 0%nat 0%nat R1_neq_R0 ltac:(lia) ltac:(lia)) as H2.
      pose proof (H (only 1 1 1 1) 0%nat 0%nat R1_neq_R0 ltac:(lia) ltac:(lia)) as H3. rewrite sigma_value in H1, H2, H3 by (try exact R1_neq_R0; lia).
      unfold newtonian_flux in H1, H2, H3. rewrite !divergence_only in H1, H2, H3 by lia. cbn [only env_rho env_gu] in H1, H2, H3. unfold second_rate, delta in H1, H2, H3. cbn [Nat.eqb andb] in H1, H2, H3.
      assert (HP : 2 * cs2 * carrier compr 1 * A = 0).
      { unfold A. set (K := cs2 * carrier compr 1) in *. set (T := (1 / wn - 1 / wb) / INR D * (2 * cs2 * carrier compr 1 * 1)).
        replace (2 * cs2 * carrier compr 1) with (2 * K) by (unfold K; ring). generalize dependent T. intros. lra. }
      apply Rmult_integral in HP. destruct HP as [HP|HP]; [contradiction|exact HP].
    - intros HA. exists (fun r => dynamic_viscosity D eqm wm wb r), (fun r => 2 / 3 * dynamic_viscosity D eqm wm wb r - 2 * cs2 * carrier compr r / INR D * (1 / wm - 1 / wb)).
      intros E a b HE Ha Hb. rewrite <- (newtonian D eqm compr cs2 rest wm wb HY HD E a b HE Ha Hb). rewrite sigma_value by assumption. rewrite (stress_value D eqm compr cs2 rest wm wb HY HD E a b HE Ha Hb).
      unfold second_rate. replace (1 / (if (a =? b)%nat then wn else wm)) with (1 / wm) by (destruct (a =? b)%nat; unfold A in HA; lra). reflexivity.
  Qed.
End Check.
