(* Exact stress, Newtonian form of the reported stress, first order populations exist. *)
From Coq Require Import List ZArith Bool Arith Reals Lra Lia.
From Verif Require Import StencilModel RealLib LinLib EqSpec TransModel TransSpec TransProofs CeModel CeSpec CeProofs CeProofs2 CeProofs3 CeProofs4.
Import ListNotations.
Local Open Scope R_scope.

Section Exact.
  Variables (D : nat) (eqm : list nat -> epoly) (compr : bool) (cs2 : R) (rest : nat -> nat -> nat -> epoly) (ws wb : R).
  Hypothesis HY : hydrodynamic D eqm compr cs2 rest.
  Lemma exact_stress E a b : env_rho E <> 0 -> (a < D)%nat -> (b < D)%nat ->
    let strain i j := cs2 * carrier compr (env_rho E) * (env_gu E i j + env_gu E j i) + dexp_value E (stress_errors D compr cs2 rest i j) in
    dexp_value E (viscous_stress D eqm ws wb compr a b) =
      - (1 / ws - 1 / 2) * strain a b + delta a b * (1 / ws - 1 / wb) / INR D * rsum (map (fun c => strain c c) (seq 0 D)).
  Proof.
    intros HE Ha Hb strain. rewrite (stress_same D eqm compr cs2 rest ws wb HY a b Ha Hb E HE). unfold vis. rewrite dexp_app, dscale_value.
    assert (HU : forall i j, dexp_value E (ups D compr cs2 rest i j) = strain i j).
    { intros i j. unfold ups. rewrite dexp_app, (strain_value D eqm compr cs2 rest HY). reflexivity. }
    rewrite HU. unfold delta. destruct (Nat.eqb a b).
    - rewrite dscale_value, dexp_flat. rewrite (rsum_ext _ (fun c => strain c c)) by (intros; apply HU). unfold Rdiv. ring.
    - change (dexp_value E []) with 0. unfold Rdiv. ring.
  Qed.
  Hypothesis HD : (2 <= D)%nat.
  Lemma newtonian E a b : env_rho E <> 0 -> (a < D)%nat -> (b < D)%nat ->
    dexp_value E (stress_without_errors D eqm ws wb a b) =
    newtonian_flux D (dynamic_viscosity D eqm ws wb (env_rho E))
      (2 / 3 * dynamic_viscosity D eqm ws wb (env_rho E) - 2 * cs2 * carrier compr (env_rho E) / INR D * (1 / ws - 1 / wb)) E a b.
  Proof.
    intros HE Ha Hb. rewrite (stress_value D eqm compr cs2 rest ws wb HY HD E a b HE Ha Hb). rewrite (dynamic_ok D eqm compr cs2 rest ws wb HY HD _ HE). unfold newtonian_flux.
    unfold Rdiv. ring.
  Qed.
  (* the bulk viscosity of a stress is determined *)
  Lemma bulk_unique mu zeta zeta' rho : (forall E, env_rho E = rho -> newtonian_flux D mu zeta E 0 0 = newtonian_flux D mu zeta' E 0 0) -> zeta = zeta'.
  Proof.
    intros H. specialize (H (only rho 1 0 0) eq_refl). unfold newtonian_flux in H.
    assert (HV : divergence D (only rho 1 0 0) = 1).
    { unfold divergence. cbn [only env_gu]. rewrite (rsum_ext _ (fun c => delta 0 c * 1)).
      - apply (delta_sum D 0 (fun _ => 1)). lia.
      - intros c _. unfold delta. rewrite (Nat.eqb_sym 0 c). destruct (Nat.eqb c 0); cbn [andb]; ring. }
    rewrite HV in H. unfold delta in H. cbn in H. lra.
  Qed.
End Exact.

Lemma map_opp_mul (r m : list R) : length r = length m -> (forall x, In x r -> x <> 0) ->
  map Ropp (rmul r (map (fun p => - snd p / fst p) (combine r m))) = m.
Proof.
  unfold rmul. revert m. induction r as [|x r IH]; intros [|y m] L H; try discriminate; [reflexivity|]. cbn [combine map fst snd]. rewrite IH; [|cbn in L; lia|intros z Hz; apply H; now right].
  f_equal. field. apply H. now left.
Qed.
Lemma first_order_exists n M Minv rates T : is_inverse n M Minv -> length rates = n -> length T = n -> (forall x, In x rates -> x <> 0) ->
  exists f1, length f1 = n /\ collision_operator M Minv rates f1 = T.
Proof.
  intros HI Lr LT Hx. set (m := mv M T). assert (Lm : length m = n) by (unfold m; rewrite mv_length; destruct HI as ([L _] & _); exact L).
  set (v := map (fun p : R * R => - snd p / fst p) (combine rates m)). assert (Lv : length v = n) by (unfold v; rewrite map_length, combine_length; lia).
  exists (mv Minv v). split; [rewrite mv_length; destruct HI as (_ & [L _] & _); exact L|].
  unfold collision_operator. destruct HI as (_ & _ & H1 & H2). rewrite H1 by exact Lv. unfold v. rewrite map_opp_mul by (try lia; exact Hx). unfold m. apply H2. exact LT.
Qed.
