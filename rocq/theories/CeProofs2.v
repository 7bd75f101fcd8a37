(* The stress of a hydrodynamic equilibrium, the reported viscosities. *)
From Coq Require Import List ZArith Bool Arith Reals Lra Lia.
From Verif Require Import StencilModel RealLib LinLib EqSpec CeModel CeSpec CeProofs.
Import ListNotations.
Local Open Scope R_scope.

Lemma delta_sum_from n s b X : (s <= b < s + n)%nat -> rsum (map (fun c => delta b c * X c) (seq s n)) = X b.
Proof.
  revert s. induction n as [|n IH]; intros s H; [lia|]. cbn [seq map]. rewrite rsum_cons. destruct (Nat.eq_dec s b) as [->|N].
  - unfold delta at 1. rewrite Nat.eqb_refl. replace (rsum (map (fun c => delta b c * X c) (seq (Datatypes.S b) n))) with 0; [ring|].
    symmetry. rewrite <- (rsum_zero (seq (Datatypes.S b) n)). apply rsum_ext. intros c Hc. apply in_seq in Hc. unfold delta.
    destruct (Nat.eqb_spec b c); [lia|ring].
  - rewrite IH by lia. unfold delta. destruct (Nat.eqb_spec b s); [lia|ring].
Qed.
Lemma delta_sum D b X : (b < D)%nat -> rsum (map (fun c => delta b c * X c) (seq 0 D)) = X b.
Proof. intros H. apply delta_sum_from. lia. Qed.
Lemma delta_sym a b : delta a b = delta b a.
Proof. unfold delta. now rewrite Nat.eqb_sym. Qed.

Section Hydro.
  Variables (D : nat) (eqm : list nat -> epoly) (compr : bool) (cs2 : R) (rest : nat -> nat -> nat -> epoly).
  Hypothesis HY : hydrodynamic D eqm compr cs2 rest.
  Definition kc : nat := if compr then 1%nat else 0%nat.
  Definition q1 (a : nat) : epoly := [(1, kc, [a])].
  Definition q2 (a b : nat) : epoly := [(1, kc, [a; b]); (delta a b * cs2, 1%nat, [])].
  Definition q3 (a b c : nat) : epoly := [(cs2 * delta b c, kc, [a]); (cs2 * delta a c, kc, [b]); (cs2 * delta a b, kc, [c])] ++ rest a b c.
  Lemma carrier_pow rho : rho ^ kc = carrier compr rho.
  Proof. unfold kc, carrier. destruct compr; cbn; ring. Qed.

  Section Point.
    Variables (E : env) (x : target).
    Let r := sym_value E (diff_rho x).
    Let d a := sym_value E (diff_u x a).
    Definition dcar : R := if compr then r else 0.
    Let car := carrier compr (env_rho E).
    Lemma d1_value a : (a < D)%nat -> dexp_value E (diff_poly x (eqm [a])) = dcar * env_u E a + car * d a.
    Proof.
      intros Ha. rewrite (diff_ext E x (eqm [a]) (q1 a)).
      - rewrite diff_poly_value. unfold q1, dcar, car, carrier, kc, r, d. destruct compr; cbn; unfold uprod; cbn; ring.
      - intros rho u. rewrite (hyd_momentum _ _ _ _ _ HY) by exact Ha. unfold q1, epoly_value. cbn. rewrite carrier_pow. ring.
    Qed.
    Lemma d2_value a b : (a < D)%nat -> (b < D)%nat -> dexp_value E (diff_poly x (eqm [a; b])) =
      dcar * env_u E a * env_u E b + car * (d a * env_u E b + env_u E a * d b) + delta a b * cs2 * r.
    Proof.
      intros Ha Hb. rewrite (diff_ext E x (eqm [a; b]) (q2 a b)).
      - rewrite diff_poly_value. unfold q2, dcar, car, carrier, kc, r, d. destruct compr; cbn; unfold uprod; cbn; ring.
      - intros rho u. rewrite (hyd_stress _ _ _ _ _ HY) by assumption. unfold q2, epoly_value. cbn. rewrite carrier_pow. ring.
    Qed.
    Lemma d3_value a b c : (a < D)%nat -> (b < D)%nat -> (c < D)%nat -> dexp_value E (diff_poly x (eqm [a; b; c])) =
      cs2 * (delta b c * (dcar * env_u E a + car * d a) + delta a c * (dcar * env_u E b + car * d b) + delta a b * (dcar * env_u E c + car * d c))
      + dexp_value E (diff_poly x (rest a b c)).
    Proof.
      intros Ha Hb Hc. rewrite (diff_ext E x (eqm [a; b; c]) (q3 a b c)).
      - rewrite (diff_poly_value E x (q3 a b c)), (diff_poly_value E x (rest a b c)). unfold q3. rewrite map_app, rsum_app. f_equal. unfold dcar, car, carrier, kc, r, d.
        destruct compr; cbn; unfold uprod; cbn; ring.
      - intros rho u. rewrite (hyd_third _ _ _ _ _ HY) by assumption. unfold q3. rewrite epoly_app. f_equal. unfold epoly_value. cbn. rewrite carrier_pow. ring.
    Qed.
  End Point.

  (* ---- substitution of the solved time derivatives ---- *)
  Definition solved_env (E : env) : env :=
    {| env_rho := env_rho E; env_u := env_u E; env_gu := env_gu E; env_gr := env_gr E;
       env_tu := fun a => dexp_value E (solved_u D eqm compr a); env_tr := dexp_value E (solved_rho D eqm) |}.
  Lemma solved_sym_value E s : env_rho E <> 0 -> dexp_value E (solved_sym D eqm compr s) = sym_value (solved_env E) s.
  Proof. intros H. destruct s; cbn [solved_sym sym_value solved_env env_tu env_tr env_u env_gu env_gr]; try reflexivity; unfold dexp_value; cbn; ring. Qed.
  Lemma substitute_value E p : env_rho E <> 0 -> dexp_value E (substitute D eqm compr p) = dexp_value (solved_env E) p.
  Proof.
    intros H. unfold substitute. rewrite dexp_flat. apply rsum_ext. intros [[c k] l] _. cbn [substitute_term dterm_value].
    induction l as [|s l IH]; [unfold dexp_value; cbn; ring|]. cbn [fold_right map]. rewrite dmul_value, IH, solved_sym_value by exact H. ring.
  Qed.
  Lemma solved_some E c p : dexp_value (solved_env E) (diff_poly (Some c) p) = dexp_value E (diff_poly (Some c) p).
  Proof.
    rewrite !diff_poly_value. apply rsum_ext. intros [[v k] l] _. unfold dterm_lim.
    assert (HP : dprod (solved_env E) (Some c) l = dprod E (Some c) l).
    { induction l as [|a l IH]; [reflexivity|]. cbn [dprod]. rewrite IH. reflexivity. }
    rewrite HP. reflexivity.
  Qed.

  Section Solve.
    Variable E : env.
    Hypothesis HR : env_rho E <> 0.
    Let rho := env_rho E.
    Let u := env_u E.
    Let gu := env_gu E.
    Let gr := env_gr E.
    Let s1 := rsum (map (fun c => gr c * u c) (seq 0 D)).
    Let s2 := rsum (map (fun c => gu c c) (seq 0 D)).
    Let s3 a := rsum (map (fun c => gu a c * u c) (seq 0 D)).
    Let car := carrier compr rho.
    Let g (b : bool) := if b then 1 else 0.
    Lemma lin3 k1 k2 k3 f1 f2 f3 (l : list nat) : rsum (map (fun c => k1 * f1 c + k2 * f2 c + k3 * f3 c) l) =
      k1 * rsum (map f1 l) + k2 * rsum (map f2 l) + k3 * rsum (map f3 l).
    Proof. rewrite !rsum_plus, !rsum_scal. reflexivity. Qed.
    Lemma solved_rho_value : dexp_value E (solved_rho D eqm) = - ((if compr then 1 else 0) * s1 + car * s2).
    Proof.
      unfold solved_rho. rewrite dneg_value, dexp_flat. f_equal. unfold s1, s2. rewrite <- !rsum_scal, <- rsum_plus. apply rsum_ext.
      intros c Hc. apply in_seq in Hc. rewrite d1_value by lia. unfold dcar, car, carrier. cbn [diff_rho diff_u sym_value]. fold gr gu u rho. destruct compr; ring.
    Qed.
    Lemma flux_value a : (a < D)%nat -> dexp_value E (momentum_flux D eqm a) =
      - ((if compr then 1 else 0) * u a * s1 + car * s3 a + car * u a * s2 + cs2 * gr a).
    Proof.
      intros Ha. unfold momentum_flux. rewrite dneg_value, dexp_flat. f_equal. unfold s1, s2, s3. rewrite <- (delta_sum D a gr Ha). rewrite <- !rsum_scal, <- !rsum_plus. apply rsum_ext.
      intros c Hc. apply in_seq in Hc. rewrite d2_value by lia. unfold dcar, car, carrier. cbn [diff_rho diff_u sym_value]. fold gr gu u rho. destruct compr; ring.
    Qed.
    Lemma solved_u_value a : (a < D)%nat -> car * dexp_value E (solved_u D eqm compr a) =
      if compr then - (rho * s3 a + cs2 * gr a) else - (s3 a + u a * s2 + cs2 * gr a).
    Proof.
      intros Ha. pose proof (flux_value a Ha) as HF. pose proof solved_rho_value as HS. unfold solved_u. unfold car, carrier in *. destruct compr.
      - rewrite dmul_value by exact HR. rewrite dexp_app, dneg_value, dmul_value by exact HR. rewrite HF, HS.
        replace (dexp_value E [(1, (-1)%Z, [])]) with (/ rho) by (unfold dexp_value; cbn; change (Pos.to_nat 1) with 1%nat; cbn [pow]; fold rho; field; exact HR).
        replace (dexp_value E [(1, 0%Z, [SU a])]) with (u a) by (unfold dexp_value; cbn; fold u; ring). field. exact HR.
      - rewrite HF. ring.
    Qed.
    Lemma upsilon_value a b : (a < D)%nat -> (b < D)%nat -> dexp_value E (upsilon D eqm compr a b) =
      cs2 * car * (gu a b + gu b a) + dexp_value E (stress_errors D compr cs2 rest a b).
    Proof.
      intros Ha Hb. unfold upsilon. rewrite substitute_value by exact HR. unfold transport. rewrite dexp_app, dexp_flat.
      rewrite (rsum_ext (fun c => dexp_value (solved_env E) (diff_poly (Some c) (eqm ([a; b] ++ [c])))) (fun c => dexp_value E (diff_poly (Some c) (eqm [a; b; c]))))
        by (intros c _; apply solved_some).
      rewrite d2_value by assumption. cbn [diff_rho diff_u sym_value]. change (env_rho (solved_env E)) with rho. change (env_u (solved_env E)) with u.
      cbn [env_tr env_tu solved_env].
      assert (H3 : rsum (map (fun c => dexp_value E (diff_poly (Some c) (eqm [a; b; c]))) (seq 0 D)) =
        cs2 * ((if compr then 1 else 0) * (gr b * u a + gr a * u b + delta a b * s1) + car * (gu a b + gu b a + delta a b * s2)) +
        dexp_value E (flat_map (fun c => diff_poly (Some c) (rest a b c)) (seq 0 D))).
      { rewrite dexp_flat. unfold s1, s2. 
        rewrite <- (delta_sum D b gr Hb) at 1. rewrite <- (delta_sum D a gr Ha) at 1. rewrite <- (delta_sum D b (gu a) Hb) at 1. rewrite <- (delta_sum D a (gu b) Ha) at 1.
        rewrite <- !rsum_scal_r. rewrite <- !rsum_scal. rewrite <- !rsum_plus. rewrite <- !rsum_scal. rewrite <- !rsum_plus. rewrite <- !rsum_scal. rewrite <- !rsum_plus. apply rsum_ext.
        intros c Hc. apply in_seq in Hc. rewrite d3_value by lia. f_equal. unfold dcar, car, carrier. cbn [diff_rho diff_u sym_value]. fold gr gu u rho. destruct compr; ring. }
      rewrite H3. unfold stress_errors. rewrite dexp_app. fold car.
      pose proof (solved_u_value a Ha) as Ua. pose proof (solved_u_value b Hb) as Ub. pose proof solved_rho_value as UR.
      set (Ta := dexp_value E (solved_u D eqm compr a)) in *. set (Tb := dexp_value E (solved_u D eqm compr b)) in *. rewrite UR.
      set (RE := dexp_value E (flat_map (fun c => diff_poly (Some c) (rest a b c)) (seq 0 D))).
      replace (car * (Ta * u b + u a * Tb)) with (car * Ta * u b + u a * (car * Tb)) by ring. rewrite Ua, Ub.
      unfold dcar, car, carrier in *. cbn [diff_rho sym_value]. destruct compr.
      - rewrite dneg_value, dexp_flat.
        assert (HE : rsum (map (fun c => dexp_value E (diff_poly (Some c) [(1, 1%nat, [a; b; c])])) (seq 0 D)) =
          u a * u b * s1 + rho * u b * s3 a + rho * u a * s3 b + rho * u a * u b * s2).
        { unfold s1, s2, s3. rewrite <- !rsum_scal, <- !rsum_plus. apply rsum_ext. intros c _. rewrite diff_poly_value. cbn. unfold uprod. cbn. fold gr gu u rho. ring. }
        rewrite HE. change (env_tr (solved_env E)) with (dexp_value E (solved_rho D eqm)). rewrite UR. ring.
      - rewrite dneg_value, !dexp_app, !dmul_value, !dexp_flat by exact HR.
        assert (HE : forall i, rsum (map (fun c => dexp_value E (diff_poly (Some c) [(1, 0%nat, [i; c])])) (seq 0 D)) = s3 i + u i * s2).
        { intros i. unfold s2, s3. rewrite <- !rsum_scal, <- !rsum_plus. apply rsum_ext. intros c _. rewrite diff_poly_value. cbn. unfold uprod. cbn. fold gr gu u rho. ring. }
        rewrite !HE.
        replace (dexp_value E [(1, 0%Z, [SU a])]) with (u a) by (unfold dexp_value; cbn; fold u; ring).
        replace (dexp_value E [(1, 0%Z, [SU b])]) with (u b) by (unfold dexp_value; cbn; fold u; ring).
        replace (dexp_value E [(cs2, 0%Z, [SU a; GR b]); (cs2, 0%Z, [SU b; GR a])]) with (cs2 * u a * gr b + cs2 * u b * gr a) by (unfold dexp_value; cbn; fold u gr; ring).
        ring.
    Qed.
  End Solve.
End Hydro.
