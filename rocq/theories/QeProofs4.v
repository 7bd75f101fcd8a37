From Coq Require Import String List ZArith Bool Arith QArith Reals Qreals Lra Lia.
From Verif Require Import StencilModel StencilProofs StencilProofs2 RealLib EqModel EqSpec EqProofs PropsEq QeModel QeSpec QeProofs QeProofs2 QeProofs3.
Import ListNotations.
Local Open Scope R_scope.

(* the coefficients of the discrete Maxwellian of second order: functions of the weight of the speed *)
Definition weight_of_speed (size : nat) (s : Z) : R :=
  match weight_table size with Some t => match find (fun kw => Z.eqb (fst kw) s) t with Some kw => Q2R (snd kw) | None => 0 end | None => 0 end.
Definition maxwellian_coefficients (size : nat) (rho cs2 : R) (compr : bool) (x : dof) : R :=
  let w := weight_of_speed size (snd x) in let f := if compr then rho else 1 in
  match fst x with LA => w * rho | LB => w * f / cs2 | LC => w * f / (2 * cs2 ^ 2) | LD => - (w * f / (2 * cs2)) end.
Lemma weight_speed size d w : weight_for_direction size d = Ok w -> weight_of_speed size (abs_sum d) = Q2R w.
Proof. unfold weight_for_direction, weight_of_speed. destruct (weight_table size) as [t|]; [|discriminate]. destruct (find _ t) as [kw|]; [|discriminate]. intros [= <-]. reflexivity. Qed.
Lemma equilibrium_quadratic size d u rho w cs2 compr : cs2 <> 0 -> weight_for_direction size d = Ok w ->
  discrete_equilibrium d u rho (Q2R w) 2 cs2 compr = quadratic_form (maxwellian_coefficients size rho cs2 compr) d u.
Proof.
  intros Hc Hw. unfold discrete_equilibrium, quadratic_form, maxwellian_coefficients. cbv zeta. cbn [fst snd]. rewrite (weight_speed size d w Hw). change (2 <=? 1)%Z with false. change (2 <=? 2)%Z with true. cbv iota.
  destruct compr; field; exact Hc.
Qed.
Lemma maxwellian_quadratic S rho cs2 compr ws u : cs2 <> 0 -> get_weights S = Ok ws -> length u = dimD S ->
  discrete_maxwellian_equilibrium S rho u 2 cs2 compr = Ok (map (fun d => quadratic_form (maxwellian_coefficients (sizeQ S) rho cs2 compr) d u) S).
Proof.
  intros Hc Hw Hu. unfold discrete_maxwellian_equilibrium. rewrite Hw. cbn [rbind]. f_equal. rewrite <- Hu, firstn_all. unfold get_weights in Hw.
  revert ws Hw. generalize (sizeQ S) as n. intros n. clear Hu. induction S as [|d S IH]; intros ws Hw; cbn [mapM] in Hw; [injection Hw as <-; reflexivity|].
  destruct (weight_for_direction n d) as [w|] eqn:Ew; cbn [rbind] in Hw; [|discriminate]. destruct (mapM (weight_for_direction n) S) as [ws'|] eqn:Em; cbn [rbind] in Hw; [|discriminate]. injection Hw as <-.
  cbn [combine map fst snd]. rewrite (equilibrium_quadratic n d u rho w cs2 compr Hc Ew). f_equal. apply IH. reflexivity.
Qed.
Lemma combine_maps {A B C} (f : A -> C) (g : B -> C) : forall l m, map f l = map g m -> forall a b, In (a, b) (combine l m) -> f a = g b.
Proof.
  induction l as [|x l IH]; intros [|y m] H a b Hin; try destruct Hin. - cbn in H. injection H as H1 H2. injection H0 as <- <-. exact H1. - cbn in H. injection H as H1 H2. eapply IH; eauto.
Qed.

(* degree bound: up to order two nothing is dropped *)
Lemma normal_degree cs2 : forall n, (forall t, In t (normal_terms n cs2) -> (fst t <= n)%nat) /\ forall t, In t (normal_terms (Datatypes.S n) cs2) -> (fst t <= Datatypes.S n)%nat.
Proof.
  induction n as [|n [IH1 IH2]]; [split; intros t [<-|[]]; cbn; lia|]. split; [exact IH2|]. intros t Ht.
  change (normal_terms (Datatypes.S (Datatypes.S n)) cs2) with (map (fun t : nat * R => (Datatypes.S (fst t), snd t)) (normal_terms (Datatypes.S n) cs2) ++ map (fun t : nat * R => (fst t, INR (Datatypes.S n) * cs2 * snd t)) (normal_terms n cs2)) in Ht.
  apply in_app_or in Ht as [Ht|Ht]; apply in_map_iff in Ht as (s & <- & Hs); cbn [fst]; [specialize (IH2 s Hs)|specialize (IH1 s Hs)]; lia.
Qed.
Lemma maxwellian_degree cs2 : forall e t, In t (maxwellian_terms e cs2) -> (fold_right Nat.add 0 (fst t) <= fold_right Nat.add 0 e)%nat.
Proof.
  induction e as [|n e IH]; intros t Ht; [destruct Ht as [<-|[]]; cbn; lia|]. cbn [maxwellian_terms] in Ht. apply in_flat_map in Ht as (s & Hs & Ht). apply in_map_iff in Ht as (r & <- & Hr). cbn [fst fold_right].
  specialize (IH r Hr). pose proof (proj1 (normal_degree cs2 n) s Hs). lia.
Qed.
Lemma filter_all {A} (f : A -> bool) l : (forall a, In a l -> f a = true) -> filter f l = l.
Proof. induction l as [|a l IH]; intros H; [reflexivity|]. cbn. rewrite (H a (or_introl eq_refl)). f_equal. apply IH. intros; apply H; right; assumption. Qed.
Lemma hydrodynamic_low rho p e u : (fold_right Nat.add 0 e <= 2)%nat -> length e = length u -> ueval (hydrodynamic_value rho p e) u = psi_moment rho u (p / rho) e.
Proof.
  intros He Hu. unfold hydrodynamic_value. rewrite filter_all.
  - rewrite ueval_scale, maxwellian_terms_eval by exact Hu. reflexivity.
  - intros t Ht. apply in_map_iff in Ht as (s & <- & Hs). cbn [fst]. apply Nat.leb_le. pose proof (maxwellian_degree (p / rho) e s Hs). lia.
Qed.
Lemma hydrodynamic_variables rho p e : in_variables (length e) (hydrodynamic_value rho p e).
Proof. intros t Ht. unfold hydrodynamic_value in Ht. apply filter_In in Ht as [Ht _]. apply in_map_iff in Ht as (s & <- & Hs). exact (maxwellian_variables (p / rho) e s Hs). Qed.
(* third order *)
Lemma maxwellian_constraints name ord S rho u f e : predefined_stencils name ord = Ok S -> has_weights S = true -> sizeQ S <> 7%nat -> rho <> 0 -> length u = dimD S -> length e = dimD S -> (fold_right Nat.add 0 e <= 3)%nat ->
  discrete_maxwellian_equilibrium S rho u 2 (1 / 3) true = Ok f -> raw_moment f S e = ueval (hydrodynamic_value rho (rho / 3) e) u.
Proof.
  intros HS HW H7 Hr Hu He Hs Hf.
  assert (HM : hydro_maxwellian S true false (Some 2%Z) rho u (1 / 3) = Ok f) by (unfold hydro_maxwellian; rewrite Hf; reflexivity).
  destruct (le_lt_dec (fold_right Nat.add 0%nat e) 2) as [Hl|Hl].
  - rewrite hydrodynamic_low by (exact Hl || lia). rewrite (C10_matches_continuous name ord S true false (Some 2%Z) rho u f e HS HM He ltac:(lia) H7 ltac:(cbn; lia) Hl).
    unfold continuous_maxwellian_moment. cbn [andb]. rewrite <- Hu, firstn_all. replace (rho / 3 / rho) with (1 / 3) by (field; exact Hr). cbv zeta. ring.
  - assert (H3 : forall a b c, (a < dimD S)%nat -> (b < dimD S)%nat -> (c < dimD S)%nat -> fsum f S (fun v => comp v a * comp v b * comp v c) = rho / 3 * (nth a u 0 * delta b c + nth b u 0 * delta a c + nth c u 0 * delta a b)).
    { intros a b c Ha Hb Hc. exact (C10_third_moment name ord S true false (Some 2%Z) rho u f a b c HS HM Ha Hb Hc H7 ltac:(cbn; lia)). }
    destruct (EqProofs.iso_facts name ord S HS HW) as (_ & _ & HD & Hlen & _).
    assert (HM3 : forall a b c, (a < dimD S)%nat -> (b < dimD S)%nat -> (c < dimD S)%nat -> fsum f S (fun v => rprod v [a; b; c]) = rho / 3 * (nth a u 0 * delta b c + nth b u 0 * delta a c + nth c u 0 * delta a b)).
    { intros a b c Ha Hb Hc. rewrite <- (H3 a b c Ha Hb Hc). apply fsum_ext. intros; unfold rprod; cbn; ring. }
    unfold raw_moment. destruct HD as [E|E]; rewrite E in *.
    + destruct e as [|a [|b [|? ?]]]; try discriminate. cbn [fold_right] in Hs, Hl. destruct u as [|ux [|uy [|? ?]]]; try discriminate.
      rewrite (fsum_ext f S _ (fun c => rprod c (repeat 0%nat a ++ repeat 1%nat b))) by (intros c Hc; apply monomial_idx2, Hlen, Hc).
      assert (Hc : (a = 0 \/ a = 1 \/ a = 2 \/ a = 3)%nat) by lia. assert (Hb : b = (3 - a)%nat) by lia. subst b.
      destruct Hc as [->|[->|[->| ->]]]; cbn [repeat app Nat.sub]; rewrite HM3 by lia; unfold hydrodynamic_value, ueval, delta, rsum; cbn; field; exact Hr.
    + destruct e as [|a [|b [|d [|? ?]]]]; try discriminate. cbn [fold_right] in Hs, Hl. destruct u as [|ux [|uy [|uz [|? ?]]]]; try discriminate.
      rewrite (fsum_ext f S _ (fun c => rprod c (repeat 0%nat a ++ repeat 1%nat b ++ repeat 2%nat d))) by (intros c Hc; apply monomial_idx3, Hlen, Hc).
      assert (Hc : (a = 0 \/ a = 1 \/ a = 2 \/ a = 3)%nat) by lia. assert (Hb : (b = 0 \/ b = 1 \/ b = 2 \/ b = 3)%nat) by lia. assert (Hd : d = (3 - a - b)%nat) by lia. subst d.
      destruct Hc as [->|[->|[->| ->]]]; destruct Hb as [->|[->|[->| ->]]]; try (exfalso; lia); cbn [repeat app Nat.sub]; rewrite HM3 by lia; unfold hydrodynamic_value, ueval, delta, rsum; cbn; field; exact Hr.
Qed.
