(* Positions and sums of the corrections. *)
From Coq Require Import String List ZArith QArith Bool Arith Reals Lra Lia.
From Verif Require Import StencilModel RealLib LinLib MomModel EqModel CumModel CollModel ModeModel CorrModel CorrSpec.
Import ListNotations.
Local Open Scope R_scope.

Lemma tuple_eqb_eq a b : tuple_eqb a b = true <-> a = b.
Proof. unfold tuple_eqb. destruct (list_eq_dec Nat.eq_dec a b); split; congruence. Qed.
Lemma qpoly_eqb_refl p : qpoly_eqb p p = true.
Proof. induction p as [|[a e] p IH]; [reflexivity|]. cbn. rewrite IH, (proj2 (tuple_eqb_eq e e) eq_refl). now rewrite (proj2 (Qeq_bool_iff a a) (Qeq_refl a)). Qed.
Lemma qpoly_eqb_snd p : forall q, qpoly_eqb p q = true -> map snd p = map snd q.
Proof.
  induction p as [|[a e] p IH]; intros [|[b g] q] H; try discriminate; [reflexivity|]. cbn in H. apply andb_prop in H as [H1 H2]. apply andb_prop in H1 as [_ H1].
  apply tuple_eqb_eq in H1. cbn. f_equal; auto.
Qed.
Lemma qpoly_eqb_sym p : forall q, qpoly_eqb p q = true -> qpoly_eqb q p = true.
Proof.
  induction p as [|[a e] p IH]; intros [|[b g] q] H; try discriminate; [reflexivity|]. cbn in *. apply andb_prop in H as [H1 H2]. apply andb_prop in H1 as [H0 H1].
  apply tuple_eqb_eq in H1 as ->. rewrite (IH _ H2), (proj2 (tuple_eqb_eq g g) eq_refl). apply Qeq_bool_iff in H0. now rewrite (proj2 (Qeq_bool_iff b a) (Qeq_sym _ _ H0)).
Qed.
Lemma qpoly_eqb_trans p : forall q r, qpoly_eqb p q = true -> qpoly_eqb q r = true -> qpoly_eqb p r = true.
Proof.
  induction p as [|[a e] p IH]; intros [|[b g] q] [|[c h] r] H G; try discriminate; [reflexivity|]. cbn in *.
  apply andb_prop in H as [H1 H2]. apply andb_prop in H1 as [H0 H1]. apply andb_prop in G as [G1 G2]. apply andb_prop in G1 as [G0 G1].
  apply tuple_eqb_eq in H1 as ->. apply tuple_eqb_eq in G1 as ->. rewrite (IH _ _ H2 G2), (proj2 (tuple_eqb_eq h h) eq_refl).
  apply Qeq_bool_iff in H0, G0. now rewrite (proj2 (Qeq_bool_iff a c) (Qeq_trans _ _ _ H0 G0)).
Qed.

Lemma poly_index_spec p l : poly_in p l = true -> (poly_index p l < length l)%nat /\ qpoly_eqb p (nth (poly_index p l) l []) = true.
Proof.
  induction l as [|q l IH]; [discriminate|]. cbn. destruct (qpoly_eqb p q) eqn:E; cbn; [intros _; split; [lia|auto]|].
  intros H. destruct (IH H). split; [lia|auto].
Qed.
Lemma add_at_length i x l : length (add_at_index i x l) = length l.
Proof. revert i. induction l as [|a l IH]; intros [|i]; cbn; auto. Qed.
Lemma nth_add_at i x l k : nth k (add_at_index i x l) 0 = nth k l 0 + (if Nat.eqb i k && (k <? length l)%nat then x else 0).
Proof.
  revert i k. induction l as [|a l IH]; intros i k.
  - replace (k <? length (@nil R))%nat with false by (symmetry; apply Nat.ltb_ge; cbn; lia). rewrite andb_false_r. destruct i, k; cbn; lra.
  - destruct i, k; cbn; try lra. exact (IH i k).
Qed.
Lemma add_corrections_length ps targets corr C : length (add_corrections ps targets corr C) = length C.
Proof.
  unfold add_corrections. generalize (combine targets corr). intros l. revert C. induction l as [|[t x] l IH]; intros C; [reflexivity|]. cbn. rewrite IH. apply add_at_length.
Qed.
Lemma nth_add_corrections ps targets corr C k : (k < length C)%nat ->
  nth k (add_corrections ps targets corr C) 0 = nth k C 0 + rsum (map (fun tc => if Nat.eqb (poly_index (fst tc) ps) k then snd tc else 0) (combine targets corr)).
Proof.
  unfold add_corrections. generalize (combine targets corr). intros l. revert C. induction l as [|[t x] l IH]; intros C Hk; cbn [fold_left map fst snd]; [cbn; lra|].
  rewrite IH by (rewrite add_at_length; auto). rewrite nth_add_at. apply Nat.ltb_lt in Hk. rewrite Hk, andb_true_r, rsum_cons. lra.
Qed.
(* pairwise different polynomials *)
Fixpoint different (l : list qpoly) : bool := match l with [] => true | p :: l => negb (poly_in p l) && different l end.
Lemma index_inj ps p q : poly_in p ps = true -> poly_in q ps = true -> poly_index p ps = poly_index q ps -> qpoly_eqb p q = true.
Proof.
  intros Hp Hq E. destruct (poly_index_spec p ps Hp) as [_ H1]. destruct (poly_index_spec q ps Hq) as [_ H2]. rewrite E in H1.
  eapply qpoly_eqb_trans; [exact H1|]. now apply qpoly_eqb_sym.
Qed.
Lemma poly_in_nth p l j : (j < length l)%nat -> qpoly_eqb p (nth j l []) = true -> poly_in p l = true.
Proof. intros Hj E. unfold poly_in. apply existsb_exists. exists (nth j l []). split; [now apply nth_In|auto]. Qed.
Lemma sum_other ps targets corr k : (forall t, In t targets -> poly_index t ps <> k) ->
  rsum (map (fun tc => if Nat.eqb (poly_index (fst tc) ps) k then snd tc else 0) (combine targets corr)) = 0.
Proof.
  revert corr. induction targets as [|t targets IH]; intros [|x corr] H; try reflexivity. cbn. rewrite (proj2 (Nat.eqb_neq _ _)) by (apply H; now left).
  change (fold_right Rplus 0 (map (fun tc => if Nat.eqb (poly_index (fst tc) ps) k then snd tc else 0) (combine targets corr))) with
    (rsum (map (fun tc => if Nat.eqb (poly_index (fst tc) ps) k then snd tc else 0) (combine targets corr))). rewrite IH; [lra|]. intros t' Ht'. apply H. now right.
Qed.
Lemma sum_target ps targets : forallb (fun p => poly_in p ps) targets = true -> different targets = true -> forall corr j,
  length corr = length targets -> (j < length targets)%nat ->
  rsum (map (fun tc => if Nat.eqb (poly_index (fst tc) ps) (poly_index (nth j targets []) ps) then snd tc else 0) (combine targets corr)) = nth j corr 0.
Proof.
  induction targets as [|t targets IH]; intros Hin Hd corr j HL Hj; [cbn in Hj; lia|]. destruct corr as [|x corr]; [discriminate|].
  cbn [forallb] in Hin. apply andb_prop in Hin as [Ht Hin]. cbn [different] in Hd. apply andb_prop in Hd as [Hn Hd].
  assert (In' : forall q, In q targets -> poly_in q ps = true) by (intros q Hq; rewrite forallb_forall in Hin; auto).
  assert (No : forall q, In q targets -> poly_index q ps <> poly_index t ps).
  { intros q Hq E. assert (poly_in t targets = true); [|now rewrite H in Hn]. unfold poly_in. apply existsb_exists. exists q. split; [auto|]. apply (index_inj ps); auto. }
  cbn [combine map fst snd]. rewrite rsum_cons. destruct j as [|j]; cbn [nth].
  - rewrite Nat.eqb_refl, sum_other by auto. lra.
  - rewrite (proj2 (Nat.eqb_neq _ _)).
    + rewrite (IH Hin Hd corr j) by (cbn in HL, Hj; lia). lra.
    + intros E. apply (No (nth j targets [])); [apply nth_In; cbn in Hj; lia|congruence].
Qed.
Lemma corrections_effect ps targets corr C : forallb (fun p => poly_in p ps) targets = true -> different targets = true ->
  length corr = length targets -> length C = length ps ->
  length (add_corrections ps targets corr C) = length ps /\
  (forall j, (j < length targets)%nat -> let i := poly_index (nth j targets []) ps in
     nth i (add_corrections ps targets corr C) 0 = nth i C 0 + nth j corr 0) /\
  (forall i, (i < length ps)%nat -> (forall t, In t targets -> qpoly_eqb t (nth i ps []) = false) -> nth i (add_corrections ps targets corr C) 0 = nth i C 0).
Proof.
  intros Hin Hd HL HC. rewrite add_corrections_length. split; [auto|]. split.
  - intros j Hj i. rewrite nth_add_corrections; [f_equal; now apply sum_target|].
    rewrite HC. unfold i. apply poly_index_spec. rewrite forallb_forall in Hin. apply Hin, nth_In, Hj.
  - intros i Hi H. rewrite nth_add_corrections by congruence. rewrite sum_other; [lra|]. intros t Ht E. rewrite forallb_forall in Hin.
    destruct (poly_index_spec t ps (Hin t Ht)) as [_ H2]. rewrite E, (H t Ht) in H2. discriminate.
Qed.

(* ---- gradients ---- *)
Lemma gradients_spec o1 o2 rho c dx dy dz : 0 < rho ->
  (velocity_gradients o1 o2 rho c = Some (dx, dy, dz) <-> diagonal_gradients o1 o2 rho (c e_xx) (c e_yy) (c e_zz) dx dy dz).
Proof.
  intros H. unfold velocity_gradients, diagonal_gradients. rewrite !rdiv_ok by lra. cbn [obind]. cbv zeta.
  set (cx := c e_xx). set (cy := c e_yy). set (cz := c e_zz). clearbody cx cy cz. split.
  - intros [= <- <- <-]. split; [|split]; field; lra.
  - intros (H1 & H2 & H3).
    assert (E1 : dx = - o1 / (2 * rho) * (2 * cx - cy - cz) - o2 / (2 * rho) * (cx + cy + cz - rho)).
    { assert (T : 3 * dx = (dx - dy) + (dx - dz) + (dx + dy + dz)) by lra. rewrite H1, H2, H3 in T. apply Rmult_eq_reg_l with 3; [|lra]. rewrite T. field. lra. }
    assert (E2 : dy = dx + 3 * o1 / (2 * rho) * (cx - cy)) by lra. assert (E3 : dz = dx + 3 * o1 / (2 * rho) * (cx - cz)) by lra.
    rewrite <- E1. rewrite <- E2, <- E3. reflexivity.
Qed.
Lemma gradients_defined o1 o2 rho c : 0 < rho -> exists D, velocity_gradients o1 o2 rho c = Some D.
Proof. intros H. unfold velocity_gradients. rewrite !rdiv_ok by lra. cbn. eauto. Qed.
Lemma gradients_undefined o1 o2 c : velocity_gradients o1 o2 0 c = None.
Proof. unfold velocity_gradients. now rewrite Rmult_0_r, rdiv_zero. Qed.
Lemma gradients_unique o1 o2 rho cx cy cz dx dy dz dx' dy' dz' :
  diagonal_gradients o1 o2 rho cx cy cz dx dy dz -> diagonal_gradients o1 o2 rho cx cy cz dx' dy' dz' -> dx = dx' /\ dy = dy' /\ dz = dz'.
Proof. unfold diagonal_gradients. intros (A1 & A2 & A3) (B1 & B2 & B3). repeat split; lra. Qed.

(* exchanging axes *)
Definition diag (k : nat) : list nat := nth k [e_xx; e_yy; e_zz] [].
Lemma swap_diag i j k c : (i < 3)%nat -> (j < 3)%nat -> (k < 3)%nat -> swap_cumulants i j c (diag k) = c (diag (swap_axis i j k)).
Proof. intros Hi Hj Hk. unfold swap_cumulants. f_equal. destruct i as [|[|[|i]]]; try lia; destruct j as [|[|[|j]]]; try lia; destruct k as [|[|[|k]]]; try lia; reflexivity. Qed.
Definition triple (D : R * R * R) : list R := let '(a, b, c) := D in [a; b; c].
Ltac axes i j := destruct i as [|[|[|i]]]; try lia; destruct j as [|[|[|j]]]; try lia.
Lemma gradients_swap o1 o2 rho c i j D D' : 0 < rho -> (i < 3)%nat -> (j < 3)%nat ->
  velocity_gradients o1 o2 rho c = Some D -> velocity_gradients o1 o2 rho (swap_cumulants i j c) = Some D' -> triple D' = swap_triple 0 i j (triple D).
Proof.
  intros Hr Hi Hj H H'. destruct D as [[dx dy] dz], D' as [[dx' dy'] dz']. apply (gradients_spec _ _ _ _ _ _ _ Hr) in H. apply (gradients_spec _ _ _ _ _ _ _ Hr) in H'.
  change e_xx with (diag 0) in *. change e_yy with (diag 1) in *. change e_zz with (diag 2) in *. rewrite !swap_diag in H' by lia.
  destruct H as (A1 & A2 & A3). destruct H' as (B1 & B2 & B3).
  axes i j; cbn [swap_axis Nat.eqb] in *; cbn; (apply f_equal2; [|apply f_equal2; [|apply f_equal2; [|reflexivity]]]); lra.
Qed.
