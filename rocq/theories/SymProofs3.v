(* Equilibria, force terms and relaxation rates under turns. *)
From Coq Require Import String List ZArith QArith Qreals Bool Arith Reals Lra Lia.
From Verif Require Import StencilModel StencilSpec StencilProofs StencilProofs2 AccessModel StreamSpec RealLib LinLib TransSpec TransModel TransProofs TransProofs2 MomModel MomProofs EqModel EqSpec EqProofs CollModel CollSpec CollProofs CollProofs5 CollProofs7 BoundProofs BoundProofs4 SymSpec SymProofs SymProofs2.
Import ListNotations.
Local Open Scope R_scope.

Lemma normal_moment_neg n u cs2 : normal_moment n (- u) cs2 = (-1) ^ n * normal_moment n u cs2.
Proof.
  cut (normal_moment n (- u) cs2 = (-1) ^ n * normal_moment n u cs2 /\ normal_moment (Datatypes.S n) (- u) cs2 = (-1) ^ (Datatypes.S n) * normal_moment (Datatypes.S n) u cs2); [tauto|].
  induction n as [|n [IH1 IH2]]; [cbn; split; ring|]. split; [exact IH2|].
  change (normal_moment (Datatypes.S (Datatypes.S n)) (- u) cs2) with (- u * normal_moment (Datatypes.S n) (- u) cs2 + INR (Datatypes.S n) * cs2 * normal_moment n (- u) cs2).
  change (normal_moment (Datatypes.S (Datatypes.S n)) u cs2) with (u * normal_moment (Datatypes.S n) u cs2 + INR (Datatypes.S n) * cs2 * normal_moment n u cs2).
  rewrite IH1, IH2. cbn [pow]. ring.
Qed.
Lemma psi_act g rho u cs2 e : length u = length e -> psi_moment rho (act Ropp g u) cs2 e = act_sign g e * psi_moment rho u cs2 (act_exp g e).
Proof.
  intros E. unfold psi_moment. set (P := fun (u : list R) (e : list nat) => fold_right Rmult 1 (map (fun en => normal_moment (fst en) (snd en) cs2) (combine e u))).
  change (rho * P (act Ropp g u) e = act_sign g e * (rho * P u (act_exp g e))). cut (P (act Ropp g u) e = act_sign g e * P u (act_exp g e)); [intros ->; ring|].
  assert (C : forall x u n e, P (x :: u) (n :: e) = normal_moment n x cs2 * P u e) by reflexivity.
  destruct g as [a|a]; cbn [act act_sign act_exp].
  - revert u e E; induction a as [|a IH]; intros [|x u] [|m e] E; try discriminate; cbn [at_axis nth]; try (cbn; ring).
    + rewrite !C, normal_moment_neg. ring.
    + rewrite !C, IH by (cbn in E; lia). ring.
  - rewrite Rmult_1_l. revert u e E; induction a as [|a IH]; intros [|x u] [|m e] E; try discriminate; cbn [exchange]; auto.
    + destruct u, e; try discriminate; [reflexivity|]. rewrite !C. ring.
    + rewrite !C, IH by (cbn in E; lia). reflexivity.
Qed.
Lemma turn_lift D (K : list R -> list nat -> R) : (forall g u e, length u = D -> length e = D -> K (act Ropp g u) e = act_sign g e * K u (act_exp g e)) ->
  forall w u e, length u = D -> length e = D -> K (turnR w u) e = turn_sign w e * K u (turn_exp w e).
Proof.
  intros H w. induction w as [|g w IH]; intros u e Hu He; [cbn; ring|]. rewrite turnR_cons, H by (auto; now rewrite turnR_length). rewrite IH by (auto; now rewrite act_exp_length). cbn [turn_sign turn_exp]. ring.
Qed.
Lemma psi_turn w rho u cs2 e : length u = length e -> psi_moment rho (turnR w u) cs2 e = turn_sign w e * psi_moment rho u cs2 (turn_exp w e).
Proof. intros E. apply (turn_lift (length e) (fun u e => psi_moment rho u cs2 e)); auto. intros. apply psi_act. congruence. Qed.
Lemma continuous_symmetric w D compr dev cs2 : symmetric_equilibrium w D (fun rho u => continuous_maxwellian_moment D compr dev rho u cs2).
Proof.
  intros rho u e Hu He. unfold continuous_maxwellian_moment. rewrite !firstn_all2 by (rewrite ?turnR_length; lia). rewrite psi_turn by congruence.
  assert (Z : forall c, psi_moment c (repeat 0 D) cs2 e = turn_sign w e * psi_moment c (repeat 0 D) cs2 (turn_exp w e)).
  { intros c. change (repeat 0 D) with (rzero D). rewrite <- (turnR_rzero w D) at 1. apply psi_turn. now rewrite rzero_length. }
  destruct compr, dev; rewrite ?(Z 1), ?(Z (rho - 1)); ring.
Qed.

(* central moments from raw moments *)
Lemma nsum_exchange a e : nsum (exchange a e) = nsum e.
Proof.
  assert (C : forall x l, nsum (x :: l) = (x + nsum l)%nat) by reflexivity. revert e; induction a as [|a IH]; intros [|x e]; cbn [exchange]; try reflexivity.
  - destruct e as [|y e]; [reflexivity|]. rewrite !C. lia.
  - rewrite !C, IH. reflexivity.
Qed.
Lemma nsum_turn w e : nsum (turn_exp w e) = nsum e.
Proof. revert e; induction w as [|g w IH]; intros e; [reflexivity|]. cbn [turn_exp]. rewrite IH. destruct g; [reflexivity|apply nsum_exchange]. Qed.
Lemma Forall2_exchange {T} (r : T -> T -> Prop) a x y : Forall2 r x y -> Forall2 r (exchange a x) (exchange a y).
Proof. revert x y; induction a as [|a IH]; intros x y [|u v x' y' H1 H2]; cbn [exchange]; auto. destruct H2; repeat constructor; auto. Qed.
Lemma binomial_exchange a u e r : length u = length e -> length r = length e -> binomial_product (exchange a u) e r = binomial_product u (exchange a e) (exchange a r).
Proof.
  revert u e r; induction a as [|a IH]; intros [|x u] [|m e] [|k r] E1 E2; try discriminate; cbn [exchange binomial_product]; auto.
  - destruct u, e, r; try discriminate; cbn [binomial_product]; [reflexivity|ring].
  - rewrite IH by (cbn in *; lia). reflexivity.
Qed.
Lemma binomial_reflect a u e r : length u = length e -> Forall2 le r e -> binomial_product (at_axis Ropp a u) e r * (-1) ^ nth a r 0%nat = (-1) ^ nth a e 0%nat * binomial_product u e r.
Proof.
  revert u e r; induction a as [|a IH]; intros [|x u] [|m e] r E1 E2; try discriminate; inversion E2 as [|k m' r' e' Hk H']; subst; cbn [at_axis binomial_product nth]; try (cbn; ring).
  - replace ((-1) ^ m) with ((-1) ^ (m - k) * (-1) ^ k) by (rewrite <- pow_add; f_equal; lia). replace (- x) with ((-1) * x) by ring. rewrite Rpow_mult_distr. ring.
  - rewrite Rmult_assoc, IH by (cbn in E1; lia || assumption). ring.
Qed.
Lemma central_from_raw_act g u raw raw' e : length u = length e -> (forall r, length r = length e -> raw' r = act_sign g r * raw (act_exp g r)) ->
  central_from_raw (act Ropp g u) raw' e = act_sign g e * central_from_raw u raw (act_exp g e).
Proof.
  intros E H. unfold central_from_raw. destruct (contained_spec e 0 false) as [Hn Hs].
  assert (HF : forall r, In r (contained_moments e 0 false) -> Forall2 le r e) by (intros r Hr; now apply Hs in Hr).
  destruct g as [a|a]; cbn [act act_sign act_exp].
  - rewrite <- rsum_scal. apply rsum_ext. intros r Hr. pose proof (HF r Hr) as Hf. rewrite H by (eapply Forall2_length; eauto). cbn [act_sign act_exp].
    pose proof (binomial_reflect a u e r E Hf) as B. transitivity ((-1) ^ (nsum e - nsum r) * (binomial_product (at_axis Ropp a u) e r * (-1) ^ nth a r 0%nat) * raw r); [ring|]. rewrite B. ring.
  - rewrite Rmult_1_l. destruct (contained_spec (exchange a e) 0 false) as [Hn' Hs'].
    rewrite <- (rsum_reindex (exchange a) (fun r => (-1) ^ (nsum (exchange a e) - nsum r) * binomial_product u (exchange a e) r * raw r) (contained_moments e 0 false) (contained_moments (exchange a e) 0 false)); auto.
    + apply rsum_ext. intros r Hr. assert (Lr : length r = length e) by (eapply Forall2_length; eauto). rewrite H by exact Lr. cbn [act_sign act_exp]. rewrite binomial_exchange, !nsum_exchange by auto. ring.
    + intros r Hr. apply Hs'. split; [apply Forall2_exchange; auto|]. split; [lia|discriminate].
    + intros r r' _ _ Er. rewrite <- (exchange_twice a r), <- (exchange_twice a r'). now rewrite Er.
    + intros r Hr. apply Hs' in Hr as (Hr & _). exists (exchange a r). split; [|apply exchange_twice]. apply Hs. split; [|split; [lia|discriminate]]. rewrite <- (exchange_twice a e). now apply Forall2_exchange.
Qed.
Lemma central_from_raw_turn w : forall u raw raw' e, length u = length e -> (forall r, length r = length e -> raw' r = turn_sign w r * raw (turn_exp w r)) ->
  central_from_raw (turnR w u) raw' e = turn_sign w e * central_from_raw u raw (turn_exp w e).
Proof.
  induction w as [|g w IH]; intros u raw raw' e E H.
  - cbn [turnR fold_right turn_sign turn_exp]. rewrite Rmult_1_l. unfold central_from_raw. apply rsum_ext. intros r Hr. rewrite H; [cbn; ring|]. apply contained_spec in Hr as (Hr & _). eapply Forall2_length; eauto.
  - rewrite turnR_cons. rewrite (central_from_raw_act g (turnR w u) (fun r => turn_sign w r * raw (turn_exp w r)) raw' e).
    + rewrite (IH u raw) by (rewrite ?act_exp_length; auto). cbn [turn_sign turn_exp]. ring.
    + now rewrite turnR_length.
    + intros r Hr. rewrite H by exact Hr. cbn [turn_sign turn_exp]. ring.
Qed.
Lemma central_from_raw_symmetric w D eqm : symmetric_equilibrium w D eqm -> symmetric_equilibrium w D (fun rho u => central_from_raw u (eqm rho u)).
Proof. intros H rho u e Hu He. apply central_from_raw_turn; [congruence|]. intros r Hr. apply H; congruence. Qed.

(* discrete equilibria *)
Lemma e_times_u_dot c u : e_times_u c u = dot (vecR c) u.
Proof. unfold e_times_u, dot, vecR. revert u; induction c as [|x c IH]; intros [|y u]; try reflexivity. cbn [map combine]. rewrite !rsum_cons, IH. reflexivity. Qed.
Lemma u_times_u_dot u : u_times_u u = dot u u.
Proof. unfold u_times_u, dot. induction u as [|x u IH]; [reflexivity|]. cbn [map combine]. rewrite !rsum_cons, IH. reflexivity. Qed.
Section Discrete.
  Context (D : nat) (S : stencil) (ws : list Q) (w : list axis_op).
  Hypothesis HS : symmetric_stencil D S.
  Hypothesis Hcl : forall d d', In d S -> signed_permutation d d' -> In d' S.
  Hypothesis HD : dimD S = D.
  Hypothesis HW : get_weights S = Ok ws.
  Lemma discrete_turned rho u order cs2 compr : length u = D -> exists p p', discrete_maxwellian_equilibrium S rho u order cs2 compr = Ok p /\
    discrete_maxwellian_equilibrium S rho (turnR w u) order cs2 compr = Ok p' /\ turned w S p p'.
  Proof.
    intros Hu. unfold discrete_maxwellian_equilibrium. rewrite HW. cbn [rbind]. eexists _, _. split; [reflexivity|]. split; [reflexivity|]. rewrite HD, !firstn_all2 by (rewrite ?turnR_length; lia).
    assert (L : length ws = length S) by (apply (mapM_Ok_length _ _ _ HW)).
    assert (N : forall v i, (i < length S)%nat -> nth i (map (fun wc => discrete_equilibrium (snd wc) v rho (Q2R (fst wc)) order cs2 compr) (combine ws S)) 0 = discrete_equilibrium (dir S i) v rho (nth i (map Q2R ws) 0) order cs2 compr).
    { intros v i Hi. rewrite (nth_indep _ 0 ((fun wc => discrete_equilibrium (snd wc) v rho (Q2R (fst wc)) order cs2 compr) (0%Q, []))) by (rewrite map_length, combine_length; lia).
      rewrite (map_nth (fun wc => discrete_equilibrium (snd wc) v rho (Q2R (fst wc)) order cs2 compr)), combine_nth by exact L. cbn [fst snd]. f_equal. rewrite (nth_indep _ 0 (Q2R 0%Q)) by (rewrite map_length; lia). now rewrite map_nth. }
    apply (turned_intro D S HS Hcl); try (rewrite map_length, combine_length; lia). intros i Hi. destruct (slot_spec S Hcl w i Hi) as [H1 H2]. rewrite !N by assumption. rewrite H2, (turned_nth S Hcl w _ _ i (turned_weights D S HS Hcl w ws HW) Hi).
    unfold discrete_equilibrium. rewrite !e_times_u_dot, !u_times_u_dot, vecR_turn, !dot_turn by (try reflexivity; unfold vecR; rewrite map_length, Hu; apply HS; now apply nth_In). reflexivity.
  Qed.
  Lemma hydro_turned compr dev order rho u cs2 : length u = D -> exists p p', hydro_maxwellian S compr dev order rho u cs2 = Ok p /\ hydro_maxwellian S compr dev order rho (turnR w u) cs2 = Ok p' /\ turned w S p p'.
  Proof.
    intros Hu. unfold hydro_maxwellian. destruct (discrete_turned rho u (match order with Some o => o | None => 4%Z end) cs2 compr Hu) as (p & p' & -> & -> & H). cbn [rbind]. destruct dev; [|exists p, p'; auto].
    assert (L0 : length (repeat 0 (dimD S)) = D) by (now rewrite repeat_length).
    destruct (discrete_turned 1 (repeat 0 (dimD S)) 0%Z cs2 false L0) as (s & s' & E1 & E2 & H'). change (repeat 0 (dimD S)) with (rzero (dimD S)) in E2 at 1. rewrite turnR_rzero in E2. change (rzero (dimD S)) with (repeat 0 (dimD S)) in E2.
    rewrite E2 in E1. rewrite E2. injection E1 as <-. cbn [rbind]. eexists _, _. split; [reflexivity|]. split; [reflexivity|]. now apply (turned_rsub D S w HS Hcl).
  Qed.
  Lemma discrete_raw_symmetric compr dev order : symmetric_equilibrium w D (discrete_raw_moments S compr dev order).
  Proof.
    intros rho u e Hu He. unfold discrete_raw_moments. destruct (hydro_turned compr dev order rho u (1 / 3) Hu) as (p & p' & -> & -> & H). rewrite HD. rewrite <- (turnR_rzero w D) at 1. apply (central_turn D S w HS Hcl); auto using rzero_length.
  Qed.
  Lemma discrete_central_symmetric compr dev order : symmetric_equilibrium w D (discrete_central_moments S compr dev order).
  Proof.
    intros rho u e Hu He. unfold discrete_central_moments. destruct (hydro_turned compr dev order rho u (1 / 3) Hu) as (p & p' & -> & -> & H). apply (central_turn D S w HS Hcl); auto.
  Qed.
End Discrete.
