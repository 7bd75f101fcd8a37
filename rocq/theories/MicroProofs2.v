(* The channel solution solves the equations in both fluids, at the walls and at the interface. *)
From Coq Require Import List ZArith Bool Reals Lra Lia Psatz.
From Verif Require Import RealLib MicroModel MicroSpec MicroProofs.
Import ListNotations.
Local Open Scope R_scope.

Definition open_set (P : R -> Prop) : Prop := forall y, P y -> exists r, 0 < r /\ forall t, Rabs (t - y) < r -> P t.
Lemma open_up : open_set (fun y => 0 < y).
Proof. intros y H. exists y. split; [exact H|]. intros t Ht. apply Rabs_def2 in Ht. lra. Qed.
Lemma open_down : open_set (fun y => y < 0).
Proof. intros y H. exists (- y). split; [lra|]. intros t Ht. apply Rabs_def2 in Ht. lra. Qed.
Definition agree (P : R -> Prop) (g h : R -> R -> R) : Prop := forall x y, P y -> g x y = h x y.
Lemma agree_x P g h x y d : agree P g h -> P y -> partial_x h x y d -> partial_x g x y d.
Proof. intros E HP. apply lim_ext. intros t. apply E. exact HP. Qed.
Lemma agree_y P g h x y d : open_set P -> agree P g h -> P y -> partial_y h x y d -> partial_y g x y d.
Proof. intros O E HP. destruct (O y HP) as (r & Hr & HO). apply (lim_local _ _ y d r Hr). intros t Ht. apply E. apply HO. exact Ht. Qed.

Lemma heat_field P g l0 l1 c w A C : open_set P -> agree P g (field l0 l1 c w A 0 C 0 (fun x => cos (w * x))) -> conducts_heat P g.
Proof.
  intros O E. exists (field 0 0 c w A 0 C 0 (fun x => - w * sin (w * x))), (field l1 0 c w (0 + w * C) (w * 0) (0 + w * A) (w * 0) (fun x => cos (w * x))), (field 0 0 c w A 0 C 0 (fun x => - w * (w * cos (w * x)))).
  eexists. intros x y HP. split; [apply (agree_x P _ _ x y _ E HP); apply (field_x _ _ _ _ _ _ _ _ _ (fun x => - w * sin (w * x))); apply lim_cos|].
  split; [apply (agree_y P _ _ x y _ O E HP); apply field_y|]. split; [apply (field_x _ _ _ _ _ _ _ _ _ (fun x => - w * (w * cos (w * x)))); apply lim_scal; apply lim_sin|].
  split; [apply field_y|]. unfold field, fam. ring.
Qed.
Lemma flow_field P mu u v p U w C1 C2 C3 : open_set P ->
  agree P u (field 0 0 U w (C1 + w * C2) (w * C3) C3 (w * C1) (fun x => sin (w * x))) ->
  agree P v (field 0 0 (- w * U) w 0 C1 C2 C3 (fun x => cos (w * x))) ->
  agree P p (field 0 0 (- 2 * mu * U * w) w C1 0 C3 0 (fun x => cos (w * x))) -> creeping_flow P mu u v p.
Proof.
  intros O Eu Ev Ep.
  exists (field 0 0 U w (C1 + w * C2) (w * C3) C3 (w * C1) (fun x => w * cos (w * x))), (field 0 0 U w (w * C3 + w * C3) (w * (w * C1)) (w * C1 + w * (C1 + w * C2)) (w * (w * C3)) (fun x => sin (w * x))),
    (field 0 0 U w (C1 + w * C2) (w * C3) C3 (w * C1) (fun x => w * (- w * sin (w * x)))). eexists.
  exists (field 0 0 (- w * U) w 0 C1 C2 C3 (fun x => - w * sin (w * x))), (field 0 0 (- w * U) w (C1 + w * C2) (w * C3) (C3 + w * 0) (w * C1) (fun x => cos (w * x))), (field 0 0 (- w * U) w 0 C1 C2 C3 (fun x => - w * (w * cos (w * x)))). eexists.
  exists (field 0 0 (- 2 * mu * U * w) w C1 0 C3 0 (fun x => - w * sin (w * x))), (field 0 0 (- 2 * mu * U * w) w (0 + w * C3) (w * 0) (0 + w * C1) (w * 0) (fun x => cos (w * x))).
  intros x y HP.
  split; [apply (agree_x P _ _ x y _ Eu HP); apply (field_x _ _ _ _ _ _ _ _ _ (fun x => w * cos (w * x))); apply lim_sin|].
  split; [apply (agree_y P _ _ x y _ O Eu HP); apply field_y|]. split; [apply (field_x _ _ _ _ _ _ _ _ _ (fun x => w * (- w * sin (w * x)))); apply lim_scal; apply lim_cos|]. split; [apply field_y|].
  split; [apply (agree_x P _ _ x y _ Ev HP); apply (field_x _ _ _ _ _ _ _ _ _ (fun x => - w * sin (w * x))); apply lim_cos|].
  split; [apply (agree_y P _ _ x y _ O Ev HP); apply field_y|]. split; [apply (field_x _ _ _ _ _ _ _ _ _ (fun x => - w * (w * cos (w * x)))); apply lim_scal; apply lim_sin|]. split; [apply field_y|].
  split; [apply (agree_x P _ _ x y _ Ep HP); apply (field_x _ _ _ _ _ _ _ _ _ (fun x => - w * sin (w * x))); apply lim_cos|].
  split; [apply (agree_y P _ _ x y _ O Ep HP); apply field_y|]. unfold field, fam. split; [ring|]. split; ring.
Qed.

Definition T_top (k : channel) := field (ch_nom k / ch_denom k) (ch_tt k / ch_denom k) (ch_t0 k * ch_f k) (ch_w k) (sinh (ch_a k)) 0 (- cosh (ch_a k)) 0 (fun x => cos (ch_w k * x)).
Definition T_bot (k : channel) := field (ch_nom k / ch_denom k) (ch_kstar k * ch_tt k / ch_denom k) (ch_t0 k * ch_f k) (ch_w k) (sinh (ch_a k)) 0 (- ch_kstar k * cosh (ch_a k)) 0 (fun x => cos (ch_w k * x)).
Definition u_of (k : channel) C1 C2 C3 := field 0 0 (ch_umax k) (ch_w k) (C1 + ch_w k * C2) (ch_w k * C3) C3 (ch_w k * C1) (fun x => sin (ch_w k * x)).
Definition v_of (k : channel) C1 C2 C3 := field 0 0 (- ch_w k * ch_umax k) (ch_w k) 0 C1 C2 C3 (fun x => cos (ch_w k * x)).
Definition up (y : R) : Prop := 0 < y.
Definition down (y : R) : Prop := y <= 0.
Lemma T_up k : agree up (temperature_at k) (T_top k).
Proof. intros x y H. unfold temperature_at. destruct (Rlt_dec 0 y); [|unfold up in H; contradiction]. unfold T_top, field, fam. rewrite sinh_diff, (Rmult_comm y). unfold Rdiv. ring. Qed.
Lemma T_down k : agree down (temperature_at k) (T_bot k).
Proof. intros x y H. unfold temperature_at, down in *. destruct (Rlt_dec 0 y); [lra|]. unfold T_bot, field, fam. unfold Rdiv. ring. Qed.
Lemma u_up k : agree up (velocity_x_at k) (u_of k (ch_Ca1 k) (ch_Ca2 k) (ch_Ca3 k)).
Proof. intros x y H. unfold velocity_x_at. destruct (Rlt_dec 0 y); [|unfold up in H; contradiction]. unfold u_of, field, fam. ring. Qed.
Lemma u_down k : agree down (velocity_x_at k) (u_of k (ch_Cb1 k) (ch_Cb2 k) (ch_Cb3 k)).
Proof. intros x y H. unfold velocity_x_at, down in *. destruct (Rlt_dec 0 y); [lra|]. unfold u_of, field, fam. ring. Qed.
Lemma v_up k : agree up (velocity_y_at k) (v_of k (ch_Ca1 k) (ch_Ca2 k) (ch_Ca3 k)).
Proof. intros x y H. unfold velocity_y_at. destruct (Rlt_dec 0 y); [|unfold up in H; contradiction]. unfold v_of, field, fam. ring. Qed.
Lemma v_down k : agree down (velocity_y_at k) (v_of k (ch_Cb1 k) (ch_Cb2 k) (ch_Cb3 k)).
Proof. intros x y H. unfold velocity_y_at, down in *. destruct (Rlt_dec 0 y); [lra|]. unfold v_of, field, fam. ring. Qed.
Lemma agree_weaken (P Q : R -> Prop) g h : (forall y, P y -> Q y) -> agree Q g h -> agree P g h.
Proof. intros I E x y HP. apply E. apply I. exact HP. Qed.

Lemma heat_equation k : conducts_heat (fun y => 0 < y) (temperature_at k) /\ conducts_heat (fun y => y < 0) (temperature_at k).
Proof.
  split; eapply heat_field; [exact open_up|exact (T_up k)|exact open_down|].
  apply (agree_weaken _ down); [unfold down; intros; lra|exact (T_down k)].
Qed.
Lemma stokes_equation k mt mb : exists p, creeping_flow (fun y => 0 < y) mt (velocity_x_at k) (velocity_y_at k) p /\ creeping_flow (fun y => y < 0) mb (velocity_x_at k) (velocity_y_at k) p.
Proof.
  set (pt := field 0 0 (- 2 * mt * ch_umax k * ch_w k) (ch_w k) (ch_Ca1 k) 0 (ch_Ca3 k) 0 (fun x => cos (ch_w k * x))). set (pb := field 0 0 (- 2 * mb * ch_umax k * ch_w k) (ch_w k) (ch_Cb1 k) 0 (ch_Cb3 k) 0 (fun x => cos (ch_w k * x))).
  exists (fun x y => if Rlt_dec 0 y then pt x y else pb x y). split.
  - apply (flow_field (fun y => 0 < y) mt _ _ _ (ch_umax k) (ch_w k) (ch_Ca1 k) (ch_Ca2 k) (ch_Ca3 k) open_up (u_up k) (v_up k)). intros x y H. destruct (Rlt_dec 0 y); [reflexivity|contradiction].
  - apply (flow_field (fun y => y < 0) mb _ _ _ (ch_umax k) (ch_w k) (ch_Cb1 k) (ch_Cb2 k) (ch_Cb3 k) open_down).
    + apply (agree_weaken _ down); [unfold down; intros; lra|exact (u_down k)].
    + apply (agree_weaken _ down); [unfold down; intros; lra|exact (v_down k)].
    + intros x y H. destruct (Rlt_dec 0 y); [lra|reflexivity].
Qed.

Lemma fam_zero w A B C E : fam w A B C E 0 = A.
Proof. unfold fam. rewrite !Rmult_0_r, cosh_0, sinh_0. ring. Qed.
Lemma right_of g F d : (forall y, 0 <= y -> g y = F y) -> derivable_pt_lim F 0 d -> right_derivative g 0 d.
Proof. intros E H eps He. destruct (H eps He) as (dl & Hd). exists dl. split; [apply cond_pos|]. intros h Hh. rewrite !E by lra. apply Hd; [lra|]. rewrite Rabs_right by lra. apply Hh. Qed.
Lemma left_of g F d : (forall y, y <= 0 -> g y = F y) -> derivable_pt_lim F 0 d -> left_derivative g 0 d.
Proof. intros E H eps He. destruct (H eps He) as (dl & Hd). exists dl. split; [apply cond_pos|]. intros h Hh. rewrite !E by lra. apply Hd; [lra|]. rewrite Rabs_left by lra. lra. Qed.

Section Solved.
  Variables (l_ref : Z) (kt kb th tc t0 st mu : R) (k : channel).
  Hypothesis H : channel_constants l_ref kt kb th tc t0 st mu = Some k.
  Let K := constants_ok _ _ _ _ _ _ _ _ _ H.
  Lemma hQ : sinh (ch_a k) ^ 2 - ch_a k ^ 2 <> 0. Proof. apply sinh_sq. exact (ok_a0 _ _ _ _ _ _ _ _ _ K). Qed.
  Lemma hw_a : ch_w k * ch_mp k = ch_a k. Proof. rewrite (ok_a _ _ _ _ _ _ _ _ _ K). ring. Qed.

  Lemma walls_temperature x : 0 < ch_mp k -> temperature_at k x (ch_mp k) = tc /\ temperature_at k x (- ch_mp k) = th + t0 * cos (ch_w k * x).
  Proof.
    intros Hm. pose proof (ok_ks0 _ _ _ _ _ _ _ _ _ K) as N1. pose proof (sinh_nz _ (ok_a0 _ _ _ _ _ _ _ _ _ K)) as N2. pose proof (cosh_pos (ch_a k)) as N3. split.
    - rewrite (T_up k) by exact Hm. unfold T_top, field, fam. rewrite hw_a. rewrite (ok_tt _ _ _ _ _ _ _ _ _ K), (ok_nom _ _ _ _ _ _ _ _ _ K), (ok_denom _ _ _ _ _ _ _ _ _ K). field. split; lra.
    - rewrite (T_down k) by (unfold down; lra). unfold T_bot, field, fam. replace (ch_w k * - ch_mp k) with (- ch_a k) by (rewrite <- hw_a; ring). rewrite sinh_opp, cosh_opp.
      rewrite (ok_tt _ _ _ _ _ _ _ _ _ K), (ok_nom _ _ _ _ _ _ _ _ _ K), (ok_denom _ _ _ _ _ _ _ _ _ K), (ok_f _ _ _ _ _ _ _ _ _ K), (ok_t0 _ _ _ _ _ _ _ _ _ K). field. repeat split; lra.
  Qed.
  Lemma interface_value x : T_top k x 0 = T_bot k x 0.
  Proof. unfold T_top, T_bot, field. rewrite !fam_zero. ring. Qed.
  Lemma interface_heat x : exists dt db, right_derivative (temperature_at k x) 0 dt /\ left_derivative (temperature_at k x) 0 db /\ kt * dt = kb * db.
  Proof.
    eexists. eexists. split; [|split].
    - apply (right_of _ (T_top k x)); [|apply field_y]. intros y Hy. destruct (Rlt_dec 0 y) as [P|P]; [apply T_up; exact P|]. replace y with 0 by lra. rewrite T_down by (unfold down; lra). symmetry. apply interface_value.
    - apply (left_of _ (T_bot k x)); [|apply field_y]. intros y Hy. apply T_down. exact Hy.
    - unfold field. rewrite !fam_zero. rewrite (ok_ks _ _ _ _ _ _ _ _ _ K). pose proof (ok_kb _ _ _ _ _ _ _ _ _ K) as N1. assert (N2 : ch_denom k <> 0) by (rewrite (ok_denom _ _ _ _ _ _ _ _ _ K); apply Rmult_integral_contrapositive_currified; [exact (ok_mp0 _ _ _ _ _ _ _ _ _ K)|exact (ok_ks0 _ _ _ _ _ _ _ _ _ K)]).
      field. split; assumption.
  Qed.
  Lemma walls_velocity x : 0 < ch_mp k -> velocity_x_at k x (ch_mp k) = 0 /\ velocity_y_at k x (ch_mp k) = 0 /\ velocity_x_at k x (- ch_mp k) = 0 /\ velocity_y_at k x (- ch_mp k) = 0.
  Proof.
    intros Hm. pose proof hQ as N. pose proof (ch_sq (ch_a k)) as CS. assert (E : ch_w k = ch_a k / ch_mp k) by (rewrite <- hw_a; field; lra).
    assert (V1 : fam (ch_w k) 0 (ch_Ca1 k) (ch_Ca2 k) (ch_Ca3 k) (ch_mp k) = 0).
    { unfold fam. rewrite hw_a, (ok_Ca1 _ _ _ _ _ _ _ _ _ K), (ok_Ca2 _ _ _ _ _ _ _ _ _ K), (ok_Ca3 _ _ _ _ _ _ _ _ _ K). field. exact N. }
    assert (V2 : fam (ch_w k) (ch_Ca1 k + ch_w k * ch_Ca2 k) (ch_w k * ch_Ca3 k) (ch_Ca3 k) (ch_w k * ch_Ca1 k) (ch_mp k) = 0).
    { unfold fam. rewrite hw_a. replace (ch_Ca1 k + ch_w k * ch_Ca2 k + ch_w k * ch_Ca3 k * ch_mp k) with (ch_Ca1 k + ch_w k * ch_Ca2 k + ch_a k * ch_Ca3 k) by (rewrite <- hw_a; ring). replace (ch_Ca3 k + ch_w k * ch_Ca1 k * ch_mp k) with (ch_Ca3 k + ch_a k * ch_Ca1 k) by (rewrite <- hw_a; ring).
      replace (ch_w k * ch_Ca2 k) with (- ch_a k ^ 2 / (sinh (ch_a k) ^ 2 - ch_a k ^ 2)) by (rewrite (ok_Ca2 _ _ _ _ _ _ _ _ _ K), <- hw_a at 1; rewrite <- hw_a; field; rewrite hw_a; exact N).
      rewrite (ok_Ca1 _ _ _ _ _ _ _ _ _ K), (ok_Ca3 _ _ _ _ _ _ _ _ _ K). transitivity (ch_a k * sinh (ch_a k) * (1 + sinh (ch_a k) ^ 2 - cosh (ch_a k) ^ 2) / (sinh (ch_a k) ^ 2 - ch_a k ^ 2)); [field; exact N|rewrite CS; field; exact N]. }
    assert (M : forall A B C F y, fam (ch_w k) A B C F (- y) = fam (ch_w k) A (- B) (- C) F y) by (intros; unfold fam; replace (ch_w k * - y) with (- (ch_w k * y)) by ring; rewrite sinh_opp, cosh_opp; ring).
    split; [rewrite u_up by exact Hm; unfold u_of, field; rewrite V2; ring|]. split; [rewrite v_up by exact Hm; unfold v_of, field; rewrite V1; ring|].
    split.
    - rewrite u_down by (unfold down; lra). unfold u_of, field. rewrite M, (ok_Cb1 _ _ _ _ _ _ _ _ _ K), (ok_Cb2 _ _ _ _ _ _ _ _ _ K), (ok_Cb3 _ _ _ _ _ _ _ _ _ K). replace (- (ch_w k * - ch_Ca3 k)) with (ch_w k * ch_Ca3 k) by ring. rewrite Ropp_involutive, V2. ring.
    - rewrite v_down by (unfold down; lra). unfold v_of, field. rewrite M, (ok_Cb1 _ _ _ _ _ _ _ _ _ K), (ok_Cb2 _ _ _ _ _ _ _ _ _ K), (ok_Cb3 _ _ _ _ _ _ _ _ _ K).
      replace (fam (ch_w k) 0 (- ch_Ca1 k) (- ch_Ca2 k) (- ch_Ca3 k) (ch_mp k)) with (- fam (ch_w k) 0 (ch_Ca1 k) (ch_Ca2 k) (ch_Ca3 k) (ch_mp k)) by (unfold fam; ring). rewrite V1. ring.
  Qed.
  Lemma hC : ch_Ca1 k + ch_w k * ch_Ca2 k = 1.
  Proof.
    rewrite (ok_Ca1 _ _ _ _ _ _ _ _ _ K), (ok_Ca2 _ _ _ _ _ _ _ _ _ K). pose proof hQ as N. transitivity ((sinh (ch_a k) ^ 2 - (ch_w k * ch_mp k) * ch_a k) / (sinh (ch_a k) ^ 2 - ch_a k ^ 2)); [field; exact N|]. rewrite hw_a. field. exact N.
  Qed.
  Lemma interface_velocity x : u_of k (ch_Ca1 k) (ch_Ca2 k) (ch_Ca3 k) x 0 = ch_umax k * sin (ch_w k * x) /\ u_of k (ch_Cb1 k) (ch_Cb2 k) (ch_Cb3 k) x 0 = ch_umax k * sin (ch_w k * x) /\
    v_of k (ch_Ca1 k) (ch_Ca2 k) (ch_Ca3 k) x 0 = 0 /\ v_of k (ch_Cb1 k) (ch_Cb2 k) (ch_Cb3 k) x 0 = 0.
  Proof. unfold u_of, v_of, field. rewrite !fam_zero, (ok_Cb1 _ _ _ _ _ _ _ _ _ K), (ok_Cb2 _ _ _ _ _ _ _ _ _ K), hC. repeat split; ring. Qed.
  (* stresses at the interface: d_y u_x from above and below, and d_x T *)
  Lemma interface_stress x : exists s, right_derivative (velocity_x_at k x) 0 s /\ left_derivative (velocity_x_at k x) 0 (- s) /\
    exists dT, partial_x (temperature_at k) x 0 dT /\ 2 * mu * s = - st * dT /\ dT = - (t0 * (ch_w k * (sinh (ch_a k) * ch_f k)) * sin (ch_w k * x)).
  Proof.
    exists (2 * ch_w k * ch_Ca3 k * ch_umax k * sin (ch_w k * x)). destruct (interface_velocity x) as (I1 & I2 & _). split; [|split].
    - eapply right_of; [|eapply lim_eq; [|apply (field_y 0 0 (ch_umax k) (ch_w k) (ch_Ca1 k + ch_w k * ch_Ca2 k) (ch_w k * ch_Ca3 k) (ch_Ca3 k) (ch_w k * ch_Ca1 k) (fun x => sin (ch_w k * x)) x 0)]].
      + intros y Hy. destruct (Rlt_dec 0 y) as [P|P]; [apply u_up; exact P|]. replace y with 0 by lra. rewrite u_down by (unfold down; lra). rewrite I2. symmetry. exact I1.
      + unfold field. rewrite fam_zero. ring.
    - eapply left_of; [intros y Hy; apply u_down; exact Hy|]. eapply lim_eq; [|apply field_y]. unfold field. rewrite fam_zero, (ok_Cb3 _ _ _ _ _ _ _ _ _ K). ring.
    - eexists. split; [|split; [|reflexivity]].
      + apply (agree_x down _ _ x 0 _ (T_down k)); [unfold down; lra|]. eapply lim_eq; [|apply (field_x _ _ _ _ _ _ _ _ _ (fun x => - ch_w k * sin (ch_w k * x))); apply lim_cos]. unfold field. rewrite fam_zero, (ok_t0 _ _ _ _ _ _ _ _ _ K). ring.
      + pose proof (ok_umax _ _ _ _ _ _ _ _ _ K) as E. pose proof (ok_mu _ _ _ _ _ _ _ _ _ K) as N.
        transitivity (2 * mu * ch_w k * sin (ch_w k * x) * (ch_umax k * (2 * ch_Ca3 k))); [ring|]. rewrite E. field. exact N.
  Qed.
End Solved.

(* ---------- the arrays ---------- *)
Definition point (lo hi : R) (n i : nat) : R := lo + INR i * ((hi - lo) / INR (n - 1)).
Lemma linspace_length lo hi n : length (linspace lo hi n) = n.
Proof. destruct n as [|[|n]]; [reflexivity|reflexivity|]. unfold linspace. rewrite map_length, seq_length. reflexivity. Qed.
Lemma nth_error_seq a n i : (i < n)%nat -> nth_error (seq a n) i = Some (a + i)%nat.
Proof. revert a i. induction n as [|n IH]; intros a i Hi; [lia|]. destruct i as [|i]; cbn; [f_equal; lia|]. rewrite IH by lia. f_equal. lia. Qed.
Lemma nth_error_map_in {A B} (g : A -> B) l i v : nth_error l i = Some v -> nth_error (map g l) i = Some (g v).
Proof. intros E. rewrite nth_error_map, E. reflexivity. Qed.
Lemma linspace_point lo hi n i : (i < n)%nat -> nth_error (linspace lo hi n) i = Some (point lo hi n i).
Proof.
  intros Hi. destruct n as [|[|n]]; [lia| |].
  - assert (i = 0%nat) by lia. subst i. cbn. unfold point. cbn [INR]. f_equal. ring.
  - unfold linspace. rewrite (nth_error_map_in _ _ i i) by (rewrite nth_error_seq by lia; reflexivity). reflexivity.
Qed.
Lemma entry_filled g xx yy i j x y : nth_error xx i = Some x -> nth_error yy j = Some y -> entry (filled g xx yy) i j = Some (g x y).
Proof. intros Ex Ey. unfold entry, filled. rewrite (nth_error_map_in _ _ _ _ Ex), (nth_error_map_in _ _ _ _ Ey). reflexivity. Qed.
Lemma entry_transposed n m u i j v : (i < n)%nat -> (j < m)%nat -> entry u i j = Some v -> entry (transposed n m u) j i = Some v.
Proof.
  intros Hi Hj E. unfold entry, transposed. rewrite (nth_error_map_in _ _ j j) by (rewrite nth_error_seq by lia; reflexivity). rewrite (nth_error_map_in _ _ i i) by (rewrite nth_error_seq by lia; reflexivity).
  f_equal. unfold entry in E. destruct (nth_error u i) as [row|] eqn:Er; [|discriminate]. rewrite (nth_error_nth _ _ _ Er). apply nth_error_nth. exact E.
Qed.
Lemma entry_mesh_x xx yy i j x y : nth_error xx i = Some x -> nth_error yy j = Some y -> entry (fst (meshgrid xx yy)) j i = Some x.
Proof. intros Ex Ey. unfold entry, meshgrid. cbn [fst]. rewrite (nth_error_map_in _ _ _ _ Ey). exact Ex. Qed.
Lemma entry_mesh_y xx yy i j x y : nth_error xx i = Some x -> nth_error yy j = Some y -> entry (snd (meshgrid xx yy)) j i = Some y.
Proof. intros Ex Ey. unfold entry, meshgrid. cbn [snd]. rewrite (nth_error_map_in _ _ _ _ Ey). apply (nth_error_map_in (fun _ => y) _ _ _ Ex). Qed.
Lemma entry_rect (u : array) n m : length u = n -> (forall row, In row u -> length row = m) -> forall i j, ((n <= i)%nat \/ (m <= j)%nat) -> entry u i j = None.
Proof.
  intros L R0 i j Hij. unfold entry. destruct (nth_error u i) as [row|] eqn:Er; [|reflexivity]. assert (nth_error u i <> None) as NN by congruence. apply nth_error_Some in NN.
  apply nth_error_None. apply nth_error_In in Er. rewrite (R0 _ Er). destruct Hij; lia.
Qed.

Section Arrays.
  Variables (l_ref : Z) (lx ly : nat) (kt kb th tc t0 st mu : R) (k : channel).
  Hypothesis HK : channel_constants l_ref kt kb th tc t0 st mu = Some k.
  Let xx := linspace (- IZR l_ref - 1 / 2) (IZR l_ref - 1 / 2) lx.
  Let yy := linspace (- ch_mp k) (ch_mp k) ly.
  Let F (tr : bool) (g : R -> R -> R) : array := if tr then transposed (length xx) (length yy) (filled g xx yy) else filled g xx yy.
  Lemma solution_is tr : analytical_solution_microchannel l_ref lx ly kt kb th tc t0 st mu tr =
    Some {| so_x := fst (meshgrid xx yy); so_y := snd (meshgrid xx yy); so_ux := F tr (velocity_x_at k); so_uy := F tr (velocity_y_at k); so_t := F tr (temperature_at k) |}.
  Proof.
    unfold analytical_solution_microchannel. rewrite HK. cbn [obind]. fold xx yy. pose proof (constants_ok _ _ _ _ _ _ _ _ _ HK) as K.
    assert (N : ch_denom k <> 0) by (rewrite (ok_denom _ _ _ _ _ _ _ _ _ K); apply Rmult_integral_contrapositive_currified; [exact (ok_mp0 _ _ _ _ _ _ _ _ _ K)|exact (ok_ks0 _ _ _ _ _ _ _ _ _ K)]).
    replace (match xx, yy with [], _ | _, [] => Some tt | _, _ => if Req_EM_T (ch_denom k) 0 then None else Some tt end) with (Some tt).
    - cbn [obind]. unfold meshgrid, F. destruct tr; reflexivity.
    - destruct xx, yy; try reflexivity. destruct (Req_EM_T (ch_denom k) 0); [contradiction|reflexivity].
  Qed.
  Lemma F_entry g i j : (i < lx)%nat -> (j < ly)%nat -> let x := point (- IZR l_ref - 1 / 2) (IZR l_ref - 1 / 2) lx i in let y := point (- ch_mp k) (ch_mp k) ly j in
    entry (F true g) j i = Some (g x y) /\ entry (F false g) i j = Some (g x y).
  Proof.
    intros Hi Hj x y. assert (E : entry (filled g xx yy) i j = Some (g x y)) by (apply entry_filled; apply linspace_point; assumption). split; [|exact E].
    unfold F. apply entry_transposed; [unfold xx; rewrite linspace_length; exact Hi|unfold yy; rewrite linspace_length; exact Hj|exact E].
  Qed.
  Lemma mesh_entry i j : (i < lx)%nat -> (j < ly)%nat -> entry (fst (meshgrid xx yy)) j i = Some (point (- IZR l_ref - 1 / 2) (IZR l_ref - 1 / 2) lx i) /\ entry (snd (meshgrid xx yy)) j i = Some (point (- ch_mp k) (ch_mp k) ly j).
  Proof. intros Hi Hj. split; [eapply entry_mesh_x|eapply entry_mesh_y]; apply linspace_point; assumption. Qed.
  Lemma mesh_rect i j : ((lx <= i)%nat \/ (ly <= j)%nat) -> entry (fst (meshgrid xx yy)) j i = None /\ entry (snd (meshgrid xx yy)) j i = None.
  Proof.
    intros Hij. split; apply (entry_rect _ ly lx); try tauto; cbn [meshgrid fst snd]; try (rewrite map_length; apply linspace_length); intros row Hr; apply in_map_iff in Hr; destruct Hr as (v & <- & _); [apply linspace_length|rewrite map_length; apply linspace_length].
  Qed.
  Lemma F_rect g i j : ((lx <= i)%nat \/ (ly <= j)%nat) -> entry (F true g) j i = None /\ entry (F false g) i j = None.
  Proof.
    intros Hij. split; [apply (entry_rect _ ly lx); [| |destruct Hij; [right|left]; assumption]|apply (entry_rect _ lx ly); [| |exact Hij]]; unfold F, transposed, filled.
    - rewrite map_length, seq_length. apply linspace_length.
    - intros row Hr. apply in_map_iff in Hr. destruct Hr as (v & <- & _). rewrite map_length, seq_length. apply linspace_length.
    - rewrite map_length. apply linspace_length.
    - intros row Hr. apply in_map_iff in Hr. destruct Hr as (v & <- & _). rewrite map_length. apply linspace_length.
  Qed.
End Arrays.

(* ---------- the period of the solution ---------- *)
Lemma period l_ref kt kb th tc t0 st mu k x y : channel_constants l_ref kt kb th tc t0 st mu = Some k ->
  temperature_at k (x + 2 * IZR l_ref) y = temperature_at k x y /\ velocity_x_at k (x + 2 * IZR l_ref) y = velocity_x_at k x y /\ velocity_y_at k (x + 2 * IZR l_ref) y = velocity_y_at k x y.
Proof.
  intros H. pose proof (constants_ok _ _ _ _ _ _ _ _ _ H) as K. assert (E : ch_w k * (x + 2 * IZR l_ref) = ch_w k * x + 2 * PI) by (rewrite (ok_w _ _ _ _ _ _ _ _ _ K); field; exact (ok_l _ _ _ _ _ _ _ _ _ K)).
  assert (C : cos (ch_w k * (x + 2 * IZR l_ref)) = cos (ch_w k * x)) by (rewrite E, cos_plus, cos_2PI, sin_2PI; ring). assert (D : sin (ch_w k * (x + 2 * IZR l_ref)) = sin (ch_w k * x)) by (rewrite E, sin_plus, cos_2PI, sin_2PI; ring).
  unfold temperature_at, velocity_x_at, velocity_y_at. rewrite C, D. repeat split.
Qed.
Lemma mp_pos l_ref kt kb th tc t0 st mu k : (4 <= l_ref)%Z -> channel_constants l_ref kt kb th tc t0 st mu = Some k -> 0 < ch_mp k.
Proof. intros L H. rewrite (ok_mp _ _ _ _ _ _ _ _ _ (constants_ok _ _ _ _ _ _ _ _ _ H)). unfold channel_mp. apply IZR_lt. assert (2 <= l_ref / 2)%Z by (apply Z.div_le_lower_bound; lia). lia. Qed.
Lemma interface_through l_ref kt kb th tc t0 st mu k : channel_constants l_ref kt kb th tc t0 st mu = Some k -> forall x,
  velocity_y_at k x 0 = 0 /\ exists d e, right_derivative (velocity_y_at k x) 0 d /\ left_derivative (velocity_y_at k x) 0 e.
Proof.
  intros H x. destruct (interface_velocity _ _ _ _ _ _ _ _ _ H x) as (_ & _ & I3 & I4). assert (Z0 : velocity_y_at k x 0 = 0) by (rewrite v_down by (unfold down; lra); exact I4). split; [exact Z0|].
  eexists. eexists. split.
  - eapply right_of; [|apply (field_y 0 0 (- ch_w k * ch_umax k) (ch_w k) 0 (ch_Ca1 k) (ch_Ca2 k) (ch_Ca3 k) (fun x => cos (ch_w k * x)) x 0)].
    intros y Hy. destruct (Rlt_dec 0 y) as [P|P]; [apply v_up; exact P|]. replace y with 0 by lra. rewrite Z0. symmetry. exact I3.
  - eapply left_of; [intros y Hy; apply v_down; exact Hy|]. apply field_y.
Qed.
Lemma stress_balance l_ref kt kb th tc t0 st mu k : channel_constants l_ref kt kb th tc t0 st mu = Some k ->
  forall x, exists dt db dT, right_derivative (velocity_x_at k x) 0 dt /\ left_derivative (velocity_x_at k x) 0 db /\ partial_x (temperature_at k) x 0 dT /\
  forall mt mb, mt * dt - mb * db = - st * dT <-> (mt + mb) / 2 = mu \/ st * dT = 0.
Proof.
  intros H x. destruct (interface_stress _ _ _ _ _ _ _ _ _ H x) as (s & A & B & dT & C & E & _). exists s, (- s), dT. split; [exact A|]. split; [exact B|]. split; [exact C|].
  intros mt mb. pose proof (ok_mu _ _ _ _ _ _ _ _ _ (constants_ok _ _ _ _ _ _ _ _ _ H)) as N. split.
  - intros G. assert (D : ((mt + mb) / 2 - mu) * s = 0) by lra. apply Rmult_integral in D. destruct D as [D|D]; [left; lra|right]. rewrite D in E. lra.
  - intros [G|G]; [rewrite <- E, <- G; field|]. assert (S0 : mu * s = 0) by lra. apply Rmult_integral in S0. destruct S0 as [S0|S0]; [contradiction|]. rewrite S0. lra.
Qed.
Lemma stress_unbalanced l_ref kt kb th tc t0 st mu k mt : channel_constants l_ref kt kb th tc t0 st mu = Some k -> mt <> mu -> st <> 0 -> t0 <> 0 ->
  exists x dt db dT, right_derivative (velocity_x_at k x) 0 dt /\ left_derivative (velocity_x_at k x) 0 db /\ partial_x (temperature_at k) x 0 dT /\
  mt * dt - mu * db <> - st * dT /\ mu * dt - mt * db <> - st * dT.
Proof.
  intros H N S0 T0. pose proof (constants_ok _ _ _ _ _ _ _ _ _ H) as K. exists (IZR l_ref / 2). destruct (interface_stress _ _ _ _ _ _ _ _ _ H (IZR l_ref / 2)) as (s & A & B & dT & C & E & D). exists s, (- s), dT.
  split; [exact A|]. split; [exact B|]. split; [exact C|].
  assert (W : ch_w k * (IZR l_ref / 2) = PI / 2) by (rewrite (ok_w _ _ _ _ _ _ _ _ _ K); field; exact (ok_l _ _ _ _ _ _ _ _ _ K)). rewrite W, sin_PI2 in D.
  assert (ND : dT <> 0).
  { rewrite D. apply Ropp_neq_0_compat. rewrite Rmult_1_r. pose proof (ok_w0 _ _ _ _ _ _ _ _ _ K) as Q1. pose proof (sinh_nz _ (ok_a0 _ _ _ _ _ _ _ _ _ K)) as Q2. pose proof (ok_ks0 _ _ _ _ _ _ _ _ _ K) as Q3. pose proof (cosh_pos (ch_a k)) as Q4.
    apply Rmult_integral_contrapositive_currified; [exact T0|]. apply Rmult_integral_contrapositive_currified; [exact Q1|]. apply Rmult_integral_contrapositive_currified; [exact Q2|].
    rewrite (ok_f _ _ _ _ _ _ _ _ _ K). unfold Rdiv. rewrite Rmult_1_l. apply Rinv_neq_0_compat. apply Rmult_integral_contrapositive_currified; [|apply Rgt_not_eq; exact Q4]. apply Rmult_integral_contrapositive_currified; assumption. }
  assert (NS : s <> 0) by (intros Z; rewrite Z in E; assert (Q0 : st * dT = 0) by lra; apply Rmult_integral in Q0; tauto).
  assert (G : mt * s + mu * s <> 2 * mu * s) by (intros G; assert (Q0 : (mt - mu) * s = 0) by lra; apply Rmult_integral in Q0; destruct Q0; [lra|contradiction]). split; intros G'; apply G; lra.
Qed.
