From Coq Require Import List ZArith Reals Lra Lia Psatz.
From Verif Require Import StencilModel RealLib RateModel.
Import ListNotations.
Local Open Scope R_scope.

Lemma rdiv_Some a b c : rdiv a b = Some c -> b <> 0 /\ c = a / b.
Proof. unfold rdiv. destruct (Req_EM_T b 0); [discriminate|]. intros H; injection H as <-. auto. Qed.
Lemma rsqrt_Some a c : rsqrt a = Some c -> 0 <= a /\ c = sqrt a.
Proof. unfold rsqrt. destruct (Rlt_dec a 0); [discriminate|]. intros H; injection H as <-. split; [lra|reflexivity]. Qed.
Lemma obind_Some {A B} (o : option A) (f : A -> option B) b : obind o f = Some b -> exists a, o = Some a /\ f a = Some b.
Proof. destruct o; simpl; [eauto|discriminate]. Qed.

Ltac osplit H :=
  repeat match type of H with
  | obind _ _ = Some _ => let a := fresh "a" in let E := fresh "E" in apply obind_Some in H as (a & E & H)
  end.

(* ---- C24 ---- *)
Lemma rate_of_viscosity nu : 6 * nu + 1 <> 0 ->
  exists w, relaxation_rate_from_lattice_viscosity nu = Some w /\ w <> 0 /\
            lattice_viscosity_from_relaxation_rate w = Some nu.
Proof.
  intros H. unfold relaxation_rate_from_lattice_viscosity, lattice_viscosity_from_relaxation_rate.
  rewrite rdiv_ok by exact H. exists (2 / (6 * nu + 1)). split; [reflexivity|].
  assert (2 / (6 * nu + 1) <> 0).
  { unfold Rdiv. apply Rmult_integral_contrapositive_currified; [lra|]. apply Rinv_neq_0_compat; exact H. }
  split; [assumption|]. rewrite rdiv_ok by lra. f_equal. field. exact H.
Qed.

Lemma viscosity_of_rate w : w <> 0 ->
  exists nu, lattice_viscosity_from_relaxation_rate w = Some nu /\ 6 * nu + 1 <> 0 /\
             relaxation_rate_from_lattice_viscosity nu = Some w.
Proof.
  intros H. unfold relaxation_rate_from_lattice_viscosity, lattice_viscosity_from_relaxation_rate.
  rewrite rdiv_ok by lra. eexists. split; [reflexivity|].
  assert (E : 6 * ((2 - w) / (6 * w)) + 1 = 2 / w) by (field; exact H).
  assert (2 / w <> 0).
  { unfold Rdiv. apply Rmult_integral_contrapositive_currified; [lra|]. apply Rinv_neq_0_compat; exact H. }
  rewrite E. split; [assumption|]. rewrite rdiv_ok by assumption. f_equal. field. exact H.
Qed.

Lemma rate_range nu w : relaxation_rate_from_lattice_viscosity nu = Some w -> (0 < nu <-> 0 < w < 2).
Proof.
  intros H. apply rdiv_Some in H as [Hn ->]. split.
  - intros Hp. split; [apply Rdiv_lt_0_compat; lra|].
    apply Rmult_lt_reg_r with (6 * nu + 1); [lra|]. unfold Rdiv. rewrite Rmult_assoc, Rinv_l by lra. lra.
  - intros [H1 H2].
    assert (0 < 6 * nu + 1).
    { destruct (Rlt_or_le 0 (6 * nu + 1)) as [h|h]; [exact h|]. exfalso.
      assert (6 * nu + 1 < 0) by lra. assert (/ (6 * nu + 1) < 0) by (apply Rinv_lt_0_compat; assumption).
      unfold Rdiv in H1. nra. }
    assert (2 / (6 * nu + 1) * (6 * nu + 1) < 2 * (6 * nu + 1)) by (apply Rmult_lt_compat_r; assumption).
    unfold Rdiv in *. rewrite Rmult_assoc, Rinv_l in * by lra. lra.
Qed.

Lemma rate_decreasing nu nu' w w' : 0 < nu -> nu < nu' ->
  relaxation_rate_from_lattice_viscosity nu = Some w -> relaxation_rate_from_lattice_viscosity nu' = Some w' -> w' < w.
Proof.
  intros H1 H2 H3 H4. apply rdiv_Some in H3 as [_ ->]. apply rdiv_Some in H4 as [_ ->].
  unfold Rdiv. apply Rmult_lt_compat_l; [lra|]. apply Rinv_lt_contravar; nra.
Qed.

Lemma magic_rate w magic : 0 < w < 2 -> 0 < magic ->
  exists w', relaxation_rate_from_magic_number w magic = Some w' /\ 0 < w' < 2 /\
             (1 / w - 1 / 2) * (1 / w' - 1 / 2) = magic.
Proof.
  intros Hw Hm. unfold relaxation_rate_from_magic_number.
  assert (Hd : 0 < 4 * magic * w + 2 - w) by nra.
  rewrite rdiv_ok by lra. eexists. split; [reflexivity|]. split.
  - split; [apply Rdiv_lt_0_compat; lra|]. apply Rmult_lt_reg_r with (4 * magic * w + 2 - w); [lra|].
    unfold Rdiv. rewrite Rmult_assoc, Rinv_l by lra. nra.
  - field. repeat split; lra.
Qed.

Lemma magic_unique w w1 w2 : 0 < w < 2 -> w1 <> 0 -> w2 <> 0 ->
  (1 / w - 1 / 2) * (1 / w1 - 1 / 2) = (1 / w - 1 / 2) * (1 / w2 - 1 / 2) -> w1 = w2.
Proof.
  intros Hw H1 H2 E. apply Rmult_eq_reg_l in E.
  - assert (E' : / w1 = / w2) by (unfold Rdiv in E; lra). rewrite <- (Rinv_inv w1), E'. apply Rinv_inv.
  - assert (1 / w > 1 / 2). { unfold Rdiv. apply Rmult_gt_compat_l; [lra|]. apply Rinv_lt_contravar; nra. } lra.
Qed.

Lemma scaling_viscosity w s nu : 0 < w < 2 -> 0 < s -> lattice_viscosity_from_relaxation_rate w = Some nu ->
  exists w', relaxation_rate_scaling w s = Some w' /\ 0 < w' < 2 /\
             lattice_viscosity_from_relaxation_rate w' = Some (s * nu).
Proof.
  intros Hw Hs Hnu. apply rdiv_Some in Hnu as [_ ->]. unfold relaxation_rate_scaling.
  assert (Hd : 0 < w / 2 + s * (1 - w / 2)) by nra.
  rewrite rdiv_ok by lra. eexists. split; [reflexivity|].
  assert (H0 : 0 < w / (w / 2 + s * (1 - w / 2))) by (apply Rdiv_lt_0_compat; lra).
  split.
  - split; [exact H0|]. apply Rmult_lt_reg_r with (w / 2 + s * (1 - w / 2)); [lra|].
    unfold Rdiv at 1. rewrite Rmult_assoc, Rinv_l by lra. nra.
  - unfold lattice_viscosity_from_relaxation_rate. rewrite rdiv_ok by lra. f_equal. field. repeat split; lra.
Qed.

Lemma scaling_compose w s1 s2 w1 w2 : 0 < w < 2 -> 0 < s1 -> 0 < s2 ->
  relaxation_rate_scaling w s1 = Some w1 -> relaxation_rate_scaling w1 s2 = Some w2 ->
  relaxation_rate_scaling w (s1 * s2) = Some w2.
Proof.
  intros Hw H1 H2 E1 E2. apply rdiv_Some in E1 as [Ha ->]. apply rdiv_Some in E2 as [Hb ->].
  assert (0 < w / 2 + s1 * s2 * (1 - w / 2)). { assert (0 < s1 * s2) by nra. nra. }
  assert (0 < w / 2 + s1 * (1 - w / 2)) by nra.
  unfold relaxation_rate_scaling. rewrite rdiv_ok by lra. f_equal.
  set (d := w / 2 + s1 * (1 - w / 2)) in *.
  assert (Hq : w / d / 2 + s2 * (1 - w / d / 2) = (w / 2 + s1 * s2 * (1 - w / 2)) / d).
  { field_simplify_eq; [|lra]. unfold d. field. }
  rewrite Hq. field. split; lra.
Qed.

Lemma scaling_one w : relaxation_rate_scaling w 1 = Some w.
Proof.
  unfold relaxation_rate_scaling. replace (w / 2 + 1 * (1 - w / 2)) with 1 by lra. rewrite rdiv_ok by lra. f_equal. field.
Qed.

(* ---- C25 ---- *)

Definition consistent (s : scaling) : Prop := s_re s = reynolds_number (s_len s) (s_vel s) (s_visc s).
Lemma apply_setter_consistent s c : consistent s -> consistent (apply_setter s c).
Proof. destruct c; unfold consistent; simpl; auto. Qed.
Lemma setters_consistent calls s : consistent s -> consistent (fold_left apply_setter calls s).
Proof. revert s; induction calls as [|c calls IH]; simpl; intros s H; [exact H|]. apply IH, apply_setter_consistent, H. Qed.

Definition setter_val (s : scaling) : Prop := 0 < s_len s /\ 0 < s_vel s /\ 0 < s_visc s /\ 0 < s_cells s.

Section Scal.
  Context (s : scaling) (Hc : consistent s) (Hp : setter_val s).
  Let Hl : 0 < s_len s. Proof. apply Hp. Qed.
  Let Hv : 0 < s_vel s. Proof. apply Hp. Qed.
  Let Hn : 0 < s_visc s. Proof. apply Hp. Qed.
  Let Hcl : 0 < s_cells s. Proof. apply Hp. Qed.

  Lemma dx_pos : exists dx, s_dx s = Some dx /\ 0 < dx /\ dx = s_len s / s_cells s.
  Proof. unfold s_dx. rewrite rdiv_ok by lra. eexists. split; [reflexivity|]. split; [apply Rdiv_lt_0_compat; assumption|reflexivity]. Qed.

  Lemma re_val : s_re s = Some (s_len s * s_vel s / s_visc s).
  Proof. rewrite Hc. unfold reynolds_number. rewrite rdiv_ok by lra. simpl. f_equal. field. lra. Qed.

  Lemma fixed_velocity_ok u : 0 < u ->
    exists w dt nu, fixed_lattice_velocity_scaling s u = Some (w, dt) /\ 0 < dt /\ 0 < w < 2 /\
      lattice_viscosity_from_relaxation_rate w = Some nu /\
      reynolds_number (s_cells s) u nu = s_re s /\ dt * s_vel s = u * (s_len s / s_cells s).
  Proof.
    intros Hu. unfold fixed_lattice_velocity_scaling. destruct dx_pos as (dx & -> & Hdx & Edx). cbn [obind].
    rewrite rdiv_ok by lra. cbn [obind]. assert (0 < dx * dx) by nra. rewrite rdiv_ok by lra. cbn [obind].
    set (dt := u / s_vel s * dx). set (nu := s_visc s * dt / (dx * dx)).
    assert (Hdt : 0 < dt) by (unfold dt; apply Rmult_lt_0_compat; [apply Rdiv_lt_0_compat|]; assumption).
    assert (Hnu : 0 < nu) by (unfold nu; apply Rdiv_lt_0_compat; [apply Rmult_lt_0_compat; assumption|assumption]).
    destruct (rate_of_viscosity nu) as (w & Ew & Hw & Ev); [lra|]. rewrite Ew. cbn [obind].
    exists w, dt, nu. split; [reflexivity|]. split; [exact Hdt|]. split; [apply (rate_range nu w Ew); exact Hnu|].
    split; [exact Ev|]. split.
    - rewrite re_val. unfold reynolds_number. rewrite rdiv_ok by lra. cbn [obind]. f_equal.
      unfold nu, dt. rewrite Edx. field. repeat split; lra.
    - unfold dt. rewrite Edx. field. split; lra.
  Qed.

  Lemma diffusive_ok w : 0 < w < 2 ->
    exists dt u nu, diffusive_scaling s w = Some (dt, u) /\ 0 < dt /\ 0 < u /\
      lattice_viscosity_from_relaxation_rate w = Some nu /\
      reynolds_number (s_cells s) u nu = s_re s /\
      fixed_lattice_velocity_scaling s u = Some (w, dt).
  Proof.
    intros Hw. unfold diffusive_scaling. destruct (viscosity_of_rate w) as (nu & En & H6 & Ew); [lra|].
    rewrite En. cbn [obind].
    assert (Hnu : 0 < nu). { apply (rate_range nu w Ew). exact Hw. }
    rewrite rdiv_ok by lra. cbn [obind]. rewrite rdiv_ok by lra. cbn [obind].
    set (dx := s_len s / s_cells s). assert (Hdx : 0 < dx) by (apply Rdiv_lt_0_compat; assumption).
    rewrite rdiv_ok by lra. cbn [obind]. set (dt := nu / s_visc s * (dx * dx)).
    assert (Hdt : 0 < dt). { unfold dt. apply Rmult_lt_0_compat; [apply Rdiv_lt_0_compat; assumption|nra]. }
    exists dt, (dt / dx * s_vel s), nu. split; [reflexivity|]. split; [exact Hdt|].
    assert (Hu : 0 < dt / dx * s_vel s) by (apply Rmult_lt_0_compat; [apply Rdiv_lt_0_compat; assumption|exact Hv]).
    split; [exact Hu|]. split; [reflexivity|]. split.
    - rewrite re_val. unfold reynolds_number. rewrite rdiv_ok by lra. cbn [obind]. f_equal.
      unfold dt, dx. field. repeat split; lra.
    - unfold fixed_lattice_velocity_scaling, s_dx. rewrite rdiv_ok by lra. fold dx. cbn [obind].
      rewrite rdiv_ok by lra. cbn [obind]. rewrite rdiv_ok by nra. cbn [obind].
      replace (dt / dx * s_vel s / s_vel s * dx) with dt by (field; lra).
      replace (s_visc s * dt / (dx * dx)) with nu by (unfold dt; field; lra).
      rewrite Ew. reflexivity.
  Qed.

  Lemma acoustic_ok dt : 0 < dt ->
    exists w u nu, acoustic_scaling s dt = Some (w, u) /\ 0 < u /\ 0 < w < 2 /\
      lattice_viscosity_from_relaxation_rate w = Some nu /\
      reynolds_number (s_cells s) u nu = s_re s /\
      fixed_lattice_velocity_scaling s u = Some (w, dt).
  Proof.
    intros Hdt. unfold acoustic_scaling. destruct dx_pos as (dx & Edx' & Hdx & Edx). rewrite Edx'. cbn [obind].
    rewrite rdiv_ok by lra. cbn [obind]. assert (0 < dx * dx) by nra. rewrite rdiv_ok by lra. cbn [obind].
    set (nu := s_visc s * dt / (dx * dx)).
    assert (Hnu : 0 < nu) by (unfold nu; apply Rdiv_lt_0_compat; [apply Rmult_lt_0_compat; assumption|assumption]).
    destruct (rate_of_viscosity nu) as (w & Ew & Hw & Ev); [lra|]. rewrite Ew. cbn [obind].
    assert (Hu : 0 < dt / dx * s_vel s) by (apply Rmult_lt_0_compat; [apply Rdiv_lt_0_compat; assumption|exact Hv]).
    exists w, (dt / dx * s_vel s), nu. split; [reflexivity|]. split; [exact Hu|]. split; [apply (rate_range nu w Ew); exact Hnu|].
    split; [exact Ev|]. split.
    - rewrite re_val. unfold reynolds_number. rewrite rdiv_ok by lra. cbn [obind]. f_equal.
      unfold nu. rewrite Edx. field. repeat split; lra.
    - unfold fixed_lattice_velocity_scaling. rewrite Edx'. cbn [obind].
      rewrite rdiv_ok by lra. cbn [obind]. rewrite rdiv_ok by lra. cbn [obind].
      replace (dt / dx * s_vel s / s_vel s * dx) with dt by (field; lra).
      fold nu. rewrite Ew. reflexivity.
  Qed.
End Scal.

(* ---- C26 ---- *)
Lemma frob_nonneg D M f n : 0 <= f -> frobenius_norm D M f = Some n -> 0 <= n.
Proof. intros Hf H. apply rsqrt_Some in H as [_ ->]. apply sqrt_pos. Qed.
Lemma sumsq_nonneg D M : 0 <= rsum (map (fun x => x * x) (entries D M)).
Proof. apply rsum_nonneg. intros a _. nra. Qed.
Lemma frob_ok D M f : 0 <= f -> frobenius_norm D M f = Some (sqrt (rsum (map (fun x => x * x) (entries D M)) * f)).
Proof. intros Hf. apply rsqrt_ok. pose proof (sumsq_nonneg D M). nra. Qed.

Lemma smagorinsky_ok D S c w rho fneq nu0 : 0 < w < 2 -> 0 < rho ->
  lattice_viscosity_from_relaxation_rate w = Some nu0 ->
  exists w' Pi nu', smagorinsky D S c w rho fneq = Some (w', Pi) /\ 0 < w' <= w /\ 0 <= Pi /\
    lattice_viscosity_from_relaxation_rate w' = Some nu' /\
    nu' = nu0 + smagorinsky_eddy_viscosity c w' Pi /\ 0 <= smagorinsky_eddy_viscosity c w' Pi.
Proof.
  intros Hw Hr Hnu. apply rdiv_Some in Hnu as [_ ->]. unfold smagorinsky.
  rewrite rdiv_ok by lra. cbn [obind]. rewrite frob_ok by lra. cbn [obind]. rewrite rdiv_ok by lra. cbn [obind].
  set (Pi := sqrt _ / rho). assert (HPi : 0 <= Pi).
  { unfold Pi, Rdiv. apply Rmult_le_pos; [apply sqrt_pos|]. left. apply Rinv_0_lt_compat; exact Hr. }
  clearbody Pi. set (t0 := 1 / w). assert (Ht0 : 0 < t0) by (apply Rdiv_lt_0_compat; lra).
  assert (HX : 0 <= 18 * (c * c) * Pi) by nra.
  rewrite rsqrt_ok by nra. cbn [obind]. set (X := 18 * (c * c) * Pi) in *.
  assert (Hs : t0 <= sqrt (X + t0 * t0)).
  { rewrite <- (sqrt_square t0) at 1 by lra. apply sqrt_le_1_alt. lra. }
  assert (Hs2 : sqrt (X + t0 * t0) * sqrt (X + t0 * t0) = X + t0 * t0) by (apply sqrt_sqrt; nra).
  set (q := sqrt (X + t0 * t0)) in *.
  rewrite rdiv_ok by lra. cbn [obind].
  assert (Hw' : 0 < 2 / (t0 + q)) by (apply Rdiv_lt_0_compat; lra).
  exists (2 / (t0 + q)), Pi. unfold lattice_viscosity_from_relaxation_rate. rewrite rdiv_ok by lra.
  eexists. split; [reflexivity|]. split.
  { split; [exact Hw'|]. apply Rmult_le_reg_r with (t0 + q); [lra|]. unfold Rdiv. rewrite Rmult_assoc, Rinv_l by lra.
    assert (w * t0 = 1) by (unfold t0; field; lra). nra. }
  split; [exact HPi|]. split; [reflexivity|].
  assert (Heddy : smagorinsky_eddy_viscosity c (2 / (t0 + q)) Pi = (q - t0) / 6).
  { unfold smagorinsky_eddy_viscosity.
    assert (EX : (q - t0) * (t0 + q) = X) by nra.
    apply Rmult_eq_reg_r with (6 * (t0 + q)); [|lra].
    replace ((q - t0) / 6 * (6 * (t0 + q))) with X by (rewrite <- EX; field).
    unfold X. field. lra. }
  rewrite Heddy. split; [|lra].
  assert (Ew : w = 1 / t0) by (unfold t0; field; lra). rewrite Ew at 1 2. field. repeat split; lra.
Qed.

(* the docstring's definition: nu_t = C^2 |S|, |S| = sqrt(2 S_ij S_ij), S_ij = -3 w'/(2 rho) Pi_ij *)
Lemma entries_scal D M k : rsum (map (fun x => x * x) (entries D (fun i j => k * M i j))) = k * k * rsum (map (fun x => x * x) (entries D M)).
Proof.
  assert (E : entries D (fun i j => k * M i j) = map (Rmult k) (entries D M)).
  { unfold entries. cut (forall l l', flat_map (fun i => map (fun j => k * M i j) l) l' = map (Rmult k) (flat_map (fun i => map (M i) l) l')); [intros h; apply h|].
    intros l l'. induction l' as [|i l' IH]; [reflexivity|]. cbn [flat_map]. rewrite map_app, IH, map_map. reflexivity. }
  rewrite E, map_map. rewrite <- rsum_scal. apply rsum_ext. intros a _. ring.
Qed.

Lemma smagorinsky_strain D S c w rho fneq w' Pi : 0 < w < 2 -> 0 < rho ->
  smagorinsky D S c w rho fneq = Some (w', Pi) ->
  smagorinsky_eddy_viscosity c w' Pi =
  c * c * sqrt (2 * rsum (map (fun x => x * x) (entries D (fun i j => - (3 * w') / (2 * rho) * second_order_moment fneq S i j)))).
Proof.
  intros Hw Hr H.
  assert (Hw' : 0 < w').
  { destruct (smagorinsky_ok D S c w rho fneq ((2 - w) / (6 * w)) Hw Hr) as (w1 & P1 & n1 & E & H1 & _).
    - unfold lattice_viscosity_from_relaxation_rate. apply rdiv_ok. lra.
    - rewrite H in E. injection E as <- <-. apply H1. }
  unfold smagorinsky in H. rewrite rdiv_ok in H by lra. cbn [obind] in H. rewrite frob_ok in H by lra. cbn [obind] in H.
  rewrite rdiv_ok in H by lra. cbn [obind] in H. apply obind_Some in H as (sq & _ & H).
  apply obind_Some in H as (a0 & _ & H). injection H as H <-. subst a0.
  unfold smagorinsky_eddy_viscosity. rewrite entries_scal.
  set (Q := rsum _). assert (HQ : 0 <= Q) by apply sumsq_nonneg.
  set (k := - (3 * w') / (2 * rho)).
  replace (2 * (k * k * Q)) with ((k * k) * (Q * 2)) by ring.
  rewrite (sqrt_mult (k * k) (Q * 2)) by nra.
  assert (Hk : sqrt (k * k) = 3 * w' / (2 * rho)).
  { replace (k * k) with ((3 * w' / (2 * rho)) * (3 * w' / (2 * rho))) by (unfold k; field; lra).
    apply sqrt_square. apply Rlt_le, Rdiv_lt_0_compat; lra. }
  rewrite Hk. field. lra.
Qed.

Lemma trace_sq_sym D M : (forall i j, M i j = M j i) -> trace_sq D M = rsum (map (fun x => x * x) (entries D M)).
Proof.
  intros H. unfold trace_sq, entries.
  cut (forall l l', rsum (map (fun i => rsum (map (fun k => M i k * M k i) l)) l') =
                    rsum (map (fun x => x * x) (flat_map (fun i => map (M i) l) l'))); [intros h; apply h|].
  intros l l'. induction l' as [|i l' IH]; [reflexivity|]. cbn [map flat_map]. rewrite map_app, rsum_app, rsum_cons, IH. f_equal.
  rewrite map_map. apply rsum_ext. intros k _. rewrite (H k i). reflexivity.
Qed.

Lemma som_sym f S i j : second_order_moment f S i j = second_order_moment f S j i.
Proof. unfold second_order_moment. apply rsum_ext. intros a _. ring. Qed.

Lemma qr_ok D S c w rho fneq nu0 : D = 2%nat \/ D = 3%nat -> 0 < w < 2 -> 0 < rho -> 0 <= c ->
  lattice_viscosity_from_relaxation_rate w = Some nu0 ->
  (exists i j, (i < D)%nat /\ (j < D)%nat /\ second_order_moment fneq S i j <> 0) ->
  exists w' nu_e, qr_model D S c w rho fneq = Some (w', nu_e) /\ 0 <= nu_e /\ 0 < w' <= w /\
    lattice_viscosity_from_relaxation_rate w' = Some (nu0 + nu_e).
Proof.
  intros HD Hw Hr Hc Hnu (i & j & Hi & Hj & Hij).
  assert (Hn0 : 0 < nu0). { destruct (viscosity_of_rate w) as (n & E & _ & E'); [lra|]. rewrite Hnu in E. injection E as <-.
    apply (rate_range nu0 w E'). exact Hw. }
  unfold qr_model. rewrite Hnu. cbn [obind].
  set (M := second_order_moment fneq S) in *.
  assert (Hq : 0 < trace_sq D M).
  { rewrite trace_sq_sym by apply som_sym.
    destruct (Rle_lt_or_eq_dec 0 _ (sumsq_nonneg D M)) as [h|h]; [exact h|]. exfalso. symmetry in h.
    assert (Hin : In (M i j) (entries D M)).
    { unfold entries. apply in_flat_map. exists i. split; [apply in_seq; lia|]. apply in_map, in_seq; lia. }
    assert (0 = M i j * M i j). { symmetry. apply (rsum_zero_inv (fun x => x * x) _ (fun a _ => Rle_0_sqr a) h _ Hin). }
    nra. }
  assert (Hr' : exists r, qr_r D M = Some r).
  { destruct HD; subst; eexists; reflexivity. }
  destruct Hr' as (r & ->). cbn [obind].
  rewrite rdiv_ok by lra. cbn [obind].
  set (cp := _ / _). assert (Hcp : 0 <= cp).
  { unfold cp, Rdiv. apply Rmult_le_pos; [|left; apply Rinv_0_lt_compat; lra].
    apply Rmult_le_pos; [exact Hc|]. destruct (Rgt_dec r 0); lra. }
  clearbody cp.
  assert (HE : exists nu_e, qr_nu_e D nu0 cp rho = Some nu_e /\ 0 <= nu_e).
  { destruct HD; subst D; [exists cp; auto|]. unfold qr_nu_e. cbv zeta. rewrite rdiv_ok by lra. cbn [obind].
    assert (0 <= 72 * cp / rho). { unfold Rdiv. apply Rmult_le_pos; [lra|]. left; apply Rinv_0_lt_compat; exact Hr. }
    rewrite rsqrt_ok by nra. cbn [obind]. eexists. split; [reflexivity|].
    assert (6 * nu0 + 1 <= sqrt ((6 * nu0 + 1) * (6 * nu0 + 1) + 72 * cp / rho)).
    { rewrite <- (sqrt_square (6 * nu0 + 1)) at 1 by lra. apply sqrt_le_1_alt. lra. }
    lra. }
  destruct HE as (nu_e & -> & He). cbn [obind].
  destruct (rate_of_viscosity (nu0 + nu_e)) as (w' & Ew & Hw' & Ev); [lra|]. rewrite Ew. cbn [obind].
  exists w', nu_e. split; [reflexivity|]. split; [exact He|]. split; [|exact Ev].
  split; [apply (rate_range _ _ Ew); lra|].
  destruct (viscosity_of_rate w) as (n & E & _ & E'); [lra|]. rewrite Hnu in E. injection E as <-.
  destruct (Req_dec nu_e 0) as [->|Hne].
  - rewrite Rplus_0_r in Ew. rewrite Ew in E'. injection E' as <-. lra.
  - left. apply (rate_decreasing nu0 (nu0 + nu_e)); try assumption; lra.
Qed.

(* 3D: nu_e solves the implicit definition nu_e = c_pi / (rho * base + 2 ...): checked as the root equation *)
Lemma qr_root D S c w rho fneq w' nu_e nu0 : D = 3%nat -> 0 < w < 2 -> 0 < rho ->
  lattice_viscosity_from_relaxation_rate w = Some nu0 ->
  qr_model D S c w rho fneq = Some (w', nu_e) ->
  let M := second_order_moment fneq S in
  nu_e * (6 * nu_e + (6 * nu0 + 1)) = 3 * (c * Rmax (det3 M) 0 / (1 / 2 * trace_sq 3 M)) / rho.
Proof.
  intros -> Hw Hr Hnu H M. unfold qr_model in H. fold M in H. rewrite Hnu in H. cbn [obind] in H.
  unfold qr_r in H. cbn [obind] in H. apply obind_Some in H as (cp & Hcp & H). apply rdiv_Some in Hcp as [Hq Hcp].
  unfold qr_nu_e in H. cbv zeta in H. rewrite rdiv_ok in H by lra. cbn [obind] in H.
  apply obind_Some in H as (ne & Hne & H). apply obind_Some in Hne as (sq & Hsq & Hne). injection Hne as <-.
  apply rsqrt_Some in Hsq as [Hpos ->].
  apply obind_Some in H as (w1 & _ & H). injection H as <- <-.
  set (b := 6 * nu0 + 1) in *.
  assert (Hs : sqrt (b * b + 72 * cp / rho) * sqrt (b * b + 72 * cp / rho) = b * b + 72 * cp / rho) by (apply sqrt_sqrt; exact Hpos).
  set (q := sqrt _) in *. 
  assert (E : c * Rmax (det3 M) 0 / (1 / 2 * trace_sq 3 M) = cp).
  { rewrite Hcp. f_equal. f_equal. replace ((-1) ^ 4 * det3 M) with (det3 M) by ring. unfold Rmax.
    destruct (Rgt_dec (det3 M) 0), (Rle_dec (det3 M) 0); lra. }
  rewrite E. replace ((- b + q) / 12 * (6 * ((- b + q) / 12) + b)) with ((q * q - b * b) / 24) by field.
  rewrite Hs. field. lra.
Qed.

Lemma som_zero S n i j : second_order_moment (repeat 0 n) S i j = 0.
Proof.
  unfold second_order_moment. revert S; induction n as [|n IH]; intros [|d S]; try reflexivity.
  cbn [repeat combine map]. rewrite rsum_cons, IH. simpl. ring.
Qed.

Lemma trace_sq_zero D M : (forall i j, M i j = 0) -> trace_sq D M = 0.
Proof.
  intros H. unfold trace_sq. rewrite (rsum_ext _ (fun _ => 0)); [apply rsum_zero|].
  intros i _. rewrite (rsum_ext _ (fun _ => 0)); [apply rsum_zero|]. intros k _. rewrite H. ring.
Qed.

Lemma qr_undefined D S c w rho n : qr_model D S c w rho (repeat 0 n) = None.
Proof.
  unfold qr_model. destruct (lattice_viscosity_from_relaxation_rate w); [|reflexivity]. cbn [obind].
  rewrite trace_sq_zero by (intros; apply som_zero). rewrite Rmult_0_r.
  destruct (qr_r D _) as [rr|]; [|reflexivity]. cbn [obind]. rewrite rdiv_zero. reflexivity.
Qed.

Lemma cassons_bounds D S ys lo hi w rho fneq w' : lo <= hi ->
  cassons D S ys lo hi w rho fneq = Some w' -> lo <= w' <= hi.
Proof.
  intros Hb H. unfold cassons in H. osplit H. injection H as <-.
  destruct (Rlt_dec _ lo); [lra|]. destruct (Rgt_dec _ hi); lra.
Qed.

Lemma cassons_newtonian D S lo hi w rho fneq : 0 < w < 2 -> rho > 0 -> lo <= w <= hi ->
  (exists i j, (i < D)%nat /\ (j < D)%nat /\ second_order_moment fneq S i j <> 0) ->
  cassons D S 0 lo hi w rho fneq = Some w.
Proof.
  intros Hw Hr Hb (i & j & Hi & Hj & Hij). unfold cassons, cassons_mu. rewrite frob_ok by lra. cbn [obind].
  set (M := second_order_moment fneq S) in *.
  assert (Hin : In (M i j) (entries D M)).
  { unfold entries. apply in_flat_map. exists i. split; [apply in_seq; lia|]. apply in_map, in_seq; lia. }
  assert (Hs : 0 < rsum (map (fun x => x * x) (entries D M)) * 1).
  { rewrite Rmult_1_r. destruct (Rle_lt_or_eq_dec 0 _ (sumsq_nonneg D M)) as [h|h]; [exact h|]. exfalso. symmetry in h.
    assert (0 = M i j * M i j). { symmetry. apply (rsum_zero_inv (fun x => x * x) _ (fun a _ => Rle_0_sqr a) h _ Hin). }
    nra. }
  destruct (viscosity_of_rate w) as (eta & E & H6 & Ew); [lra|]. rewrite E. cbn [obind].
  assert (He : 0 < eta). { apply (rate_range eta w Ew). exact Hw. }
  rewrite rdiv_ok by (apply Rgt_not_eq, sqrt_lt_R0; exact Hs). cbn [obind].
  unfold Rdiv at 1 2. rewrite !Rmult_0_l. rewrite rdiv_ok by lra. cbn [obind]. rewrite rdiv_ok by lra. cbn [obind].
  rewrite rsqrt_ok by lra. cbn [obind]. rewrite Rmult_0_l, sqrt_0.
  replace (eta * (1 / (1 - 0) * (1 + 0) * (1 / (1 - 0) * (1 + 0)))) with eta by field.
  rewrite Ew. cbn [obind]. rewrite rdiv_ok by lra. cbn [obind].
  assert (0 < 1 / w) by (apply Rdiv_lt_0_compat; lra). rewrite rdiv_ok by lra. cbn [obind].
  replace (1 / (1 / w)) with w by (field; lra).
  destruct (Rlt_dec w lo); [lra|]. destruct (Rgt_dec w hi); [lra|]. reflexivity.
Qed.

(* below the yield stress the rate is undefined *)
Lemma cassons_undefined D S ys lo hi w rho fneq sigma eta : 0 < w < 2 -> 0 < rho ->
  frobenius_norm D (second_order_moment fneq S) 1 = Some sigma -> 0 < sigma ->
  lattice_viscosity_from_relaxation_rate w = Some eta ->
  ys > sigma * (1 + 6 * eta / rho) ->
  cassons D S ys lo hi w rho fneq = None.
Proof.
  intros Hw Hr Hs Hsp He Hy. unfold cassons, cassons_mu. rewrite Hs, He. cbn [obind]. rewrite rdiv_ok by lra. cbn [obind].
  assert (Heta : 0 < eta). { destruct (viscosity_of_rate w) as (n & E & _ & E'); [lra|]. rewrite He in E. injection E as <-.
    apply (rate_range eta w E'). exact Hw. }
  set (th := ys / sigma).
  assert (Hth : th > 1 + 6 * eta / rho).
  { unfold th. apply Rmult_gt_reg_l with sigma; [exact Hsp|]. replace (sigma * (ys / sigma)) with ys by (field; lra). exact Hy. }
  assert (0 < 6 * eta / rho) by (apply Rdiv_lt_0_compat; lra).
  rewrite rdiv_ok by lra. cbn [obind]. rewrite rdiv_ok by lra. cbn [obind].
  rewrite rsqrt_neg; [reflexivity|].
  assert (E : 1 + rho / eta * (1 / 6) * (1 - th) = rho / (6 * eta) * ((1 + 6 * eta / rho) - th)) by (field; lra).
  rewrite E. assert (0 < rho / (6 * eta)) by (apply Rdiv_lt_0_compat; lra).
  assert (rho / (6 * eta) * (1 + 6 * eta / rho - th) < 0) by nra. nra.
Qed.

Lemma cassons_at_rest D S ys lo hi w rho n : cassons D S ys lo hi w rho (repeat 0 n) = None.
Proof.
  unfold cassons, cassons_mu. rewrite frob_ok by lra. cbn [obind].
  destruct (lattice_viscosity_from_relaxation_rate w); [|reflexivity]. cbn [obind].
  replace (rsum (map (fun x => x * x) (entries D (second_order_moment (repeat 0 n) S)))) with 0.
  - rewrite Rmult_0_l, sqrt_0, rdiv_zero. reflexivity.
  - symmetry. rewrite (rsum_ext _ (fun _ => 0)); [apply rsum_zero|]. intros a Ha. unfold entries in Ha.
    apply in_flat_map in Ha as (i & _ & Ha). apply in_map_iff in Ha as (j & <- & _). rewrite som_zero. ring.
Qed.

Lemma viscosity_pos w nu : 0 < w < 2 -> lattice_viscosity_from_relaxation_rate w = Some nu -> 0 < nu.
Proof.
  intros Hw H. destruct (viscosity_of_rate w) as (n & E & _ & E'); [lra|]. rewrite H in E. injection E as <-.
  apply (rate_range nu w E'). exact Hw.
Qed.

(* above the yield stress: defined, at least the plastic viscosity, and the Casson law *)
Lemma cassons_mu_law ys w rho sigma eta : 0 < w < 2 -> 0 < rho -> 0 <= ys < sigma ->
  lattice_viscosity_from_relaxation_rate w = Some eta ->
  exists mu, cassons_mu ys w rho sigma = Some mu /\ eta <= mu /\
    sqrt mu = sqrt eta + sqrt (ys / (sigma / (mu + rho / 6))).
Proof.
  intros Hw Hr Hy He. pose proof (viscosity_pos w eta Hw He) as Heta. unfold cassons_mu. rewrite He. cbn [obind].
  rewrite rdiv_ok by lra. cbn [obind]. set (th := ys / sigma).
  assert (Hth : 0 <= th < 1).
  { unfold th. split; [apply Rmult_le_pos; [lra|]; left; apply Rinv_0_lt_compat; lra|].
    apply Rmult_lt_reg_r with sigma; [lra|]. unfold Rdiv. rewrite Rmult_assoc, Rinv_l by lra. lra. }
  rewrite rdiv_ok by lra. cbn [obind]. rewrite rdiv_ok by lra. cbn [obind].
  set (k := rho / eta * (1 / 6)). assert (Hk : 0 < k). { unfold k. apply Rmult_lt_0_compat; [apply Rdiv_lt_0_compat; lra|lra]. }
  assert (Hpos : 0 <= th * (1 + k * (1 - th))). { apply Rmult_le_pos; [lra|]. nra. }
  rewrite rsqrt_ok by exact Hpos. cbn [obind]. set (q := sqrt _).
  assert (Hq0 : 0 <= q) by apply sqrt_pos.
  assert (Hq : q * q = th * (1 + k * (1 - th))) by (apply sqrt_sqrt; exact Hpos).
  set (x := 1 / (1 - th) * (1 + q)).
  assert (Ex : x * (1 - th) = 1 + q) by (unfold x; field; lra).
  assert (Hx : 1 <= x) by nra.
  eexists. split; [reflexivity|]. split; [assert (1 <= x * x) by nra; nra|].
  rewrite sqrt_mult by nra. rewrite sqrt_square by lra.
  assert (EQ : (x - 1) * (x - 1) = th * (x * x + k)).
  { assert (E2 : (1 - th) * ((x - 1) * (x - 1) - th * (x * x + k)) = 0).
    { assert (E3 : (x * (1 - th) - 1) * (x * (1 - th) - 1) = th * (1 + k * (1 - th))).
      { rewrite Ex. rewrite <- Hq. ring. }
      nra. }
    apply Rmult_integral in E2 as [E2|E2]; lra. }
  assert (E : ys / (sigma / (eta * (x * x) + rho / 6)) = (x - 1) * (x - 1) * eta).
  { rewrite EQ. unfold th, k. field. repeat split; try lra; try nra. }
  rewrite E, sqrt_mult by nra. rewrite sqrt_square by lra. ring.
Qed.

Lemma cassons_defined D S ys lo hi w rho fneq sigma eta : 0 < w < 2 -> 0 < rho ->
  frobenius_norm D (second_order_moment fneq S) 1 = Some sigma -> 0 <= ys < sigma ->
  lattice_viscosity_from_relaxation_rate w = Some eta ->
  exists mu w1 w', cassons_mu ys w rho sigma = Some mu /\ relaxation_rate_from_lattice_viscosity mu = Some w1 /\ 0 < w1 <= w /\
    cassons D S ys lo hi w rho fneq = Some w' /\ (lo <= w1 <= hi -> w' = w1) /\ (w1 < lo -> w' = lo) /\ (lo <= w1 -> hi < w1 -> w' = hi).
Proof.
  intros Hw Hr Hs Hy He. destruct (cassons_mu_law ys w rho sigma eta Hw Hr Hy He) as (mu & Hmu & Hle & _).
  pose proof (viscosity_pos w eta Hw He) as Heta.
  destruct (rate_of_viscosity mu) as (w1 & Ew & Hw1 & Ev); [lra|].
  assert (Hw1p : 0 < w1 < 2) by (apply (rate_range mu w1 Ew); lra).
  exists mu, w1. eexists. split; [exact Hmu|]. split; [exact Ew|]. split.
  { split; [lra|]. destruct (viscosity_of_rate w) as (n & E & _ & E'); [lra|]. rewrite He in E. injection E as <-.
    destruct (Req_dec eta mu) as [<-|Hne]; [rewrite Ew in E'; injection E' as <-; lra|].
    left. apply (rate_decreasing eta mu); try assumption; lra. }
  assert (0 < 1 / w1) by (apply Rdiv_lt_0_compat; lra).
  split.
  { unfold cassons. rewrite Hs. cbn [obind]. rewrite Hmu. cbn [obind]. rewrite Ew. cbn [obind].
    rewrite rdiv_ok by exact Hw1. cbn [obind]. rewrite rdiv_ok by lra. cbn [obind].
    replace (1 / (1 / w1)) with w1 by (field; lra). reflexivity. }
  repeat split; intros; destruct (Rlt_dec w1 lo), (Rgt_dec w1 hi); lra.
Qed.

From Verif Require Import RateSpec.

Lemma visc_val w : w <> 0 -> lattice_viscosity_from_relaxation_rate w = Some (viscosity w).
Proof. intros H. unfold lattice_viscosity_from_relaxation_rate, viscosity. rewrite rdiv_ok by lra. f_equal. field. exact H. Qed.
Lemma re_val' len vel visc : visc <> 0 -> reynolds_number len vel visc = Some (Re len vel visc).
Proof. intros H. unfold reynolds_number, Re. rewrite rdiv_ok by exact H. cbn [obind]. f_equal. field. exact H. Qed.
Lemma sq_norm_entries D M : rsum (map (fun x => x * x) (entries D M)) = sq_norm D M.
Proof.
  unfold sq_norm, entries.
  cut (forall l l', rsum (map (fun x => x * x) (flat_map (fun i => map (M i) l) l')) =
     rsum (map (fun i => rsum (map (fun j => M i j * M i j) l)) l')); [intros h; apply h|].
  intros l l'. induction l' as [|i l' IH]; [reflexivity|]. cbn [map flat_map]. rewrite map_app, rsum_app, rsum_cons, IH, map_map. reflexivity.
Qed.

Lemma C24_rt1 nu : 6 * nu + 1 <> 0 ->
  exists w, relaxation_rate_from_lattice_viscosity nu = Some w /\ w <> 0 /\ viscosity w = nu /\
            lattice_viscosity_from_relaxation_rate w = Some nu.
Proof.
  intros H. destruct (rate_of_viscosity nu H) as (w & E & Hw & Ev). exists w. repeat split; try assumption.
  rewrite visc_val in Ev by exact Hw. injection Ev as <-. reflexivity.
Qed.
Lemma C24_rt2 w : w <> 0 ->
  lattice_viscosity_from_relaxation_rate w = Some (viscosity w) /\
  relaxation_rate_from_lattice_viscosity (viscosity w) = Some w.
Proof.
  intros H. split; [apply visc_val; exact H|]. destruct (viscosity_of_rate w H) as (nu & E & _ & Ew).
  rewrite visc_val in E by exact H. injection E as <-. exact Ew.
Qed.
Lemma C24_scal w s : 0 < w < 2 -> 0 < s ->
  exists w', relaxation_rate_scaling w s = Some w' /\ 0 < w' < 2 /\ viscosity w' = s * viscosity w.
Proof.
  intros Hw Hs. destruct (scaling_viscosity w s (viscosity w) Hw Hs) as (w' & E & H & Ev); [apply visc_val; lra|].
  exists w'. repeat split; try assumption; try lra. rewrite visc_val in Ev by lra. injection Ev as Ev. exact Ev.
Qed.

Definition scaling_after (len vel visc cells : R) (calls : list setter_call) : scaling :=
  fold_left apply_setter calls (mk_scaling len vel visc cells).
Lemma scaling_after_ok len vel visc cells calls : consistent (scaling_after len vel visc cells calls).
Proof. apply setters_consistent. reflexivity. Qed.
Lemma C25_re len vel visc cells calls :
  let s := scaling_after len vel visc cells calls in
  s_visc s <> 0 -> s_re s = Some (Re (s_len s) (s_vel s) (s_visc s)).
Proof. intros s H. rewrite (scaling_after_ok len vel visc cells calls : s_re s = _). apply re_val'. exact H. Qed.

Section C25.
  Context (s : scaling) (Hp : setter_val s).
  Let s' := parameter_update s.
  Let R0 := Re (s_len s) (s_vel s) (s_visc s).
  Lemma same_fixed u : fixed_lattice_velocity_scaling s' u = fixed_lattice_velocity_scaling s u. Proof. reflexivity. Qed.
  Lemma re_s' : s_re s' = Some R0.
  Proof. unfold s', R0. cbn. apply re_val'. destruct Hp as (_ & _ & H & _). lra. Qed.
  Lemma visc_of_some w nu : 0 < w < 2 -> lattice_viscosity_from_relaxation_rate w = Some nu -> nu = viscosity w.
  Proof. intros Hw E. rewrite visc_val in E by lra. injection E as <-. reflexivity. Qed.
  Lemma re_some c u w : 0 < w < 2 -> reynolds_number c u (viscosity w) = s_re s' -> Re c u (viscosity w) = R0.
  Proof.
    intros Hw E. rewrite re_s', re_val' in E; [injection E as E; exact E|].
    assert (0 < viscosity w); [|lra]. apply (viscosity_pos w); [exact Hw|]. apply visc_val. lra.
  Qed.
  Lemma C25_fixed u : 0 < u -> exists w dt, fixed_lattice_velocity_scaling s u = Some (w, dt) /\ 0 < dt /\ 0 < w < 2 /\
    Re (s_cells s) u (viscosity w) = R0 /\ u = s_vel s * dt / (s_len s / s_cells s).
  Proof.
    intros Hu. destruct (fixed_velocity_ok s' eq_refl Hp u Hu) as (w & dt & nu & E & H1 & H2 & E3 & E4 & E5).
    exists w, dt. apply visc_of_some in E3; [|exact H2]. subst nu. repeat split; try assumption; try lra.
    - apply re_some; assumption.
    - cbn in E5. destruct Hp as (P1 & P2 & P3 & P4). replace u with (dt * s_vel s / (s_len s / s_cells s)).
      + f_equal. ring. + rewrite E5. field. split; lra.
  Qed.
  Lemma C25_diff w : 0 < w < 2 -> exists dt u, diffusive_scaling s w = Some (dt, u) /\ 0 < dt /\ 0 < u /\
    Re (s_cells s) u (viscosity w) = R0 /\ fixed_lattice_velocity_scaling s u = Some (w, dt) /\
    acoustic_scaling s dt = Some (w, u).
  Proof.
    intros Hw. destruct (diffusive_ok s' eq_refl Hp w Hw) as (dt & u & nu & E & H1 & H2 & E3 & E4 & E5).
    exists dt, u. apply visc_of_some in E3; [|exact Hw]. subst nu. repeat split; try assumption; try lra.
    - apply re_some; assumption.
    - destruct (acoustic_ok s' eq_refl Hp dt H1) as (w1 & u1 & nu1 & F1 & F2 & F3 & F4 & F5 & F6).
      destruct (C25_fixed u H2) as (w2 & dt2 & G1 & _ & _ & _ & G2).
      destruct (C25_fixed u1 F2) as (w3 & dt3 & K1 & _ & _ & _ & K2).
      change (fixed_lattice_velocity_scaling s u = Some (w, dt)) in E5. change (fixed_lattice_velocity_scaling s u1 = Some (w1, dt)) in F6.
      rewrite G1 in E5; injection E5 as -> ->. rewrite K1 in F6; injection F6 as -> ->.
      assert (Eu : u1 = u) by congruence. rewrite Eu in F1, K1. rewrite G1 in K1. injection K1 as Ew. rewrite Ew. exact F1.
  Qed.
  Lemma C25_acou dt : 0 < dt -> exists w u, acoustic_scaling s dt = Some (w, u) /\ 0 < u /\ 0 < w < 2 /\
    Re (s_cells s) u (viscosity w) = R0 /\ fixed_lattice_velocity_scaling s u = Some (w, dt) /\
    diffusive_scaling s w = Some (dt, u).
  Proof.
    intros Hdt. destruct (acoustic_ok s' eq_refl Hp dt Hdt) as (w & u & nu & E & H1 & H2 & E3 & E4 & E5).
    exists w, u. apply visc_of_some in E3; [|exact H2]. subst nu. repeat split; try assumption; try lra.
    - apply re_some; assumption.
    - destruct (C25_diff w H2) as (dt1 & u1 & F1 & F2 & F3 & F4 & F5 & F6).
      assert (R1 : Re (s_cells s) u (viscosity w) = R0) by (apply re_some; assumption).
      rewrite <- F4 in R1. destruct Hp as (P1 & P2 & P3 & P4).
      assert (0 < viscosity w) by (apply (viscosity_pos w); [exact H2|]; apply visc_val; lra).
      assert (u = u1).
      { unfold Re in R1. apply Rmult_eq_reg_l with (s_cells s); [|lra].
        apply Rmult_eq_reg_r with (/ viscosity w); [exact R1|]. apply Rinv_neq_0_compat. lra. }
      subst u1. change (fixed_lattice_velocity_scaling s u = Some (w, dt)) in E5. rewrite E5 in F5. injection F5 as <-. exact F1.
  Qed.
End C25.

Lemma C26_smag D S c w rho fneq : 0 < w < 2 -> 0 < rho ->
  exists w' Pi, smagorinsky D S c w rho fneq = Some (w', Pi) /\ 0 < w' <= w /\
    viscosity w' = viscosity w + smagorinsky_eddy_viscosity c w' Pi /\
    smagorinsky_eddy_viscosity c w' Pi = c ^ 2 * strain_norm D S w' rho fneq.
Proof.
  intros Hw Hr. destruct (smagorinsky_ok D S c w rho fneq (viscosity w) Hw Hr) as (w' & Pi & nu' & E & H1 & H2 & E3 & E4 & E5); [apply visc_val; lra|].
  exists w', Pi. repeat split; try assumption; try lra.
  - rewrite visc_val in E3 by lra. injection E3 as E3. rewrite E3. exact E4.
  - rewrite (smagorinsky_strain D S c w rho fneq w' Pi Hw Hr E). unfold strain_norm. rewrite <- sq_norm_entries. simpl. ring_simplify. reflexivity.
Qed.

Lemma C26_qr D S c w rho fneq : D = 2%nat \/ D = 3%nat -> 0 < w < 2 -> 0 < rho -> 0 <= c ->
  (exists i j, (i < D)%nat /\ (j < D)%nat /\ stress S fneq i j <> 0) ->
  exists w' nu_e, qr_model D S c w rho fneq = Some (w', nu_e) /\ 0 <= nu_e /\ 0 < w' <= w /\
    viscosity w' = viscosity w + nu_e.
Proof.
  intros HD Hw Hr Hc Hne. destruct (qr_ok D S c w rho fneq (viscosity w) HD Hw Hr Hc) as (w' & nu_e & E & H1 & H2 & E3);
    [apply visc_val; lra|exact Hne|].
  exists w', nu_e. repeat split; try assumption; try lra. rewrite visc_val in E3 by lra. injection E3 as E3. exact E3.
Qed.

Lemma C26_casson_above D S ys lo hi w rho fneq :
  0 < w < 2 -> 0 < rho -> 0 <= ys < sqrt (sq_norm D (stress S fneq)) -> lo <= hi ->
  exists mu w', cassons_mu ys w rho (sqrt (sq_norm D (stress S fneq))) = Some mu /\
    cassons D S ys lo hi w rho fneq = Some w' /\ lo <= w' <= hi /\
    viscosity w <= mu /\
    sqrt mu = sqrt (viscosity w) + sqrt (ys / (sqrt (sq_norm D (stress S fneq)) / (mu + rho / 6))) /\
    (lo < w' < hi -> viscosity w' = mu).
Proof.
  intros Hw Hr Hy Hb. set (sg := sqrt _) in *.
  assert (Hs : frobenius_norm D (second_order_moment fneq S) 1 = Some sg).
  { rewrite frob_ok by lra. f_equal. unfold sg. rewrite Rmult_1_r, sq_norm_entries. reflexivity. }
  assert (He : lattice_viscosity_from_relaxation_rate w = Some (viscosity w)) by (apply visc_val; lra).
  destruct (cassons_mu_law ys w rho sg (viscosity w) Hw Hr Hy He) as (mu & Hmu & Hle & Hlaw).
  destruct (cassons_defined D S ys lo hi w rho fneq sg (viscosity w) Hw Hr Hs Hy He) as (mu' & w1 & w' & Hmu' & Hw1 & Hw1r & Hc & C1 & C2 & C3).
  rewrite Hmu in Hmu'. injection Hmu' as <-.
  exists mu, w'. split; [exact Hmu|]. split; [exact Hc|]. split; [apply (cassons_bounds D S ys lo hi w rho fneq); assumption|].
  split; [exact Hle|]. split; [exact Hlaw|]. intros Hin.
  assert (w' = w1). { destruct (Rlt_dec w1 lo); [lra|]. destruct (Rlt_dec hi w1); [lra|]. lra. }
  subst w1. pose proof (viscosity_pos w _ Hw He).
  destruct (C24_rt1 mu) as (w2 & F1 & F2 & F3 & _); [lra|]. rewrite Hw1 in F1. injection F1 as <-. exact F3.
Qed.

Lemma C26_casson_below D S ys lo hi w rho fneq :
  0 < w < 2 -> 0 < rho -> 0 < sqrt (sq_norm D (stress S fneq)) ->
  ys > sqrt (sq_norm D (stress S fneq)) * (1 + 6 * viscosity w / rho) ->
  cassons D S ys lo hi w rho fneq = None.
Proof.
  intros Hw Hr Hsg Hy. apply (cassons_undefined D S ys lo hi w rho fneq (sqrt (sq_norm D (stress S fneq))) (viscosity w) Hw Hr); try assumption.
  - rewrite frob_ok by lra. f_equal. rewrite Rmult_1_r, sq_norm_entries. reflexivity.
  - apply visc_val. lra.
Qed.
