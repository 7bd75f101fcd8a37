(* Musker's law as an equation for the friction velocity; the shear stress models; the wall function boundary rule. *)
From Coq Require Import List ZArith Bool Arith Reals Lra Lia Psatz.
From Verif Require Import StencilModel StencilProofs2 RealLib LinLib AccessModel StreamModel BoundModel WallModel WallSpec WallProofs WallProofs2.
Import ListNotations.
Local Open Scope R_scope.

Lemma continuity_deriv (f f' : R -> R) : (forall x, derivable_pt_lim f x (f' x)) -> continuity f.
Proof. intros H x. apply derivable_continuous_pt. exists (f' x). apply H. Qed.
Section Musk.
  Context (nu d U : R).
  Hypothesis (Hnu : 0 < nu) (Hd : 0 < d) (HU : 0 < U).
  Definition fmu t := mk (d * t / nu) - U / t.
  Definition fmu' t := mk' (d * t / nu) * (d / nu) + U / t ^ 2.
  Lemma mu_c : 0 < d / nu. Proof. now apply Rdiv_lt_0_compat. Qed.
  Lemma mu_yp t : 0 < t -> 0 < d * t / nu.
  Proof. intros. apply Rdiv_lt_0_compat; auto. apply Rmult_lt_0_compat; auto. Qed.
  Lemma musk_defined t : 0 < t -> musker_law nu d U t = Some (1 * fmu t) /\ musker_diff nu d U t = Some (1 * fmu' t).
  Proof.
    intros Ht. pose proof (pow_lt t 2 Ht). pose proof (mu_yp t Ht) as Y. set (y := d * t / nu) in *. pose proof (musker_A_pos y) as PA. pose proof (pow_lt _ 2 PA) as PA2.
    assert (Yt : 0 < y + 106 / 10) by lra. assert (Et : rdiv (d * t) nu = Some y) by (rewrite rdiv_ok by lra; reflexivity). unfold musker_law, musker_diff, with_plus. rewrite Et. rewrite (rdiv_ok U t) by lra. cbn [obind]. split.
    - destruct (Rlt_dec 0 (y + 106 / 10)) as [_|N]; [|contradiction]. rewrite rdiv_ok by lra. cbn [obind]. assert (PR : 0 < Rpower (y + 106 / 10) (96 / 10)) by apply exp_pos.
      rewrite rln_ok by (apply Rdiv_lt_0_compat; auto). cbn [obind]. f_equal. unfold fmu, mk. fold y. assert (LD : forall p q, 0 < p -> 0 < q -> ln (p / q) = ln p - ln q) by (intros; unfold Rdiv; rewrite ln_mult, ln_Rinv by (auto using Rinv_0_lt_compat); ring). rewrite LD by auto.
      unfold Rpower. rewrite ln_exp. replace (ln (musker_A y ^ 2)) with (2 * ln (musker_A y)); [ring|]. replace (musker_A y ^ 2) with (musker_A y * musker_A y) by ring. rewrite ln_mult by auto. ring.
    - rewrite !rdiv_ok by lra. cbn [obind]. f_equal. unfold fmu', mk', mB. fold y. unfold Rdiv. ring.
  Qed.
  Lemma fmu'_pos t : 0 < t -> 0 < fmu' t.
  Proof.
    intros Ht. unfold fmu'. apply Rplus_lt_0_compat; [apply Rmult_lt_0_compat; [apply mk'_pos; left; now apply mu_yp|apply mu_c]|apply Rdiv_lt_0_compat; auto using pow_lt].
  Qed.
  Lemma fmu_increasing s t : 0 < s -> s < t -> fmu s < fmu t.
  Proof.
    intros Hs H. unfold fmu. pose proof (mk_increasing (d * s / nu) (d * t / nu) ltac:(left; now apply mu_yp)) as M. assert (U / t < U / s).
    { unfold Rdiv. apply Rmult_lt_compat_l; auto. apply Rinv_lt_contravar; auto. apply Rmult_lt_0_compat; lra. }
    assert (d * s / nu < d * t / nu). { unfold Rdiv. apply Rmult_lt_compat_r; [now apply Rinv_0_lt_compat|]. nra. } specialize (M H1). lra.
  Qed.
  Lemma lo_yp t : nu / (5 * d) < t -> 1 / 5 <= d * t / nu.
  Proof.
    intros H. left. apply Rmult_lt_reg_r with (5 * nu / d); [apply Rdiv_lt_0_compat; lra|]. replace (d * t / nu * (5 * nu / d)) with (5 * t) by (field; lra). replace (1 / 5 * (5 * nu / d)) with (5 * (nu / (5 * d))) by (field; lra). lra.
  Qed.
  Lemma lo_pos : 0 < nu / (5 * d). Proof. apply Rdiv_lt_0_compat; lra. Qed.
  Lemma fmu_tangent s t : nu / (5 * d) < s -> nu / (5 * d) < t -> fmu s <= fmu t + fmu' t * (s - t).
  Proof.
    intros Hs Ht. pose proof lo_pos. pose proof (mk_tangent (d * t / nu) (d * s / nu) ltac:(now apply lo_yp) ltac:(now apply lo_yp)) as M. pose proof (inv_tangent s t ltac:(lra) ltac:(lra)) as I. unfold fmu, fmu'.
    assert (I2 : - (U / t ^ 2 * (s - t)) <= U / s - U / t). { replace (- (U / t ^ 2 * (s - t))) with (U * (/ t - (s - t) / t ^ 2 - / t)) by (field; lra). replace (U / s - U / t) with (U * (/ s - / t)) by (field; lra). apply Rmult_le_compat_l; lra. }
    replace (d * s / nu - d * t / nu) with (d / nu * (s - t)) in M by (field; lra). lra.
  Qed.
  Lemma fmu_deriv t : 0 < t -> derivable_pt_lim fmu t (fmu' t).
  Proof.
    intros Ht. replace (fmu' t) with (mk' (d * t / nu) * (d / nu) - U * - / t ^ 2) by (unfold fmu'; field; lra).
    apply derivable_pt_lim_minus with (f1 := fun t => mk (d * t / nu)) (f2 := fun t => U / t).
    - apply (derivable_pt_lim_comp (fun t => d * t / nu) mk).
      + apply derivable_pt_lim_ext with (f := fun t => d / nu * t + 0); [intros z; field; lra|apply linear_deriv].
      + apply mk_deriv. left. now apply mu_yp.
    - apply (derivable_pt_lim_scal (fun t => / t) U). now apply inv_deriv, Rgt_not_eq.
  Qed.
  Lemma mk_lower y : 0 <= y -> 56 / 10 * (434 / 1000) * ln (y + 106 / 10) - (5424 / 1000 * 2 + musker_c) <= mk y.
  Proof.
    intros Hy. unfold mk. pose proof (proj1 (atan_bound (musker_a * y - musker_b))) as A1. pose proof PI_4 as P4. pose proof (musker_A_pos y) as PA.
    assert (L : ln (musker_A y) <= 2 * ln (y + 106 / 10)).
    { replace (2 * ln (y + 106 / 10)) with (ln ((y + 106 / 10) * (y + 106 / 10))) by (rewrite ln_mult by lra; ring). assert (AL : musker_A y <= (y + 106 / 10) * (y + 106 / 10)) by (unfold musker_A; lra).
      destruct AL as [AL| ->]; [left; now apply ln_increasing|lra]. }
    lra.
  Qed.
  Lemma fmu_root : exists r, 0 < r /\ fmu r = 0.
  Proof.
    pose (h := fun s => fmu (exp s)).
    assert (C : continuity h).
    { apply continuity_deriv with (f' := fun s => fmu' (exp s) * exp s). intros s. apply (derivable_pt_lim_comp exp fmu); [apply derivable_pt_lim_exp|apply fmu_deriv, exp_pos]. }
    pose proof mu_c as Hc. assert (Ic : 0 < nu / d) by (apply Rdiv_lt_0_compat; auto).
    pose (M := Rabs (mk 1) + 1). assert (PM : 0 < M) by (unfold M; pose proof (Rabs_pos (mk 1)); lra).
    pose (t1 := Rmin (nu / d) (U / M)). assert (PUM : 0 < U / M) by (now apply Rdiv_lt_0_compat). assert (P1 : 0 < t1) by (unfold t1; apply Rmin_pos; auto).
    pose proof (Rmin_l (nu / d) (U / M)) as M1. pose proof (Rmin_r (nu / d) (U / M)) as M2. fold t1 in M1, M2.
    pose (K := 5424 / 1000 * 2 + musker_c). assert (PK : 0 < K) by (unfold K, musker_c; lra).
    pose (w := (U + K) / (56 / 10 * (434 / 1000))). assert (Pw : 0 < w) by (apply Rdiv_lt_0_compat; lra).
    pose (t2 := 1 + exp w * (nu / d)). pose proof (exp_ineq1 w ltac:(lra)) as Ew. assert (P2 : nu / d < exp w * (nu / d)) by nra.
    destruct (IVT h (ln t1) (ln t2) C) as (z & _ & Hz).
    - apply ln_increasing; auto. unfold t2. lra.
    - unfold h. rewrite exp_ln by auto. unfold fmu. assert (Y1 : d * t1 / nu <= 1). { apply Rmult_le_reg_r with (nu / d); auto. replace (d * t1 / nu * (nu / d)) with t1 by (field; lra). lra. }
      assert (mk (d * t1 / nu) <= mk 1) by (destruct Y1 as [Y1| ->]; [left; apply mk_increasing; auto; left; now apply mu_yp|lra]).
      assert (M <= U / t1). { apply Rmult_le_reg_r with t1; auto. replace (U / t1 * t1) with U by (field; lra). replace U with (M * (U / M)) by (field; lra). apply Rmult_le_compat_l; lra. }
      pose proof (Rle_abs (mk 1)). unfold M in *. lra.
    - unfold h. assert (Pt2 : 1 < t2) by (unfold t2; lra). rewrite exp_ln by lra. unfold fmu. pose proof (mu_yp t2 ltac:(lra)) as Y2. pose proof (mk_lower (d * t2 / nu) ltac:(lra)) as L. fold K in L.
      assert (w < ln (d * t2 / nu + 106 / 10)). { rewrite <- (ln_exp w) at 1. apply ln_increasing; [apply exp_pos|]. replace (d * t2 / nu) with (d / nu + exp w) by (unfold t2; field; lra). lra. }
      assert (56 / 10 * (434 / 1000) * w = U + K) by (unfold w; field). assert (U / t2 < U). { apply Rmult_lt_reg_r with t2; [lra|]. replace (U / t2 * t2) with U by (field; lra). nra. }
      nra.
    - exists (exp z). split; [apply exp_pos|exact Hz].
  Qed.
  Lemma fmu_friction r : friction_velocity musker_profile nu d U r <-> 0 < r /\ fmu r = 0.
  Proof.
    unfold friction_velocity, musker_profile, fmu, mk, musker_A, musker_a, musker_b, musker_c.
    replace 5.424 with (5424 / 1000) by lra. replace 0.434 with (434 / 1000) by lra. replace 9.6 with (96 / 10) by lra. replace 10.6 with (106 / 10) by lra. replace 8.15 with (815 / 100) by lra.
    split; intros [H E]; split; auto; lra.
  Qed.
End Musk.

(* ---- stress models ---- *)
Lemma implicit_ok law diff n target rho u t l : starts_at u target t -> newton_iteration law diff n t = Some l -> implicit_stress law diff n target rho u = Some (rho * last l 0 ^ 2).
Proof. intros Hs H. unfold implicit_stress. rewrite (guess_starts _ _ _ Hs), H. cbn [obind]. f_equal. ring. Qed.
Lemma implicit_none law diff n target rho u t : starts_at u target t -> newton_iteration law diff n t = None -> implicit_stress law diff n target rho u = None.
Proof. intros Hs H. unfold implicit_stress. now rewrite (guess_starts _ _ _ Hs), H. Qed.
Lemma implicit_nonneg law diff n target rho u tau : 0 <= rho -> implicit_stress law diff n target rho u = Some tau -> 0 <= tau.
Proof. intros Hr. unfold implicit_stress. destruct (newton_iteration _ _ _ _) as [l|]; cbn [obind]; [|discriminate]. intros [= <-]. apply Rmult_le_pos; auto. apply pow2_ge_0. Qed.
Lemma stress_nonneg m rho u d target tau : 0 <= rho -> shear_stress m rho u d target = Some tau -> 0 <= tau.
Proof.
  intros Hr. destruct m; cbn [shear_stress]; try now apply implicit_nonneg.
  unfold most_stress. destruct (rdiv d z0); cbn [obind]; [|discriminate]. destruct (rln _); cbn [obind]; [|discriminate]. destruct (rdiv _ _); cbn [obind]; [|discriminate]. intros [= <-]. apply Rmult_le_pos; auto. apply pow2_ge_0.
Qed.
Lemma with_plus_zero nu d u f : with_plus nu d u 0 f = None.
Proof. unfold with_plus. now rewrite rdiv_zero. Qed.
Lemma zero_undefined m rho d target : (target = None \/ target = Some 0) ->
  match m with MOST _ _ _ => False | LogLaw _ n _ _ | Spalding _ n _ _ | Musker _ n => (1 <= n)%nat end -> shear_stress m rho 0 d target = None.
Proof.
  intros Ht Hm. assert (Hs : starts_at 0 target 0) by (destruct Ht as [-> | ->]; [pose proof (start_default 0) as H|pose proof (start_zero 0) as H]; unfold Rdiv in H; now rewrite Rmult_0_l in H).
  destruct m as [z0 k phi|nu n k b|nu n k b|nu n]; [contradiction| | |]; cbn [shear_stress]; apply implicit_none with 0; auto; destruct n; try lia; cbn [newton_iteration];
  unfold log_law, spalding_law, musker_law; now rewrite with_plus_zero.
Qed.
Lemma sumsq_nonneg u l : 0 <= rsum (map (fun i => nth i u 0 ^ 2) l).
Proof. induction l; cbn [map]; [cbn; lra|]. rewrite rsum_cons. pose proof (pow2_ge_0 (nth a u 0)). lra. Qed.
Lemma tangential_speed_sqr axis u : tangential_speed axis u ^ 2 = rsum (map (fun i => nth i u 0 ^ 2) (tangential_axes axis)).
Proof.
  unfold tangential_speed. rewrite <- Rsqr_pow2. apply Rsqr_sqrt, sumsq_nonneg.
Qed.
Lemma speed_zero axis u : tangential_speed axis u = 0 <-> forall i, In i (tangential_axes axis) -> nth i u 0 = 0.
Proof.
  assert (G : forall l, rsum (map (fun i => nth i u 0 ^ 2) l) = 0 <-> forall i, In i l -> nth i u 0 = 0).
  { induction l as [|a l IH]; cbn [map In]; [cbn; split; [contradiction|reflexivity]|]. rewrite rsum_cons. pose proof (sumsq_nonneg u l) as P.
    pose proof (pow2_ge_0 (nth a u 0)) as Q. split.
    - intros H i [<-|Hi]; [|apply IH; [lra|auto]]. assert (E : nth a u 0 ^ 2 = 0) by lra. apply Rsqr_0_uniq. rewrite Rsqr_pow2. exact E.
    - intros H. rewrite (H a) by auto. rewrite (proj2 IH) by auto. ring. }
  rewrite <- G, <- tangential_speed_sqr. split; [intros ->; ring|]. intros H. apply Rsqr_0_uniq. now rewrite Rsqr_pow2.
Qed.
Lemma wall_stress_inv axis model target d rho u vs stress : wall_stress axis model target d rho u vs = Some stress ->
  exists fix_ tau, maronga_factor axis vs = Some fix_ /\ shear_stress model rho (tangential_speed axis u) d target = Some tau /\ tangential_speed axis u <> 0 /\
    stress = map (fun j => - nth j u 0 / tangential_speed axis u * tau * fix_) [0; 1; 2]%nat.
Proof.
  unfold wall_stress. destruct (maronga_factor axis vs) as [fx|]; cbn [obind]; [|discriminate]. destruct (shear_stress _ _ _ _ _) as [tau|]; cbn [obind]; [|discriminate]. unfold stress_component.
  destruct (Req_EM_T (tangential_speed axis u) 0) as [E|E]; [rewrite E, !rdiv_zero; discriminate|]. rewrite !rdiv_ok by auto. cbn [obind]. intros [= <-]. exists fx, tau. repeat split; auto.
Qed.
Lemma maronga_nonneg axis vs f : maronga_factor axis vs = Some f -> 0 <= f.
Proof.
  destruct vs as [[i m]|]; cbn [maronga_factor]; [|intros [= <-]; lra]. destruct (Req_EM_T (tangential_speed axis m) 0) as [E|E]; [rewrite E, rdiv_zero; discriminate|]. rewrite rdiv_ok by auto. intros [= <-].
  unfold Rdiv. apply Rmult_le_pos; [apply sqrt_pos|]. left. apply Rinv_0_lt_compat. pose proof (sqrt_pos (rsum (map (fun i => nth i m 0 ^ 2) (tangential_axes axis)))) as P. fold (tangential_speed axis m) in P. lra.
Qed.

(* ---- exchange with the wall ---- *)
Lemma wfb_ab_sum m : 2 * fst (wfb_ab m) + 4 * snd (wfb_ab m) = 1.
Proof. destruct m; cbn [wfb_ab fst snd]; [field|]. assert (0 < 2 * sqrt 2 + 4) by (pose proof (sqrt_pos 2); lra). field. lra. Qed.
Definition drag_of (Q : nat) (a b q : R) (axis : nat) (s : list R) (c : vec) : R :=
  rsum (map (fun i => IZR (nth i c 0%Z) * (q * (if Nat.eqb Q 19 then 1 / 2
    else let k := fold_right Z.add 0%Z (map (fun i => (nth i c 0 * nth i c 0)%Z) (tangential_axes axis)) in if (k =? 0)%Z then 0 else if (k =? 1)%Z then a else b)) * nth i s 0) (tangential_axes axis)).
Definition balance_ok (S : stencil) : Prop := forall a b q s0 s1 s2 v sign axis, 2 * a + 4 * b = 1 -> (axis < 3)%nat ->
  let links := wall_links S (wall_normal axis sign) in let drag := fun i => drag_of (length S) a b q axis [s0; s1; s2] (nth i S []) in
  leaving_mass links (fun i => v i - drag i) = leaving_mass links v /\
  forall j, (j < 3)%nat -> leaving_momentum S links (fun i => v i - drag i) j = leaving_momentum S links v j + (if Nat.eqb j axis then 0 else q * nth j [s0; s1; s2] 0).
Ltac wall_balance :=
  intros a b q s0 s1 s2 v sign axis Hab Ha; replace a with ((1 - 4 * b) / 2) by lra; clear Hab a;
  destruct axis as [|[|[|]]]; [destruct sign|destruct sign|destruct sign|lia];
  match goal with |- context [wall_links ?S ?n] => let l := eval vm_compute in (wall_links S n) in change (wall_links S n) with l end;
  cbv zeta; (split; [|intros [|[|[|]]] Hj; [| | |lia]]); cbv -[Rplus Rmult Rminus Ropp Rdiv Rinv IZR]; field.
Lemma balance_D3Q19_walberla : balance_ok D3Q19_walberla. Proof. wall_balance. Qed.
Lemma balance_D3Q19_counterclockwise : balance_ok D3Q19_counterclockwise. Proof. wall_balance. Qed.
Lemma balance_D3Q19_braunschweig : balance_ok D3Q19_braunschweig. Proof. wall_balance. Qed.
Lemma balance_D3Q19_premnath : balance_ok D3Q19_premnath. Proof. wall_balance. Qed.
Lemma balance_D3Q19_lehmann : balance_ok D3Q19_lehmann. Proof. wall_balance. Qed.
Lemma balance_D3Q27_walberla : balance_ok D3Q27_walberla. Proof. wall_balance. Qed.
Lemma balance_D3Q27_premnath : balance_ok D3Q27_premnath. Proof. wall_balance. Qed.
Lemma balance_D3Q27_fakhari : balance_ok D3Q27_fakhari. Proof. wall_balance. Qed.
Lemma balance_D3Q27_lehmann : balance_ok D3Q27_lehmann. Proof. wall_balance. Qed.
Lemma balance_D3Q27_braunschweig : balance_ok D3Q27_braunschweig. Proof. wall_balance. Qed.
Lemma wall_balance_all name ord S : predefined_stencils name ord = Ok S -> length S = 19%nat \/ length S = 27%nat -> balance_ok S.
Proof.
  intros H HQ. apply predefined_In in H. unfold predefined_table in H. cbn [In] in H.
  repeat destruct H as [H|H]; try contradiction; injection H as _ _ <-; try (exfalso; cbn in HQ; lia);
  match goal with | |- balance_ok D3Q19_walberla => exact balance_D3Q19_walberla | |- balance_ok D3Q19_counterclockwise => exact balance_D3Q19_counterclockwise | |- balance_ok D3Q19_braunschweig => exact balance_D3Q19_braunschweig | |- balance_ok D3Q19_premnath => exact balance_D3Q19_premnath | |- balance_ok D3Q19_lehmann => exact balance_D3Q19_lehmann | |- balance_ok D3Q27_walberla => exact balance_D3Q27_walberla | |- balance_ok D3Q27_premnath => exact balance_D3Q27_premnath | |- balance_ok D3Q27_fakhari => exact balance_D3Q27_fakhari | |- balance_ok D3Q27_lehmann => exact balance_D3Q27_lehmann | |- balance_ok D3Q27_braunschweig => exact balance_D3Q27_braunschweig end.
Qed.
Lemma wfb_drag_of S m axis dt dy stress i : dy <> 0 -> wfb_drag (sizeQ S) m axis dt dy stress (offset_of S i) = Some (drag_of (length S) (fst (wfb_ab m)) (snd (wfb_ab m)) (dt / dy) axis stress (nth i S [])).
Proof. intros H. unfold wfb_drag. rewrite rdiv_ok by auto. reflexivity. Qed.
