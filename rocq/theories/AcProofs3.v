(* The temperature solver and the forces. *)
From Coq Require Import String List ZArith Bool Arith Reals Lra Lia Permutation.
From Verif Require Import StencilModel StencilProofs2 RealLib LinLib TransSpec AcModel AcSpec AcProofs AcProofs2.
Import ListNotations.
Local Open Scope R_scope.

(* ---- arbitrary fields ---- *)
Lemma grad_op_ext g S a phi psi : (forall o, In o S -> phi o = psi o) -> grad_op g S a phi = grad_op g S a psi.
Proof. intros H. apply rsum_ext. intros c Hc. now rewrite H. Qed.
Lemma lap_op_ext l S phi psi : (forall o, In o S -> phi o = psi o) -> lap_op l S phi = lap_op l S psi.
Proof. intros H. apply rsum_ext. intros c Hc. now rewrite H. Qed.
Lemma grad_op_lin g S a al be phi psi : grad_op g S a (fun o => al * phi o + be * psi o) = al * grad_op g S a phi + be * grad_op g S a psi.
Proof. unfold grad_op. rewrite <- !rsum_scal, <- rsum_plus. apply rsum_ext. intros c _. ring. Qed.
Lemma lap_op_lin l S al be phi psi : lap_op l S (fun o => al * phi o + be * psi o) = al * lap_op l S phi + be * lap_op l S psi.
Proof. unfold lap_op. rewrite <- !rsum_scal, <- rsum_plus. apply rsum_ext. intros c _. ring. Qed.
Lemma fd_dim S D g l : fd_case S D g l -> (D = 2 \/ D = 3)%nat /\ forall c, In c S -> length c = D.
Proof.
  intros H. assert (E : D = 2%nat \/ D = 3%nat) by (destruct H; auto). split; [exact E|].
  destruct H as [H|H|H|H]; [apply (perm_lengths _ _ 2 H eq_refl)|apply (perm_lengths _ _ 3 H eq_refl)|apply (perm_lengths _ _ 3 H eq_refl)|apply (perm_lengths _ _ 3 H eq_refl)]; discriminate.
Qed.
Lemma const_poly D c x o : sampled [(c, repeat 0%nat D)] x o = c.
Proof.
  unfold sampled, peval. cbn. replace (rmono (radd x (vecR o)) (repeat 0%nat D)) with 1; [ring|]. generalize (radd x (vecR o)). induction D as [|D IH]; intros [|r y]; cbn; try reflexivity.
  rewrite <- IH. ring.
Qed.
Lemma degree_const D c n : degree_le D n [(c, repeat 0%nat D)].
Proof. repeat constructor; cbn [snd]; [apply repeat_length|]. induction D as [|D IH]; [cbn; lia|]. exact IH. Qed.
Lemma grad_op_const S D g l a c : fd_case S D g l -> (a < D)%nat -> grad_op g S a (fun _ => c) = 0.
Proof.
  intros HS Ha. set (x := repeat 0 D). rewrite (grad_op_ext _ _ _ _ (sampled [(c, repeat 0%nat D)] x)) by (intros o _; symmetry; apply const_poly).
  rewrite (grad_exact S D g l); [|exact HS|exact Ha|apply repeat_length|apply degree_const]. apply pderiv_const. apply (degree_zero_above D), degree_const.
Qed.
Lemma lap_op_const S D g l c : fd_case S D g l -> lap_op l S (fun _ => c) = 0.
Proof.
  intros HS. set (x := repeat 0 D). rewrite (lap_op_ext _ _ _ (sampled [(c, repeat 0%nat D)] x)) by (intros o _; symmetry; apply const_poly).
  rewrite (lap_exact S D g l); [|exact HS|apply repeat_length|apply degree_const]. apply plap_linear. apply (degree_zero_above D), degree_const.
Qed.
Lemma grad_op_affine S D g l a c be phi : fd_case S D g l -> (a < D)%nat -> grad_op g S a (fun o => c + be * phi o) = be * grad_op g S a phi.
Proof.
  intros HS Ha. rewrite (grad_op_ext _ _ _ _ (fun o => c * (fun _ => 1) o + be * phi o)) by (intros; ring). rewrite grad_op_lin, (grad_op_const S D g l a 1 HS Ha). ring.
Qed.
Lemma lap_op_affine S D g l c be phi : fd_case S D g l -> lap_op l S (fun o => c + be * phi o) = be * lap_op l S phi.
Proof.
  intros HS. rewrite (lap_op_ext _ _ _ (fun o => c * (fun _ => 1) o + be * phi o)) by (intros; ring). rewrite lap_op_lin, (lap_op_const S D g l 1 HS). ring.
Qed.
Lemma pure_gradient_affine S D g l c be phi : fd_case S D g l -> pure_gradient D g S (fun o => c + be * phi o) = map (Rmult be) (pure_gradient D g S phi).
Proof.
  intros HS. unfold pure_gradient. rewrite map_app, map_map. f_equal.
  - apply map_ext_in. intros a Ha. apply in_seq in Ha. apply (grad_op_affine S D g l); auto; lia.
  - unfold pad. destruct (Nat.eqb D 2); cbn; [f_equal; ring|reflexivity].
Qed.
Lemma pure_gradient_ext D g S phi psi : (forall o, In o S -> phi o = psi o) -> pure_gradient D g S phi = pure_gradient D g S psi.
Proof. intros H. unfold pure_gradient. f_equal. apply map_ext. intros a. now apply grad_op_ext. Qed.
Lemma pure_gradient_const S D g l phi c : fd_case S D g l -> (forall o, In o S -> phi o = c) -> pure_gradient D g S phi = [0; 0; 0].
Proof.
  intros HS H. rewrite (pure_gradient_ext D g S phi (fun o => c + 0 * 0)) by (intros o Ho; rewrite H by exact Ho; ring).
  rewrite (pure_gradient_affine S D g l c 0 (fun _ => 0) HS). destruct HS; cbn; repeat f_equal; ring.
Qed.
Lemma pure_gradient_length S D g l phi : fd_case S D g l -> length (pure_gradient D g S phi) = 3%nat.
Proof. intros H. unfold pure_gradient. rewrite app_length, map_length, seq_length. destruct H; reflexivity. Qed.
Lemma gradient3 S D g l phi : fd_case S D g l -> exists a b c, pure_gradient D g S phi = [a; b; c].
Proof. intros H. pose proof (pure_gradient_length S D g l phi H) as L. destruct (pure_gradient D g S phi) as [|a [|b [|c [|]]]]; try discriminate. now exists a, b, c. Qed.
Lemma vzero_In S D g l : fd_case S D g l -> In (vzero D) S.
Proof. intros H. destruct H as [H|H|H|H]; (eapply Permutation_in; [exact H|]; left; reflexivity). Qed.
Lemma pure_gradient_nth D g S phi a : (a < D)%nat -> nth a (pure_gradient D g S phi) 0 = grad_op g S a phi.
Proof. intros Ha. unfold pure_gradient. rewrite app_nth1 by (rewrite map_length, seq_length; exact Ha). now rewrite (nth_map_seq (fun a => grad_op g S a phi)) by exact Ha. Qed.

  Definition linear_poly (D : nat) (gv : list R) : poly := map (fun i => (nth i gv 0, map (fun j => if Nat.eqb i j then 1%nat else 0%nat) (seq 0 D))) (seq 0 D).
  Lemma grad_linear S D g l a gv : fd_case S D g l -> (a < D)%nat -> grad_op g S a (fun o => scalar_product D gv (vecR o)) = nth a gv 0.
  Proof.
    intros HS Ha. destruct (fd_dim S D g l HS) as (HD & Hl).
    rewrite (grad_op_ext _ _ _ _ (sampled (linear_poly D gv) (repeat 0 D))).
    - rewrite (grad_exact S D g l); [|exact HS|exact Ha|apply repeat_length|].
      + destruct HD as [-> | ->]; destruct a as [|[|[|a]]]; try lia; unfold linear_poly; cbn [map seq]; generalize (nth 0 gv 0) (nth 1 gv 0) (nth 2 gv 0); intros; solve_mono.
      + destruct HD as [-> | ->]; repeat constructor; cbn; lia.
    - intros o Ho. specialize (Hl o Ho). destruct HD as [-> | ->]; destruct o as [|o0 [|o1 [|o2 [|]]]]; try discriminate Hl; unfold sampled, peval, linear_poly, scalar_product; cbn; ring.
  Qed.
  Lemma lap_linear S D g l gv : fd_case S D g l -> lap_op l S (fun o => scalar_product D gv (vecR o)) = 0.
  Proof.
    intros HS. destruct (fd_dim S D g l HS) as (HD & Hl).
    rewrite (lap_op_ext _ _ _ (sampled (linear_poly D gv) (repeat 0 D))).
    - rewrite (lap_exact S D g l); [|exact HS|apply repeat_length|].
      + destruct HD as [-> | ->]; unfold linear_poly; cbn [map seq]; generalize (nth 0 gv 0) (nth 1 gv 0) (nth 2 gv 0); intros; solve_mono.
      + destruct HD as [-> | ->]; repeat constructor; cbn; lia.
    - intros o Ho. specialize (Hl o Ho). destruct HD as [-> | ->]; destruct o as [|o0 [|o1 [|o2 [|]]]]; try discriminate Hl; unfold sampled, peval, linear_poly, scalar_product; cbn; ring.
  Qed.
(* ---- temperature ---- *)
Section Temperature.
  Context (S : stencil) (D : nat) (g l : Z -> R) (HS : fd_case S D g l) (gr : (vec -> R) -> list R) (lp : (vec -> R) -> R).
  Hypothesis Hgr : forall phi, gr phi = pure_gradient D g S phi.
  Hypothesis Hlp : forall phi, lp phi = lap_op l S phi.
  Context (u : vec -> list R) (phase density : vec -> R) (k_h k_l c_h c_l s : R).
  Notation rate := (rate D gr lp u phase density k_h k_l c_h c_l).
  Notation step n := (runge_kutta D gr lp u phase density k_h k_l c_h c_l s n).
  Lemma rate_ext T T' x : (forall o, In o S -> T (vadd x o) = T' (vadd x o)) -> rate T x = rate T' x.
  Proof.
    intros H. unfold AcModel.rate. rewrite !Hgr, !Hlp. rewrite (pure_gradient_ext D g S (around T x) (around T' x)), (lap_op_ext l S (around T x) (around T' x)) by exact H. reflexivity.
  Qed.
  Lemma rate_heat T x : rate T x = heat_rate D (u x) (gr (around T x)) (gr (around (fun y => interpolate k_h k_l (phase y)) x)) (lp (around T x)) (interpolate k_h k_l (phase x)) (density x) (interpolate c_h c_l (phase x)).
  Proof. unfold AcModel.rate, heat_rate, grad_conduction, dotD, scalar_product. change (around (fun y => interpolate k_h k_l (phase y)) x) with (fun o => interpolate k_h k_l (around phase x o)). unfold Rdiv. ring. Qed.
  Lemma midpoint_ok T : exists T', step 1 T = Ok T' /\ forall x, T' x = midpoint_step rate s T x.
  Proof.
    eexists. split; [reflexivity|]. intros x. unfold midpoint_step. cbv beta. f_equal. f_equal. apply rate_ext. intros o _. unfold plus_slope. field.
  Qed.
  Definition r0 (T : vec -> R) : vec -> R := fun x => T x + s * (1 / 2) * rate T x.
  Definition r1 (T : vec -> R) : vec -> R := fun x => T x + s * (1 / 2) * rate (r0 T) x.
  Definition r2 (T : vec -> R) : vec -> R := fun x => T x + s * 1 * rate (r1 T) x.
  Definition r3 (T : vec -> R) : vec -> R := fun x => (1 - 4 / 3) * T x + ((2 * r0 T x + 4 * r1 T x + 2 * r2 T x) - s * 1 * rate (r2 T) x) / 6.
  Lemma step_r3 n T : (3 <= n)%nat -> step n T = Ok (r3 T).
  Proof. intros Hn. destruct n as [|[|[|n]]]; try lia. reflexivity. Qed.
  Lemma rk4_formula n T : (3 <= n)%nat -> exists T', step n T = Ok T' /\ forall x, T' x = rk4_step rate s T x - s * k4 rate s T x / 3.
  Proof.
    intros Hn. exists (r3 T). split; [now apply step_r3|]. intros x.
    assert (E0 : forall y, r0 T y = plus_slope T (s / 2) (k1 rate T) y) by (intros y; unfold r0, plus_slope, k1; field).
    assert (K2 : forall y, rate (r0 T) y = k2 rate s T y) by (intros y; apply rate_ext; intros o _; apply E0).
    assert (E1 : forall y, r1 T y = plus_slope T (s / 2) (k2 rate s T) y) by (intros y; unfold r1; rewrite K2; unfold plus_slope; field).
    assert (K3 : forall y, rate (r1 T) y = k3 rate s T y) by (intros y; apply rate_ext; intros o _; apply E1).
    assert (E2 : forall y, r2 T y = plus_slope T s (k3 rate s T) y) by (intros y; unfold r2; rewrite K3; unfold plus_slope; ring).
    assert (K4 : rate (r2 T) x = k4 rate s T x) by (apply rate_ext; intros o _; apply E2).
    unfold r3. rewrite K4, E0, E1, E2. unfold rk4_step, plus_slope. field.
  Qed.
  Lemma steady n T T' : (forall x, rate T x = 0) -> (n = 1%nat \/ 3 <= n)%nat -> step n T = Ok T' -> forall x, T' x = T x.
  Proof.
    intros H0 Hn HT x. assert (E : forall T2, (forall y, T2 y = T y) -> forall y, rate T2 y = 0) by (intros T2 H2 y; rewrite (rate_ext T2 T y) by (intros o _; apply H2); apply H0).
    assert (Z0 : forall y, r0 T y = T y) by (intros y; unfold r0; rewrite H0; ring).
    destruct Hn as [->|Hn].
    - change (step 1 T) with (Ok (fun x => T x + s * rate (r0 T) x)) in HT. injection HT as <-. rewrite (E _ Z0). ring.
    - rewrite step_r3 in HT by exact Hn. injection HT as <-.
      assert (Z1 : forall y, r1 T y = T y) by (intros y; unfold r1; rewrite (E _ Z0); ring).
      assert (Z2 : forall y, r2 T y = T y) by (intros y; unfold r2; rewrite (E _ Z1); ring).
      unfold r3. rewrite Z0, Z1, Z2, (E _ Z2). field.
  Qed.
  Lemma nth_vadd a x o : length x = length o -> IZR (nth a (vadd x o) 0%Z) = IZR (nth a x 0%Z) + IZR (nth a o 0%Z).
  Proof.
    unfold vadd. revert a o. induction x as [|z x IH]; intros a [|w o] L; try discriminate; [destruct a; cbn; ring|]. destruct a as [|a]; cbn; [apply plus_IZR|]. apply IH. now injection L.
  Qed.
  Lemma affine_offset c gv x o : length x = D -> length o = D -> affine D c gv (vadd x o) = affine D c gv x + scalar_product D gv (vecR o).
  Proof.
    intros Hx Ho. unfold affine, scalar_product. rewrite Rplus_assoc, <- rsum_plus. f_equal. apply rsum_ext. intros i _. unfold vecR. change 0 with (IZR 0) at 2 4 6. rewrite !map_nth, nth_vadd by congruence. ring.
  Qed.
  Section Advection.
    Context (c p : R) (gv v : list R).
    Hypothesis Hu : forall x, length x = D -> u x = v.
    Hypothesis Hp : forall x, length x = D -> phase x = p.
    Lemma vadd_length_D x o : length x = D -> In o S -> length (vadd x o) = D.
    Proof. intros Hx Ho. destruct (fd_dim S D g l HS) as (_ & Hl). unfold vadd. rewrite map_length, combine_length, Hx, (Hl o Ho). apply Nat.min_id. Qed.
    Lemma rate_affine T c' x : length x = D -> (forall y, length y = D -> T y = affine D c' gv y) -> rate T x = - scalar_product D v gv.
    Proof.
      intros Hx HT. destruct (fd_dim S D g l HS) as (_ & Hl). unfold AcModel.rate. rewrite Hu by exact Hx.
      assert (Hf : forall o, In o S -> around T x o = affine D c' gv x + 1 * scalar_product D gv (vecR o)).
      { intros o Ho. unfold around. rewrite HT by now apply vadd_length_D. rewrite affine_offset by auto. ring. }
      assert (E1 : dotD D v (gr (around T x)) = scalar_product D v gv).
      { unfold dotD, scalar_product. apply rsum_ext. intros i Hi. apply in_seq in Hi. rewrite Hgr, pure_gradient_nth by lia. rewrite (grad_op_ext _ _ _ _ _ Hf), (grad_op_affine S D g l) by (auto; lia). rewrite (grad_linear S D g l) by (auto; lia). ring. }
      assert (E2 : lp (around T x) = 0).
      { rewrite Hlp, (lap_op_ext _ _ _ _ Hf), (lap_op_affine S D g l) by exact HS. rewrite (lap_linear S D g l) by exact HS. ring. }
      assert (E3 : dotD D (grad_conduction gr phase k_h k_l x) (gr (around T x)) = 0).
      { unfold dotD, grad_conduction. rewrite (rsum_ext _ (fun _ => 0)); [apply rsum_zero|]. intros i Hi. apply in_seq in Hi. rewrite Hgr, pure_gradient_nth by lia.
        rewrite (grad_op_ext _ _ _ _ (fun _ => interpolate k_h k_l p)); [rewrite (grad_op_const S D g l) by (auto; lia); ring|]. intros o Ho. unfold around. now rewrite Hp by now apply vadd_length_D. }
      rewrite E1, E2, E3. ring.
    Qed.
    Lemma advect1 T T' x : length x = D -> (forall y, length y = D -> T y = affine D c gv y) -> step 1 T = Ok T' -> T' x = T x - s * scalar_product D v gv.
    Proof.
      intros Hx HT H. injection H as <-. cbv beta. rewrite (rate_affine _ (c + s * (1 / 2) * - scalar_product D v gv)); [ring|exact Hx|].
      intros y Hy. rewrite (rate_affine T c y Hy HT), HT by exact Hy. unfold affine. ring.
    Qed.
    Lemma advect4 n T T' x : (3 <= n)%nat -> length x = D -> (forall y, length y = D -> T y = affine D c gv y) -> step n T = Ok T' -> T' x = T x - 2 / 3 * (s * scalar_product D v gv).
    Proof.
      intros Hn Hx HT H. rewrite step_r3 in H by exact Hn. injection H as <-. set (K := - scalar_product D v gv).
      assert (A0 : forall y, length y = D -> r0 T y = affine D (c + s * (1 / 2) * K) gv y) by (intros y Hy; unfold r0; rewrite (rate_affine T c y Hy HT), HT by exact Hy; unfold affine, K; ring).
      assert (A1 : forall y, length y = D -> r1 T y = affine D (c + s * (1 / 2) * K) gv y) by (intros y Hy; unfold r1; rewrite (rate_affine _ _ y Hy A0), HT by exact Hy; unfold affine, K; ring).
      assert (A2 : forall y, length y = D -> r2 T y = affine D (c + s * K) gv y) by (intros y Hy; unfold r2; rewrite (rate_affine _ _ y Hy A1), HT by exact Hy; unfold affine, K; ring).
      unfold r3. rewrite (rate_affine _ _ x Hx A2), A0, A1, A2, HT by exact Hx. unfold affine, K. field.
    Qed.
  End Advection.
End Temperature.
