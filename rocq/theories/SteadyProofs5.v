(* The analysis for methods with one rate agrees with the general one; the viscosities it determines. *)
From Coq Require Import List ZArith Bool Arith Reals Lra Lia.
From Verif Require Import StencilModel RealLib LinLib EqSpec SteadyModel SteadySpec SteadyProofs SteadyProofs2 SteadyProofs3 SteadyProofs4.
Import ListNotations.
Local Open Scope R_scope.

Section Class.
  Variables (S : stencil) (f0 : jets) (dt B : R).
  Let n := length S.
  Notation F := (pdf_order S (srt_matrix n B) f0 jzero).
  Notation G := (srt_pdf S f0 dt B).
  Lemma srt_hierarchy_length i : length (srt_hierarchy S f0 dt B i) = Datatypes.S i.
  Proof. induction i as [|i IH]; [reflexivity|]. cbn [srt_hierarchy]. rewrite app_length, IH. cbn [length]. lia. Qed.
  Lemma srt_hierarchy_nth i j : (j <= i)%nat -> nth j (srt_hierarchy S f0 dt B i) jzero = G j.
  Proof.
    induction i as [|i IH]; intros Hj; [replace j with 0%nat by lia; reflexivity|]. destruct (Nat.eq_dec j (Datatypes.S i)) as [->|Nj]; [reflexivity|].
    cbn [srt_hierarchy]. rewrite app_nth1 by (rewrite srt_hierarchy_length; lia). apply IH. lia.
  Qed.
  Lemma srt_pdf_next i : G (Datatypes.S i) = jscal (- B) (jsum (map (fun k => jscal (dt ^ k) (taylor_term S k (nth (Datatypes.S i - k) (srt_hierarchy S f0 dt B i) jzero))) (seq 1 (Datatypes.S i)))).
  Proof. unfold srt_pdf. cbn [srt_hierarchy]. rewrite app_nth2 by (rewrite srt_hierarchy_length; lia). rewrite srt_hierarchy_length, Nat.sub_diag. cbn [nth]. unfold srt_next. rewrite srt_hierarchy_length. reflexivity. Qed.
  Lemma taylor_scal k a f q idx x : taylor_term S k (jscal a f) q idx x = a * taylor_term S k f q idx x.
  Proof.
    unfold taylor_term. unfold jscal at 1 3. enough (E : forall q idx x, advect_n S k (jscal a f) q idx x = a * advect_n S k f q idx x) by (rewrite E; ring). clear q idx x.
    induction k as [|k IH]; [reflexivity|]. intros q idx x. cbn [advect_n]. rewrite <- advect_scal. unfold advect, dirder. apply rsum_ext. intros b _. rewrite IH. reflexivity.
  Qed.
  Lemma srt_class i : forall q idx x, (q < n)%nat -> G i q idx x = dt ^ i * F i q idx x.
  Proof.
    induction i as [i IH] using lt_wf_ind. destruct i as [|i]; intros q idx x Hq.
    - cbn [pow]. unfold srt_pdf. cbn [srt_hierarchy nth]. rewrite pdf_zero. ring.
    - rewrite srt_pdf_next, pdf_next. unfold n. rewrite srt_app by exact Hq. fold n. unfold jscal at 1. unfold sources, jsub, jsum. rewrite !map_map.
      transitivity (- B * (dt ^ Datatypes.S i * rsum (map (fun k => taylor_term S k (F (Datatypes.S i - k)%nat) q idx x) (seq 1 (Datatypes.S i))))).
      + f_equal. rewrite <- rsum_scal. apply rsum_ext. intros k Hk. apply in_seq in Hk. rewrite srt_hierarchy_nth by lia. unfold jscal.
        rewrite (taylor_ext S k (G (Datatypes.S i - k)%nat) (jscal (dt ^ (Datatypes.S i - k)) (F (Datatypes.S i - k)%nat))); [|intros r idx' x' Hr; unfold jscal; apply IH; [lia|exact Hr]|exact Hq].
        rewrite taylor_scal. rewrite <- Rmult_assoc, <- pow_add. replace (k + (Datatypes.S i - k))%nat with (Datatypes.S i) by lia. reflexivity.
      + destruct (Datatypes.S i =? 1)%nat; unfold jzero; ring.
  Qed.
  Lemma srt_recombined_orders N q x : (q < n)%nat -> dt <> 0 -> B <> 0 ->
    srt_recombined S f0 dt B N q [] x = rsum (map (fun k => dt ^ k * (- 1 / B * F (k + 1)%nat q [] x)) (seq 0 N)).
  Proof.
    intros Hq Hd HB. unfold srt_recombined, jscal, jsum. rewrite map_map. rewrite <- rsum_scal. change 1%nat with (1 + 0)%nat at 1. rewrite seq_shift_map. apply rsum_ext. intros k _. rewrite srt_class by exact Hq.
    replace (1 + k)%nat with (k + 1)%nat by lia. rewrite Nat.add_1_r at 1. cbn [pow]. field. split; assumption.
  Qed.
End Class.

Lemma srt_pdf_one S f0 B i q x : (q < length S)%nat -> srt_pdf S f0 1 B i q [] x = pdf_order S (srt_matrix (length S) B) f0 jzero i q [] x.
Proof. intros Hq. rewrite srt_class by exact Hq. rewrite pow1. ring. Qed.

Lemma srt_first_order S f0 v h x : v <> 0 ->
  srt_momentum_of_order S f0 v h 1 x =
  (1 / 2 - v) * rsum (map (fun b => rsum (map (fun c => rsum (map (fun q => comp (nth q S []) h * comp (nth q S []) b * comp (nth q S []) c * f0 q [b; c] x) (seq 0 (length S)))) (seq 0 (dimD S)))) (seq 0 (dimD S))).
Proof.
  intros Hv. unfold srt_momentum_of_order.
  transitivity (rsum (map (fun q => (1 / 2 - v) * rsum (map (fun b => rsum (map (fun c => comp (nth q S []) h * comp (nth q S []) b * comp (nth q S []) c * f0 q [b; c] x) (seq 0 (dimD S)))) (seq 0 (dimD S)))) (seq 0 (length S)))).
  - apply rsum_ext. intros q Hq. apply in_seq in Hq. rewrite srt_pdf_one by lia. change (1 + 1)%nat with 2%nat. rewrite srt_second by lia.
    replace (advect S (advect S f0) q [] x) with (rsum (map (fun b => rsum (map (fun c => comp (nth q S []) b * comp (nth q S []) c * f0 q [b; c] x) (seq 0 (dimD S)))) (seq 0 (dimD S)))).
    + rewrite (rsum_ext (fun b => rsum (map (fun c => comp (nth q S []) h * comp (nth q S []) b * comp (nth q S []) c * f0 q [b; c] x) (seq 0 (dimD S)))) (fun b => comp (nth q S []) h * rsum (map (fun c => comp (nth q S []) b * comp (nth q S []) c * f0 q [b; c] x) (seq 0 (dimD S))))).
      * rewrite rsum_scal. field. exact Hv.
      * intros b _. rewrite <- rsum_scal. apply rsum_ext. intros c _. ring.
    + unfold advect, dirder. rewrite rsum_swap. apply rsum_ext. intros c _. rewrite <- rsum_scal. apply rsum_ext. intros b _. ring.
  - rewrite rsum_scal. f_equal. rewrite rsum_swap. apply rsum_ext. intros b _. rewrite rsum_swap. reflexivity.
Qed.

Lemma rsum_delta_seq (f : nat -> R) a n : (a < n)%nat -> rsum (map (fun b => delta a b * f b) (seq 0 n)) = f a.
Proof.
  intros Ha. replace n with (a + Datatypes.S (n - a - 1))%nat by lia. rewrite seq_app, map_app, rsum_app. cbn [Nat.add seq map]. rewrite rsum_cons.
  rewrite !rsum_zero_in; [unfold delta; rewrite Nat.eqb_refl; ring| |]; intros b Hb; apply in_seq in Hb; unfold delta; destruct (Nat.eqb_spec a b); try lia; ring.
Qed.
Lemma sum_third D a cs2 (H : nat -> nat -> nat -> R) : (a < D)%nat -> (forall g b c, H g b c = H g c b) ->
  rsum (map (fun b => rsum (map (fun c => cs2 * (delta a b * H c b c + delta a c * H b b c + delta b c * H a b c)) (seq 0 D))) (seq 0 D)) =
  cs2 * (rsum (map (fun b => H a b b) (seq 0 D)) + 2 * rsum (map (fun b => H b b a) (seq 0 D))).
Proof.
  intros Ha HH. rewrite (rsum_ext _ (fun b => cs2 * (delta a b * rsum (map (fun c => H c b c) (seq 0 D)) + (H b b a + H a b b)))).
  - rewrite rsum_scal, rsum_plus, rsum_plus. rewrite (rsum_delta_seq (fun b => rsum (map (fun c => H c b c) (seq 0 D))) a D Ha).
    rewrite (rsum_ext (fun c => H c a c) (fun b => H b b a)) by (intros; apply HH). ring.
  - intros b Hb. apply in_seq in Hb. rewrite rsum_scal. f_equal. rewrite !rsum_plus. rewrite rsum_scal. rewrite (rsum_delta_seq (fun c => H b b c) a D Ha). rewrite (rsum_delta_seq (fun c => H a b c) b D) by lia. ring.
Qed.
Lemma reference_value D eta eta_b H a : (a < D)%nat -> (forall g b c : nat, H g b c = H g c b) ->
  steady_navier_stokes_reference D eta eta_b H a = - (eta * rsum (map (fun b => H a b b) (seq 0 D)) + (eta / 3 + eta_b) * rsum (map (fun b => H b b a) (seq 0 D))).
Proof.
  intros Ha HH. unfold steady_navier_stokes_reference. rewrite rsum_plus.
  rewrite (rsum_ext (fun b => rsum (map (fun g => H g b g * delta a b) (seq 0 D))) (fun b => delta a b * rsum (map (fun g => H g b g) (seq 0 D)))).
  - rewrite (rsum_delta_seq (fun b => rsum (map (fun g => H g b g) (seq 0 D))) a D Ha). rewrite (rsum_ext (fun g => H g a g) (fun b => H b b a)) by (intros; apply HH). field.
  - intros b _. rewrite <- rsum_scal. apply rsum_ext. intros. ring.
Qed.
(* matching all second derivatives *)
Lemma match_viscosities D a nu eta eta_b : (2 <= D)%nat -> (a < D)%nat ->
  (forall H, (forall g b c, H g b c = H g c b) -> - nu * (rsum (map (fun b => H a b b) (seq 0 D)) + 2 * rsum (map (fun b => H b b a) (seq 0 D))) = steady_navier_stokes_reference D eta eta_b H a) <->
  eta = nu /\ eta_b = 5 / 3 * nu.
Proof.
  intros HD Ha. split.
  - intros HA. assert (Hb : exists b, (b < D)%nat /\ b <> a) by (destruct (Nat.eq_dec a 0) as [->|N]; [exists 1%nat; lia|exists 0%nat; lia]). destruct Hb as (b & Hb & Nb).
    pose proof (HA (fun g c d => delta a g * (delta b c * delta b d)) ltac:(intros; cbv beta; ring)) as E1. pose proof (HA (fun g c d => delta b g * (delta b c * delta a d + delta a c * delta b d)) ltac:(intros; cbv beta; ring)) as E2.
    rewrite reference_value in E1 by (try exact Ha; intros; ring). rewrite reference_value in E2 by (try exact Ha; intros; ring).
    assert (DD : forall c, delta c c = 1) by (intros; unfold delta; rewrite Nat.eqb_refl; reflexivity).
    assert (D1 : delta a b = 0) by (unfold delta; destruct (Nat.eqb_spec a b); [lia|reflexivity]). assert (D2 : delta b a = 0) by (unfold delta; destruct (Nat.eqb_spec b a); [lia|reflexivity]).
    rewrite (rsum_ext (fun b0 => delta a a * (delta b b0 * delta b b0)) (fun c => delta b c * delta b c)) in E1 by (intros; rewrite DD; ring). rewrite (rsum_delta_seq (fun c => delta b c) b D Hb), DD in E1.
    rewrite (rsum_zero_in (fun b0 => delta a b0 * (delta b b0 * delta b a))) in E1 by (intros; rewrite D2; ring).
    rewrite (rsum_zero_in (fun b0 => delta b a * (delta b b0 * delta a b0 + delta a b0 * delta b b0))) in E2 by (intros; rewrite D2; ring).
    rewrite (rsum_ext (fun b0 => delta b b0 * (delta b b0 * delta a a + delta a b0 * delta b a)) (fun c => delta b c * delta b c)) in E2 by (intros; rewrite DD, D2; ring). rewrite (rsum_delta_seq (fun c => delta b c) b D Hb), DD in E2. lra.
  - intros [-> ->] H HH. rewrite reference_value by assumption. field.
Qed.
