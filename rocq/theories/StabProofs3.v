(* Which rates are separated; energy of a whole simulation. *)
From Coq Require Import String List ZArith QArith Qreals Bool Arith Reals Lra Lia Permutation.
From Verif Require Import StencilModel StencilProofs StencilProofs2 AccessModel AccessProofs StreamModel StreamSpec StreamProofs RealLib LinLib TransSpec TransModel TransProofs EqModel EqSpec MomModel ModeModel ModeSpec CollModel CollSpec CollProofs CollProofs4 CollProofs5 PropsEq PropsTrans PropsColl BoundModel BoundSpec BoundProofs BoundProofs2 BoundProofs4 StabSpec StabProofs StabProofs2.
Import ListNotations.
Local Open Scope R_scope.

Lemma rsum_member_le {A} (g : A -> R) l a : (forall b, In b l -> 0 <= g b) -> In a l -> g a <= rsum (map g l).
Proof.
  induction l as [|b l IH]; intros H Ha; [destruct Ha|]. destruct Ha as [->|Ha]; cbn [map]; rewrite rsum_cons.
  - pose proof (rsum_nonneg g l (fun x Hx => H x (or_intror Hx))). lra.
  - pose proof (H b (or_introl eq_refl)). pose proof (IH (fun x Hx => H x (or_intror Hx)) Ha). lra.
Qed.
(* ---------- rates ---------- *)
Lemma one_rate_separated D S w ps d omega : length d = length ps ->
  (forall k p, nth_error ps k = Some p -> conserved_mode D p \/ nth k d 0 = omega) -> separated_rates D S w ps d (repeat omega (length ps)).
Proof.
  intros Hd H. split; [exact Hd|]. split; [apply repeat_length|].
  assert (R : forall k p, nth_error ps k = Some p -> nth k (repeat omega (length ps)) 0 = omega).
  { intros k p E. assert (k < length ps)%nat by (apply nth_error_Some; congruence). apply nth_error_nth. rewrite (nth_error_nth' _ 0) by (now rewrite repeat_length). f_equal. apply (repeat_spec (length ps)). apply nth_In. now rewrite repeat_length. }
  split.
  - intros k p E. rewrite (R k p E). eauto.
  - intros k l p q Ek El N. rewrite (R k p Ek), (R l q El) in N. now contradict N.
Qed.
Lemma orthogonal_separated D S (ws : list Q) qs d r : orthogonal ws S qs -> length d = length qs -> length r = length qs ->
  (forall k p, nth_error (map toR qs) k = Some p -> conserved_mode D p \/ nth k d 0 = nth k r 0) -> separated_rates D S (map Q2R ws) (map toR qs) d r.
Proof.
  intros Ho Hd Hr H. split; [now rewrite map_length|]. split; [now rewrite map_length|]. split; [exact H|].
  intros k l p q Ek El N. assert (k <> l) by (intros ->; auto). rewrite nth_error_map in Ek, El.
  destruct (nth_error qs k) as [p0|] eqn:E1; [|discriminate]. destruct (nth_error qs l) as [q0|] eqn:E2; [|discriminate]. injection Ek as <-. injection El as <-.
  specialize (Ho k l ltac:(apply nth_error_Some; congruence) ltac:(apply nth_error_Some; congruence) H0). rewrite (nth_error_nth _ _ [] E1), (nth_error_nth _ _ [] E2) in Ho.
  rewrite <- Ho. unfold overlap, inner. clear. revert S; induction ws as [|a ws IH]; intros [|c S]; try reflexivity. cbn [map combine]. rewrite !rsum_cons. cbn [fst snd]. now rewrite IH.
Qed.

(* parity *)
Definition sign (e : list nat) : R := if is_even_tuple e then 1 else -1.
Lemma sign_cons k e : sign (k :: e) = (-1) ^ k * sign e.
Proof.
  assert (H : forall n, (if Nat.eqb (n mod 2) 0 then 1 else -1) = (-1) ^ n).
  { intros n. rewrite <- Nat.bit0_mod. rewrite Nat.bit0_odd. induction n as [|n IH]; [reflexivity|]. rewrite Nat.odd_succ, <- Nat.negb_odd. cbn [pow]. rewrite <- IH. destruct (Nat.odd n); cbn; ring. }
  unfold sign, is_even_tuple. rewrite !H. unfold nsum. cbn [fold_right]. now rewrite pow_add.
Qed.
Lemma rmono_vneg e c : length e = length c -> rmono (vecR (vneg c)) e = sign e * rmono (vecR c) e.
Proof.
  revert e; induction c as [|z c IH]; intros [|k e] H; try discriminate; [cbn; unfold sign, is_even_tuple; cbn; ring|].
  cbn [vecR vneg map rmono]. fold (vneg c). change (map IZR (vneg c)) with (vecR (vneg c)). change (map IZR c) with (vecR c). rewrite IH by (cbn in H; lia). rewrite sign_cons, opp_IZR.
  replace (- IZR z) with ((-1) * IZR z) by ring. rewrite Rpow_mult_distr. ring.
Qed.
Lemma peval_vneg s p c : (forall t, In t p -> length (snd t) = length c /\ sign (snd t) = s) -> peval p (vecR (vneg c)) = s * peval p (vecR c).
Proof.
  intros H. unfold peval. rewrite <- rsum_scal. apply rsum_ext. intros t Ht. destruct (H t Ht) as [H1 H2]. rewrite rmono_vneg by exact H1. rewrite H2. ring.
Qed.
Lemma overlap_parity D S ws p q s : symmetric_stencil D S -> get_weights S = Ok ws -> 
  (forall t, In t p -> length (snd t) = D /\ sign (snd t) = s) -> (forall t, In t q -> length (snd t) = D /\ sign (snd t) = - s) -> s * s = 1 -> overlap S (map Q2R ws) p q = 0.
Proof.
  intros HS HW Hp Hq Hs. assert (Lw : length (map Q2R ws) = length S) by (rewrite map_length; apply (mapM_Ok_length _ _ _ HW)).
  assert (E : overlap S (map Q2R ws) p q = rsum (map (fun i => nth i (map Q2R ws) 0 * (peval p (vecR (dir S i)) * peval q (vecR (dir S i)))) (seq 0 (length S)))).
  { transitivity (fsum (map Q2R ws) S (fun c => peval p (vecR c) * peval q (vecR c))); [unfold overlap, fsum; apply rsum_ext; intros; ring|]. rewrite (fsum_seq _ S _ Lw). reflexivity. }
  set (g := fun i => nth i (map Q2R ws) 0 * (peval p (vecR (dir S i)) * peval q (vecR (dir S i)))) in E.
  assert (E2 : rsum (map g (seq 0 (length S))) = rsum (map (fun i => g (opp S i)) (seq 0 (length S)))).
  { symmetry. apply (rsum_reindex (opp S) g); try apply seq_NoDup.
    - intros i Hi. apply in_seq in Hi. apply in_seq. split; [lia|]. cbn. apply (opp_lt D S HS). lia.
    - intros i j Hi Hj Eij. apply in_seq in Hi, Hj. rewrite <- (opp_opp D S HS i), <- (opp_opp D S HS j) by lia. now rewrite Eij.
    - intros i Hi. apply in_seq in Hi. exists (opp S i). split; [apply in_seq; split; [lia|]; cbn; apply (opp_lt D S HS); lia|]. apply (opp_opp D S HS). lia. }
  assert (E3 : rsum (map (fun i => g (opp S i)) (seq 0 (length S))) = - rsum (map g (seq 0 (length S)))).
  { replace (- rsum (map g (seq 0 (length S)))) with (-1 * rsum (map g (seq 0 (length S)))) by ring. rewrite <- rsum_scal. apply rsum_ext. intros i Hi. apply in_seq in Hi. unfold g.
    assert (Hl : length (dir S i) = D) by (apply dir_length; [exact HS|lia]).
    rewrite (dir_opp D S HS) by lia. rewrite (weights_opp D S ws i HS HW) by lia. rewrite (peval_vneg s p), (peval_vneg (- s) q) by (rewrite Hl; assumption).
    transitivity (- (s * s) * (nth i (map Q2R ws) 0 * (peval p (vecR (dir S i)) * peval q (vecR (dir S i))))); [ring|]. rewrite Hs. ring. }
  rewrite E. lra.
Qed.
Lemma two_rates_separated D S ws ps d (even : poly -> bool) we wo : symmetric_stencil D S -> get_weights S = Ok ws -> length d = length ps ->
  (forall p t, In p ps -> In t p -> length (snd t) = D /\ is_even_tuple (snd t) = even p) ->
  (forall k p, nth_error ps k = Some p -> conserved_mode D p \/ nth k d 0 = if even p then we else wo) ->
  separated_rates D S (map Q2R ws) ps d (map (fun p => if even p then we else wo) ps).
Proof.
  intros HS HW Hd Hp H. split; [exact Hd|]. split; [apply map_length|].
  assert (R : forall k p, nth_error ps k = Some p -> nth k (map (fun p => if even p then we else wo) ps) 0 = if even p then we else wo) by (intros k p E; apply nth_error_nth; apply (map_nth_error (fun p => if even p then we else wo)); exact E).
  split; [intros k p E; rewrite (R k p E); auto|]. intros k l p q Ek El N. rewrite (R k p Ek), (R l q El) in N. apply nth_error_In in Ek, El.
  apply (overlap_parity D S ws p q (if even p then 1 else -1) HS HW).
  - intros t Ht. destruct (Hp p t Ek Ht) as [H1 H2]. split; [exact H1|]. unfold sign. now rewrite H2.
  - intros t Ht. destruct (Hp q t El Ht) as [H1 H2]. split; [exact H1|]. unfold sign. rewrite H2. destruct (even p), (even q); try lra; now contradict N.
  - destruct (even p); ring.
Qed.

(* ---------- streaming and walls ---------- *)
Section Walls.
  Context (L : lattice) (S : stencil) (fluid : cell L -> bool) (cells : list (cell L)) (links : list (link L)) (ws : list Q).
  Notation w := (map Q2R ws).
  Hypothesis HS : symmetric_stencil (ldim L) S.
  Hypothesis HG : lists_geometry S fluid cells links.
  Hypothesis HW : get_weights S = Ok ws.
  Hypothesis H7 : sizeQ S <> 7%nat.
  Lemma Lw : length w = length S.
  Proof. rewrite map_length. apply (mapM_Ok_length _ _ _ HW). Qed.
  Let sq (l : list R) : list R := map (fun a => a * a) l.
  Let nth_sq l i : nth i (sq l) 0 = nth i l 0 * nth i l 0.
  Proof. unfold sq. replace 0 with ((fun a : R => a * a) 0) at 1 by (cbv beta; ring). apply (map_nth (fun a : R => a * a)). Qed.
  Lemma energy_sq l : energy w l = rsum (map (fun j => (/ nth j w 0) * nth j (sq l) 0) (seq 0 (length S))).
  Proof. unfold energy. rewrite Lw. apply rsum_ext. intros i _. rewrite nth_sq. unfold Rdiv. ring. Qed.
  Lemma arriving_energy B f : passive S fluid B -> (forall y, length (f y) = length S) -> total_energy w cells (arriving S fluid B f) <= total_energy w cells f.
  Proof.
    intros HB Hf. set (f2 := fun x => sq (f x)). set (B2 := fun x i => {| b_reads := []; b_fun := fun _ : list R => rule_value S f x (B x i) * rule_value S f x (B x i) |}).
    pose proof (balance L S fluid cells links B2 f2 HS HG (fun j => / nth j w 0)) as Bal. cbv beta in Bal.
    assert (E1 : total_energy w cells (arriving S fluid B f) = rsum (map (fun x => rsum (map (fun j => / nth j w 0 * nth j (arriving S fluid B2 f2 x) 0) (seq 0 (length S)))) cells)).
    { unfold total_energy. apply rsum_ext. intros x _. rewrite energy_sq. apply rsum_ext. intros j Hj. apply in_seq in Hj. f_equal. rewrite nth_sq. unfold arriving. rewrite !nth_map_seq by lia. destruct (fluid _).
      - unfold f2. now rewrite nth_sq.
      - reflexivity. }
    assert (E2 : total_energy w cells f = rsum (map (fun x => rsum (map (fun j => / nth j w 0 * nth j (f2 x) 0) (seq 0 (length S)))) cells)).
    { unfold total_energy. apply rsum_ext. intros x _. apply energy_sq. }
    rewrite E1, E2, Bal. apply Rplus_le_reg_l with (- rsum (map (fun x => rsum (map (fun j => / nth j w 0 * nth j (f2 x) 0) (seq 0 (length S)))) cells)).
    rewrite <- Rplus_assoc, Rplus_opp_l, Rplus_0_l. apply Rle_trans with (rsum (map (fun _ : link L => 0) links)); [|rewrite rsum_zero; apply Rle_refl]. apply rsum_le. intros [x i] Hl. cbn [fst snd]. destruct HG as (_ & _ & _ & Hlk). apply Hlk in Hl.
    pose proof Hl as (_ & Hi & _). cbn [snd] in Hi. rewrite (weights_opp (ldim L) S ws i HS HW Hi). pose proof (weights_positive S ws i HW H7 Hi) as P.
    change (rule_value S f2 x (B2 x i)) with (rule_value S f x (B x i) * rule_value S f x (B x i)). unfold f2. rewrite nth_sq.
    pose proof (HB f x i Hf Hl) as HB'. apply Rsqr_le_abs_1 in HB'. unfold Rsqr in HB'.
    assert (0 < / nth i w 0) by (now apply Rinv_0_lt_compat). nra.
  Qed.

  Context (C : nat -> cell L -> list R -> list R) (B : nat -> cell L -> nat -> brule R) (f0 : cell L -> list R) (c : R).
  Hypothesis HB : forall n, passive S fluid (B n).
  Hypothesis HC : forall n x f, length f = length S -> length (C n x f) = length S.
  Hypothesis Hf : forall x, length (f0 x) = length S.
  Notation F := (post 0 S fluid C B f0).
  Notation G n := (arriving S fluid (B n) (F n)).
  Hypothesis HE : forall n x, fluid x = true -> energy w (C n x (G n x)) + c * energy w (deviation (ldim L) S w (G n x)) <= energy w (G n x).
  Lemma F_length n x : length (F n x) = length S.
  Proof. apply post_length; auto. Qed.
  Lemma energy_step n : total_energy w cells (F (Datatypes.S n)) + c * rsum (map (fun x => energy w (deviation (ldim L) S w (G n x))) cells) <= total_energy w cells (F n).
  Proof.
    apply Rle_trans with (total_energy w cells (G n)); [|apply arriving_energy; auto using F_length].
    unfold total_energy. rewrite <- rsum_scal, <- rsum_plus. apply rsum_le. intros x Hx. destruct HG as (_ & Hc & _). apply Hc in Hx. exact (HE n x Hx).
  Qed.
  Lemma energy_history n : total_energy w cells (F n) + c * rsum (map (fun m => rsum (map (fun x => energy w (deviation (ldim L) S w (G m x))) cells)) (seq 0 n)) <= total_energy w cells f0.
  Proof.
    induction n as [|n IH]; [cbn; lra|]. rewrite seq_S, map_app, rsum_app. cbn [map plus]. rewrite rsum_cons. cbn [rsum fold_right]. pose proof (energy_step n). unfold rsum in *. cbn [fold_right] in *. lra.
  Qed.
  Lemma dev_nonneg x : 0 <= energy w x.
  Proof. unfold energy. rewrite Lw. apply rsum_nonneg. intros i Hi. apply in_seq in Hi. pose proof (weights_positive S ws i HW H7 ltac:(lia)) as P. apply Rmult_le_pos; [nra|]. left. now apply Rinv_0_lt_compat. Qed.
  Lemma energy_bounded n : 0 <= c -> total_energy w cells (F n) <= total_energy w cells f0.
  Proof.
    intros Hc. pose proof (energy_history n) as H. assert (0 <= rsum (map (fun m => rsum (map (fun x => energy w (deviation (ldim L) S w (G m x))) cells)) (seq 0 n))) by (apply rsum_nonneg; intros m _; apply rsum_nonneg; intros x _; apply dev_nonneg). nra.
  Qed.
  Lemma population_energy x i f : In x cells -> (i < length S)%nat -> nth i (f x) 0 * nth i (f x) 0 <= nth i w 0 * total_energy w cells f.
  Proof.
    intros Hx Hi. pose proof (weights_positive S ws i HW H7 Hi) as P.
    assert (E1 : nth i (f x) 0 * nth i (f x) 0 / nth i w 0 <= energy w (f x)).
    { unfold energy. apply (rsum_member_le (fun i => nth i (f x) 0 * nth i (f x) 0 / nth i w 0)); [|apply in_seq; rewrite Lw; lia].
      intros j Hj. apply in_seq in Hj. rewrite Lw in Hj. pose proof (weights_positive S ws j HW H7 ltac:(lia)) as Pj. apply Rmult_le_pos; [nra|]. left. now apply Rinv_0_lt_compat. }
    assert (E2 : energy w (f x) <= total_energy w cells f) by (unfold total_energy; apply (rsum_member_le (fun x => energy w (f x))); [intros; apply dev_nonneg|exact Hx]).
    apply Rmult_le_reg_r with (/ nth i w 0); [now apply Rinv_0_lt_compat|]. replace (nth i w 0 * total_energy w cells f * / nth i w 0) with (total_energy w cells f) by (field; lra). fold (nth i (f x) 0 * nth i (f x) 0 / nth i w 0). lra.
  Qed.
  Lemma deviation_vanishes : 0 < c -> Un_cv (fun n => total_energy w cells (fun x => deviation (ldim L) S w (G n x))) 0.
  Proof.
    intros Hc. set (h := fun n => total_energy w cells (fun x => deviation (ldim L) S w (G n x))). set (s := fun n => rsum (map h (seq 0 n))).
    assert (h0 : forall n, 0 <= h n) by (intros n; unfold h, total_energy; apply rsum_nonneg; intros x _; apply dev_nonneg).
    assert (sS : forall n, s (Datatypes.S n) = s n + h n) by (intros n; unfold s; rewrite seq_S, map_app, rsum_app; cbn [map plus]; rewrite rsum_cons; unfold rsum at 2; cbn; ring).
    assert (Sb : forall n, s n <= total_energy w cells f0 / c).
    { intros n. pose proof (energy_history n) as H. fold h in H. change (total_energy w cells (F n) + c * s n <= total_energy w cells f0) in H. assert (0 <= total_energy w cells (F n)) by (unfold total_energy; apply rsum_nonneg; intros; apply dev_nonneg).
      apply Rmult_le_reg_l with c; [exact Hc|]. replace (c * (total_energy w cells f0 / c)) with (total_energy w cells f0) by (field; lra). lra. }
    destruct (growing_cv s) as [l Hl].
    - intros n. rewrite sS. specialize (h0 n). lra.
    - exists (total_energy w cells f0 / c). intros y [n ->]. apply Sb.
    - intros eps He. destruct (Hl (eps / 2) ltac:(lra)) as [N HN]. exists N. intros n Hn. pose proof (HN n Hn) as A1. pose proof (HN (Datatypes.S n) ltac:(lia)) as A2. unfold R_dist in *. rewrite sS in A2.
      replace (h n - 0) with ((s n + h n - l) - (s n - l)) by ring. eapply Rle_lt_trans; [apply Rabs_triang|]. rewrite Rabs_Ropp. lra.
  Qed.
End Walls.
