(* The one-dimensional dynamics of parallel flow: three numbers per row. *)
From Coq Require Import List Arith ZArith Reals Lra Lia.
From Verif Require Import RealLib NphSpec NphProofs ChanSpec.
Local Open Scope R_scope.

(* sums over the populations that move up, stay in the row, move down *)
Record layers := { up : R; mid : R; dn : R }.

Section Rows.
  Variables (H : nat) (we wo F lo hi : R).
  Definition arrive (t : nat -> layers) (k : nat) : layers :=
    {| up := match k with O => - dn (t 0%nat) + lo / 3 | S k' => up (t k') end;
       mid := mid (t k);
       dn := if (S k <? H)%nat then dn (t (S k)) else - up (t k) + hi / 3 |}.
  Definition lj (p : layers) := up p + mid p + dn p.
  Definition lpi (p : layers) := up p - dn p.
  Definition lk (p : layers) := up p + dn p.
  Definition of_modes (j pi k : R) : layers := {| up := (k + pi) / 2; mid := j - k; dn := (k - pi) / 2 |}.
  Definition collide_row (p : layers) : layers :=
    of_modes (lj p + F) ((1 - we) * lpi p) (lk p + wo * (lj p / 3 - lk p) + F / 3).
  Fixpoint rows (t : nat -> layers) (n : nat) : nat -> layers :=
    match n with O => t | S n' => fun k => collide_row (arrive (rows t n') k) end.
End Rows.

Lemma layers_eq p q : up p = up q -> mid p = mid q -> dn p = dn q -> p = q.
Proof. destruct p, q. cbn. now intros -> -> ->. Qed.

Section Steady.
  Variables (H : nat) (we wo F lo hi : R).
  Hypothesis Hwe : 0 < we < 2.
  Hypothesis Hwo : 0 < wo < 2.
  (* the steady state: momentum, shear stress and its flux before the collision *)
  Definition steady_j (k : nat) : R := profile H we wo F lo hi k - F / 2.
  Definition steady_pi (k : nat) : R := 2 * (F / (2 * (lambda we / 3))) * middle H k / (3 * we) - (hi - lo) / INR H / (3 * we).
  Definition steady_k (k : nat) : R := steady_j k / 3 - 2 * F / (3 * wo).
  Definition steady (k : nat) : layers := collide_row we wo F (of_modes (steady_j k) (steady_pi k) (steady_k k)).

  Lemma steady_up k : up (steady k) = (steady_k k + F + (1 - we) * steady_pi k) / 2.
  Proof. unfold steady, collide_row, of_modes, lj, lpi, lk, steady_k. cbn. field. lra. Qed.
  Lemma steady_dn k : dn (steady k) = (steady_k k + F - (1 - we) * steady_pi k) / 2.
  Proof. unfold steady, collide_row, of_modes, lj, lpi, lk, steady_k. cbn. field. lra. Qed.
  Lemma steady_mid k : mid (steady k) = steady_j k - steady_k k.
  Proof. unfold steady, collide_row, of_modes, lj, lpi, lk, steady_k. cbn. field. lra. Qed.

  Lemma lambda_pos w : 0 < w < 2 -> 0 < lambda w.
  Proof.
    intros Hw. unfold lambda. enough (1 / 2 < 1 / w) by lra. apply Rmult_lt_reg_r with (2 * w); [lra|]. replace (1 / 2 * (2 * w)) with w by field.
    replace (1 / w * (2 * w)) with 2 by (field; lra). lra.
  Qed.

  Lemma steady_step k : (k < H)%nat -> middle H (S k) = middle H k + 1.
  Proof. intros _. unfold middle. rewrite S_INR. ring. Qed.

  (* lambda written with we, wo: everything is a rational function *)
  Lemma steady_arrive k : (k < H)%nat -> arrive H lo hi steady k = of_modes (steady_j k) (steady_pi k) (steady_k k).
  Proof.
    intros Hk. assert (H0 : 0 < INR H) by (apply lt_0_INR; lia).
    assert (L : F / (2 * (lambda we / 3)) = 3 * F * we / (2 - we)) by (unfold lambda; field; lra).
    assert (LL : lambda we * lambda wo = (2 - we) * (2 - wo) / (4 * we * wo)) by (unfold lambda; field; lra).
    apply layers_eq; cbn [arrive of_modes up mid dn].
    - destruct k as [|k].
      + rewrite steady_dn. unfold steady_k, steady_pi, steady_j, profile, couette, parabola, slip. rewrite L, LL. unfold middle. cbn [INR]. field. lra.
      + rewrite steady_up. unfold steady_k, steady_pi, steady_j, profile, couette, parabola, slip. rewrite L, LL. unfold middle. rewrite S_INR. field. lra.
    - rewrite steady_mid. reflexivity.
    - destruct (Nat.ltb_spec (S k) H).
      + rewrite steady_dn. unfold steady_k, steady_pi, steady_j, profile, couette, parabola, slip. rewrite L, LL. unfold middle. rewrite S_INR. field. lra.
      + assert (INR k = INR H - 1) by (assert (H = S k) as -> by lia; rewrite S_INR; ring).
        rewrite steady_up. unfold steady_k, steady_pi, steady_j, profile, couette, parabola, slip. rewrite L, LL. unfold middle. rewrite H2. field. lra.
  Qed.
End Steady.

(* rows are determined by the values in the channel *)
Lemma arrive_ext H lo hi t t' k : (forall i, (i < H)%nat -> t i = t' i) -> (k < H)%nat -> arrive H lo hi t k = arrive H lo hi t' k.
Proof.
  intros E Hk. apply layers_eq; cbn [arrive up mid dn].
  - destruct k as [|k]; rewrite E by lia; reflexivity.
  - now rewrite E by lia.
  - destruct (Nat.ltb_spec (S k) H); rewrite E by lia; reflexivity.
Qed.
Lemma rows_ext H we wo F lo hi t t' n : (forall i, (i < H)%nat -> t i = t' i) -> forall k, (k < H)%nat -> rows H we wo F lo hi t n k = rows H we wo F lo hi t' n k.
Proof. intros E. induction n as [|n IH]; intros k Hk; [apply E; exact Hk|]. cbn [rows]. f_equal. apply arrive_ext; auto. Qed.

Lemma steady_rows H we wo F lo hi n : 0 < we < 2 -> 0 < wo < 2 -> forall k, (k < H)%nat -> rows H we wo F lo hi (steady H we wo F lo hi) n k = steady H we wo F lo hi k.
Proof.
  intros Hwe Hwo. induction n as [|n IH]; intros k Hk; [reflexivity|]. cbn [rows].
  rewrite (arrive_ext H lo hi _ (steady H we wo F lo hi) k IH Hk), steady_arrive by assumption. reflexivity.
Qed.

(* differences follow the same rules without force and wall velocities *)
Definition lsub (p q : layers) : layers := {| up := up p - up q; mid := mid p - mid q; dn := dn p - dn q |}.
Lemma rows_sub H we wo F lo hi t t' n k : (k < H)%nat ->
  lsub (rows H we wo F lo hi t n k) (rows H we wo F lo hi t' n k) = rows H we wo 0 0 0 (fun i => lsub (t i) (t' i)) n k.
Proof.
  revert k. induction n as [|n IH]; intros k Hk; [reflexivity|]. cbn [rows].
  rewrite (arrive_ext H 0 0 (rows H we wo 0 0 0 (fun i => lsub (t i) (t' i)) n) (fun i => lsub (rows H we wo F lo hi t n i) (rows H we wo F lo hi t' n i)) k)
    by (first [exact Hk | intros i Hi; symmetry; apply IH; exact Hi]).
  apply layers_eq; cbn [lsub collide_row of_modes up mid dn]; unfold lj, lpi, lk; cbn [arrive lsub up mid dn];
    destruct k; destruct (_ <? H)%nat; field.
Qed.

(* ---- limits ---- *)
Lemma cv_ext u v l : (forall n, u n = v n) -> Un_cv u l -> Un_cv v l.
Proof. intros E Hu e He. destruct (Hu e He) as [N HN]. exists N. intros n Hn. rewrite <- E. now apply HN. Qed.
Lemma cv_S u l : Un_cv u l -> Un_cv (fun n => u (S n)) l.
Proof. intros Hu e He. destruct (Hu e He) as [N HN]. exists N. intros n Hn. apply HN. lia. Qed.
Lemma cv_unS u l : Un_cv (fun n => u (S n)) l -> Un_cv u l.
Proof. intros Hu e He. destruct (Hu e He) as [N HN]. exists (S N). intros [|n] Hn; [lia|]. apply HN. lia. Qed.
Lemma cv_const c : Un_cv (fun _ => c) c.
Proof. intros e He. exists 0%nat. intros n _. unfold R_dist. rewrite Rminus_diag_eq, Rabs_R0; auto. Qed.
Lemma cv_lin a b u v : Un_cv u 0 -> Un_cv v 0 -> Un_cv (fun n => a * u n + b * v n) 0.
Proof.
  intros Hu Hv. replace 0 with (a * 0 + b * 0) by ring. apply CV_plus; (apply CV_mult; [apply cv_const|assumption]).
Qed.
Lemma cv_square a x L : 0 < a -> (forall n, a * (x n * x n) <= L n) -> Un_cv L 0 -> Un_cv x 0.
Proof.
  intros Ha Hx HL e He. destruct (HL (a * (e * e))) as [N HN]; [apply Rmult_lt_0_compat; [exact Ha|apply Rmult_lt_0_compat; assumption]|].
  exists N. intros n Hn. specialize (HN n Hn). unfold R_dist in *. rewrite Rminus_0_r in *.
  destruct (Rlt_dec (Rabs (x n)) e) as [G|G]; [exact G|]. exfalso. apply Rnot_lt_le in G.
  assert (e * e <= x n * x n) by (rewrite <- (Rabs_pos_eq (x n * x n)) by apply Rle_0_sqr; rewrite Rabs_mult; apply Rmult_le_compat; lra).
  pose proof (Hx n) as Hb. pose proof (Rle_abs (L n)). assert (a * (e * e) <= a * (x n * x n)) by (apply Rmult_le_compat_l; lra). lra.
Qed.

(* ---- decay of the homogeneous dynamics ---- *)
Definition energy (p : layers) : R := 6 * (up p * up p) + 3 / 2 * (mid p * mid p) + 6 * (dn p * dn p).
Lemma energy_nonneg p : 0 <= energy p.
Proof. unfold energy. pose proof (Rle_0_sqr (up p)). pose proof (Rle_0_sqr (mid p)). pose proof (Rle_0_sqr (dn p)). unfold Rsqr in *. lra. Qed.
Definition lq (p : layers) : R := lk p - lj p / 3.
Lemma energy_collide we wo p : energy p - energy (collide_row we wo 0 p) =
  9 / 2 * (wo * (2 - wo)) * (lq p * lq p) + 3 * (we * (2 - we)) * (lpi p * lpi p).
Proof. unfold energy, collide_row, of_modes, lq, lk, lj, lpi. cbn. field. Qed.

Lemma total_S n g : total (S n) g = g 0%nat + total n (fun i => g (S i)).
Proof. induction n as [|n IH]; [cbn; ring|]. cbn [total] in *. rewrite IH. ring. Qed.
Lemma total_nonneg' n g : (forall i, (i < n)%nat -> 0 <= g i) -> 0 <= total n g.
Proof. induction n as [|n IH]; intros Hg; [cbn; lra|]. cbn. pose proof (IH ltac:(intros; apply Hg; lia)). pose proof (Hg n ltac:(lia)). lra. Qed.
Lemma total_term n g k : (forall i, (i < n)%nat -> 0 <= g i) -> (k < n)%nat -> g k <= total n g.
Proof.
  induction n as [|n IH]; intros Hg Hk; [lia|]. cbn. pose proof (total_nonneg' n g ltac:(intros; apply Hg; lia)). pose proof (Hg n ltac:(lia)).
  destruct (Nat.eq_dec k n) as [->|N]; [lra|]. pose proof (IH ltac:(intros; apply Hg; lia) ltac:(lia)). lra.
Qed.
Lemma energy_arrive H t : total H (fun k => energy (arrive H 0 0 t k)) = total H (fun k => energy (t k)).
Proof.
  destruct H as [|h]; [reflexivity|]. unfold energy. rewrite !total_plus, !total_scal. cbn [arrive up mid dn].
  assert (Eu : total (S h) (fun k => match k with O => - dn (t 0%nat) + 0 / 3 | S k' => up (t k') end * match k with O => - dn (t 0%nat) + 0 / 3 | S k' => up (t k') end)
    = dn (t 0%nat) * dn (t 0%nat) + total h (fun k => up (t k) * up (t k))) by (rewrite total_S; f_equal; field).
  assert (Ed : total (S h) (fun k => (if (S k <? S h)%nat then dn (t (S k)) else - up (t k) + 0 / 3) * (if (S k <? S h)%nat then dn (t (S k)) else - up (t k) + 0 / 3))
    = total h (fun k => dn (t (S k)) * dn (t (S k))) + up (t h) * up (t h)).
  { cbn [total]. rewrite Nat.ltb_irrefl. f_equal; [|field]. apply total_ext. intros i Hi. rewrite (proj2 (Nat.ltb_lt (S i) (S h))) by lia. reflexivity. }
  rewrite Eu, Ed. rewrite (total_S h (fun k => dn (t k) * dn (t k))). cbn [total]. ring.
Qed.

Section Decay.
  Variables (H : nat) (we wo : R).
  Hypothesis Hwe : 0 < we < 2.
  Hypothesis Hwo : 0 < wo < 2.
  Variable t0 : nat -> layers.
  Let d (n : nat) := rows H we wo 0 0 0 t0 n.
  Let p (n k : nat) := arrive H 0 0 (d n) k.
  Let E (n : nat) := total H (fun k => energy (d n k)).

  Lemma energy_loss n : E n - E (S n) = total H (fun k => 9 / 2 * (wo * (2 - wo)) * (lq (p n k) * lq (p n k)) + 3 * (we * (2 - we)) * (lpi (p n k) * lpi (p n k))).
  Proof.
    unfold E. rewrite <- (energy_arrive H (d n)), <- total_minus. apply total_ext. intros k Hk. apply energy_collide.
  Qed.
  Lemma rate_pos w : 0 < w < 2 -> 0 < w * (2 - w).
  Proof. intros. apply Rmult_lt_0_compat; lra. Qed.
  Lemma loss_terms n k : 0 <= 9 / 2 * (wo * (2 - wo)) * (lq (p n k) * lq (p n k)) /\ 0 <= 3 * (we * (2 - we)) * (lpi (p n k) * lpi (p n k)).
  Proof.
    pose proof (rate_pos we Hwe). pose proof (rate_pos wo Hwo). pose proof (Rle_0_sqr (lq (p n k))). pose proof (Rle_0_sqr (lpi (p n k))). unfold Rsqr in *.
    split; (apply Rmult_le_pos; [lra|assumption]).
  Qed.
  Lemma loss_cv : Un_cv (fun n => E n - E (S n)) 0.
  Proof.
    assert (D : Un_decreasing E).
    { intros n. enough (0 <= E n - E (S n)) by lra. rewrite energy_loss. apply total_nonneg'. intros k _. pose proof (loss_terms n k). lra. }
    assert (B : has_lb E).
    { exists 0. intros x [n ->]. unfold opp_seq. enough (0 <= E n) by lra. apply total_nonneg'. intros. apply energy_nonneg. }
    destruct (decreasing_cv E D B) as [l Hl]. replace 0 with (l - l) by ring. apply CV_minus; [exact Hl|apply cv_S; exact Hl].
  Qed.
  Lemma q_cv k : (k < H)%nat -> Un_cv (fun n => lq (p n k)) 0.
  Proof.
    intros Hk. apply (cv_square (9 / 2 * (wo * (2 - wo))) _ (fun n => E n - E (S n))); [pose proof (rate_pos wo Hwo); lra| |apply loss_cv].
    intros n. rewrite energy_loss. pose proof (total_term H (fun k => 9 / 2 * (wo * (2 - wo)) * (lq (p n k) * lq (p n k)) + 3 * (we * (2 - we)) * (lpi (p n k) * lpi (p n k))) k) as G.
    cbv beta in G. pose proof (loss_terms n k). eapply Rle_trans; [|apply G; [|exact Hk]]; [lra|]. intros i _. pose proof (loss_terms n i). lra.
  Qed.
  Lemma pi_cv k : (k < H)%nat -> Un_cv (fun n => lpi (p n k)) 0.
  Proof.
    intros Hk. apply (cv_square (3 * (we * (2 - we))) _ (fun n => E n - E (S n))); [pose proof (rate_pos we Hwe); lra| |apply loss_cv].
    intros n. rewrite energy_loss. pose proof (total_term H (fun k => 9 / 2 * (wo * (2 - wo)) * (lq (p n k) * lq (p n k)) + 3 * (we * (2 - we)) * (lpi (p n k) * lpi (p n k))) k) as G.
    cbv beta in G. pose proof (loss_terms n k). eapply Rle_trans; [|apply G; [|exact Hk]]; [lra|]. intros i _. pose proof (loss_terms n i). lra.
  Qed.
  (* momentum in a row: J(n+1) - J(n) = 3/2 (Q(n+1) - (1-wo) Q(n)) *)
  Lemma j_next n k : lj (p (S n) k) - lj (p n k) = 3 / 2 * (lq (p (S n) k) - (1 - wo) * lq (p n k)).
  Proof.
    assert (M : mid (p (S n) k) = mid (collide_row we wo 0 (p n k))) by reflexivity.
    cbn [collide_row of_modes mid] in M. unfold lq, lj, lk in *. lra.
  Qed.
  Lemma j_wall n : (0 < H)%nat -> lj (p (S n) 0) + lj (p n 0) = 3 * (- lq (p (S n) 0) - lpi (p (S n) 0) - (1 - wo) * lq (p n 0) + (1 - we) * lpi (p n 0)).
  Proof.
    intros HH. assert (M : up (p (S n) 0) = - dn (collide_row we wo 0 (p n 0)) + 0 / 3) by reflexivity.
    cbn [collide_row of_modes dn] in M. unfold lq, lj, lk, lpi in *. lra.
  Qed.
  Lemma j_up n k : lj (p (S n) (S k)) - lj (p n k) = 3 * (- lq (p (S n) (S k)) - lpi (p (S n) (S k)) + (1 - wo) * lq (p n k) + (1 - we) * lpi (p n k)).
  Proof.
    assert (M : up (p (S n) (S k)) = up (collide_row we wo 0 (p n k))) by reflexivity.
    cbn [collide_row of_modes up] in M. unfold lq, lj, lk, lpi in *. lra.
  Qed.
  Lemma j_cv k : (k < H)%nat -> Un_cv (fun n => lj (p n k)) 0.
  Proof.
    induction k as [|k IH]; intros Hk.
    - apply (cv_ext (fun n => 1 / 2 * (1 * (3 * (- 1 * lq (p (S n) 0) + - 1 * lpi (p (S n) 0)) + 3 * (- (1 - wo) * lq (p n 0) + (1 - we) * lpi (p n 0))) + 0 * 0)
                              + - 1 / 2 * (3 / 2 * lq (p (S n) 0) + - (3 / 2) * (1 - wo) * lq (p n 0)))).
      + intros n. pose proof (j_wall n Hk). pose proof (j_next n 0). lra.
      + pose proof (q_cv 0 Hk) as Q0. pose proof (pi_cv 0 Hk) as P0. pose proof (cv_S _ _ Q0) as Q1. pose proof (cv_S _ _ P0) as P1. cbv beta in Q1, P1.
        assert (Z : Un_cv (fun _ => 0) 0) by apply cv_const.
        repeat (apply cv_lin); try assumption; apply cv_lin; assumption.
    - apply cv_unS. apply (cv_ext (fun n => 1 * lj (p n k) + 3 * (1 * (- 1 * lq (p (S n) (S k)) + - 1 * lpi (p (S n) (S k))) + 1 * ((1 - wo) * lq (p n k) + (1 - we) * lpi (p n k))))).
      + intros n. pose proof (j_up n k). lra.
      + assert (Hk' : (k < H)%nat) by lia. pose proof (q_cv k Hk') as Q0. pose proof (pi_cv k Hk') as P0. pose proof (cv_S _ _ (q_cv _ Hk)) as Q1. pose proof (cv_S _ _ (pi_cv _ Hk)) as P1. cbv beta in Q1, P1.
        apply cv_lin; [apply IH; exact Hk'|]. apply cv_lin; apply cv_lin; assumption.
  Qed.
End Decay.

(* the momentum after a collision, minus half of the force, tends to the profile, from every initial state *)
Lemma rows_converge H we wo F lo hi t0 k : 0 < we < 2 -> 0 < wo < 2 -> (k < H)%nat ->
  Un_cv (fun n => lj (rows H we wo F lo hi t0 (S n) k) - F / 2) (profile H we wo F lo hi k).
Proof.
  intros Hwe Hwo Hk. set (st := steady H we wo F lo hi).
  pose proof (j_cv H we wo Hwe Hwo (fun i => lsub (t0 i) (st i)) k Hk) as G.
  assert (E : forall n, lj (arrive H 0 0 (rows H we wo 0 0 0 (fun i => lsub (t0 i) (st i)) n) k) + profile H we wo F lo hi k = lj (rows H we wo F lo hi t0 (S n) k) - F / 2).
  { intros n. assert (A : lj (arrive H 0 0 (rows H we wo 0 0 0 (fun i => lsub (t0 i) (st i)) n) k) = lj (rows H we wo 0 0 0 (fun i => lsub (t0 i) (st i)) (S n) k)).
    { cbn [rows]. unfold collide_row, of_modes, lj. cbn [up mid dn]. unfold lj. field. }
    rewrite A, <- (rows_sub H we wo F lo hi t0 st (S n) k Hk). unfold st. rewrite (steady_rows H we wo F lo hi (S n) Hwe Hwo k Hk).
    replace (profile H we wo F lo hi k) with (lj (steady H we wo F lo hi k) - F / 2).
    - unfold lj, lsub. cbn [up mid dn]. ring.
    - unfold steady, collide_row, of_modes, lj. cbn [up mid dn]. unfold steady_j. unfold lj. cbn. field. }
  set (P := profile H we wo F lo hi k) in *. eapply cv_ext; [exact E|]. replace (Un_cv _ P) with (Un_cv (fun n => lj (arrive H 0 0 (rows H we wo 0 0 0 (fun i => lsub (t0 i) (st i)) n) k) + P) (0 + P)) by (f_equal; ring).
  apply (CV_plus _ (fun _ => P)); [|apply cv_const]. eapply cv_ext; [|exact G]. reflexivity.
Qed.
