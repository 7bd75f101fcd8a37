(* Proofs about the n-phase model: the function H, absent phases, equal surface tensions, surface tension of an interface. *)
From Coq Require Import List ZArith Bool Arith Reals Lra Lia Permutation.
From Verif Require Import StencilModel RealLib NphModel NphSpec NphProofs NphProofs2.
Import ListNotations.
Local Open Scope R_scope.

(* ---- H ---- *)
Lemma h_formula u v : capital_h u v = Rabs v * v / (Rabs v + u ^ 2).
Proof. unfold capital_h. destruct (Req_EM_T u 0) as [->|]; [|reflexivity]. destruct (Req_EM_T v 0) as [->|]; [|reflexivity]. rewrite Rabs_R0. unfold Rdiv. ring. Qed.
Lemma h_den u v : v <> 0 \/ u <> 0 -> 0 < Rabs v + u ^ 2.
Proof.
  intros H. assert (0 <= u ^ 2) by apply pow2_ge_0. assert (0 <= Rabs v) by apply Rabs_pos. destruct H as [H|H]; [pose proof (Rabs_pos_lt v H); lra|]. assert (0 < u ^ 2) by (replace (u ^ 2) with (Rsqr u) by (unfold Rsqr; ring); now apply Rlt_0_sqr). lra.
Qed.
Lemma dn_abs v : v <> 0 -> exists s, derivable_pt_lim Rabs v s /\ s * v = Rabs v /\ s * s = 1.
Proof. intros H. destruct (Rtotal_order v 0) as [L|[->|L]]; [|congruence|]. - exists (-1). split; [now apply Rabs_derive_2|]. rewrite Rabs_left by auto. split; ring. - exists 1. split; [now apply Rabs_derive_1|]. rewrite Rabs_right by lra. split; ring. Qed.
Lemma h_fdiff_u u v : exists d, capital_h_fdiff 1 u v = Some d /\ derivable_pt_lim (fun u => capital_h u v) u d.
Proof.
  cbn [capital_h_fdiff]. eexists. split; [reflexivity|]. destruct (Req_EM_T v 0) as [->|Nv].
  - apply (dn_ext (fun _ => 0)); [intros; symmetry; apply capital_h_zero|]. eapply dn_eq; [|apply dn_const]. destruct (Req_EM_T u 0); [reflexivity|]. unfold Rdiv. ring.
  - pose proof (h_den u v (or_introl Nv)) as D. apply (dn_ext (fun u => Rabs v * v / (Rabs v + u ^ 2))); [intros; symmetry; apply h_formula|].
    eapply dn_eq; [|apply dn_div; [lra|apply dn_const|apply dn_plus; [apply dn_const|apply dn_square, dn_id]]]. destruct (Req_EM_T u 0) as [->|]; unfold Rsqr; field; lra.
Qed.
Lemma h_fdiff_v u v : exists d, capital_h_fdiff 2 u v = Some d /\ derivable_pt_lim (capital_h u) v d.
Proof.
  cbn [capital_h_fdiff]. eexists. split; [reflexivity|]. apply (dn_ext (fun v => Rabs v * v / (Rabs v + u ^ 2))); [intros; symmetry; apply h_formula|].
  destruct (Req_EM_T v 0) as [->|Nv].
  - destruct (Req_EM_T u 0) as [->|Nu].
    + intros eps He. exists (mkposreal 1 Rlt_0_1). intros h Hh _. rewrite Rplus_0_l, Rabs_R0. replace (Rabs h * h / (Rabs h + 0 ^ 2)) with h by (field; rewrite Rplus_0_r || idtac; apply Rabs_no_R0 in Hh; lra).
      replace ((h - 0 * 0 / (0 + 0 ^ 2)) / h - 1) with 0; [rewrite Rabs_R0; lra|]. unfold Rdiv. rewrite !Rmult_0_l, Rminus_0_r, Rinv_r by auto. ring.
    + assert (U : 0 < u ^ 2) by (replace (u ^ 2) with (Rsqr u) by (unfold Rsqr; ring); now apply Rlt_0_sqr).
      intros eps He. assert (Hd : 0 < eps * u ^ 2) by (apply Rmult_lt_0_compat; lra). exists (mkposreal _ Hd). cbn [pos]. intros h Hh L. rewrite Rplus_0_l, Rabs_R0. pose proof (Rabs_pos_lt h Hh) as P.
      replace ((Rabs h * h / (Rabs h + u ^ 2) - 0 * 0 / (0 + u ^ 2)) / h - (2 * 0 * u ^ 2 + 0 ^ 2) / (0 + u ^ 2) ^ 2) with (Rabs h / (Rabs h + u ^ 2)) by (field; repeat split; lra).
      rewrite Rabs_pos_eq by (apply Rlt_le, Rdiv_lt_0_compat; lra). apply Rmult_lt_reg_r with (Rabs h + u ^ 2); [lra|]. unfold Rdiv. rewrite Rmult_assoc, Rinv_l by lra. assert (0 < eps * Rabs h) by (apply Rmult_lt_0_compat; lra). lra.
  - pose proof (h_den u v (or_introl Nv)) as D. destruct (dn_abs v Nv) as (s & Ds & Es & Ss).
    eapply dn_eq; [|apply dn_div; [lra|apply dn_mult; [exact Ds|apply dn_id]|apply dn_plus; [exact Ds|apply dn_const]]].
    assert (E : ((s * v + Rabs v * 1) * (Rabs v + u ^ 2) - (s + 0) * (Rabs v * v)) / (Rabs v + u ^ 2)² = (2 * Rabs v * u ^ 2 + v ^ 2) / (Rabs v + u ^ 2) ^ 2).
    { assert (A : Rabs v * Rabs v = v ^ 2) by (rewrite <- Es; replace (s * v * (s * v)) with (s * s * v ^ 2) by ring; rewrite Ss; ring). rewrite Es. replace ((s + 0) * (Rabs v * v)) with (Rabs v * (s * v)) by ring. rewrite Es. unfold Rsqr. apply (f_equal2 Rdiv); [|ring]. rewrite <- A. ring. }
    cbv beta. transitivity ((2 * Rabs v * u ^ 2 + v ^ 2) / (Rabs v + u ^ 2) ^ 2); [exact E|]. destruct (Req_EM_T u 0); reflexivity.
Qed.

(* ---- absent phases ---- *)
Lemma insert_length i c : (i <= length c)%nat -> length (insert_absent i c) = S (length c).
Proof. intros H. unfold insert_absent. rewrite app_length. cbn. rewrite firstn_length, skipn_length. lia. Qed.
Lemma insert_at i c : (i <= length c)%nat -> entry (insert_absent i c) i = 0.
Proof. intros H. unfold entry, insert_absent. rewrite app_nth2; rewrite firstn_length_le by auto; [|lia]. now rewrite Nat.sub_diag. Qed.
Lemma nth_skip : forall i (c : list R) a, nth (i + a) c 0 = nth a (skipn i c) 0.
Proof. induction i as [|i IH]; intros c a; [reflexivity|]. destruct c; cbn; [destruct a; reflexivity|apply IH]. Qed.
Lemma nth_first : forall i (c : list R) a, (a < i)%nat -> nth a (firstn i c) 0 = nth a c 0.
Proof. induction i as [|i IH]; intros c a H; [lia|]. destruct c; cbn; [destruct a; reflexivity|]. destruct a; [reflexivity|]. apply IH. lia. Qed.
Lemma insert_skip i c a : (i <= length c)%nat -> entry (insert_absent i c) (skip i a) = entry c a.
Proof.
  intros H. unfold entry, insert_absent, skip. destruct (Nat.ltb_spec a i).
  - rewrite app_nth1 by (rewrite firstn_length_le; auto). now apply nth_first.
  - rewrite app_nth2; rewrite firstn_length_le by auto; [|lia]. replace (S a - i)%nat with (S (a - i)) by lia. cbn [nth]. rewrite <- nth_skip. f_equal. lia.
Qed.
Lemma skip_lt i a n : (a < n)%nat -> (skip i a < S n)%nat.
Proof. unfold skip. destruct (Nat.ltb_spec a i); lia. Qed.
Lemma total_skip n i g : (i <= n)%nat -> total (S n) g = g i + total n (fun a => g (skip i a)).
Proof.
  revert i. induction n as [|n IH]; intros i H; [replace i with 0%nat by lia; cbn; ring|]. destruct (Nat.eq_dec i (S n)) as [->|N].
  - change (total (S (S n)) g) with (total (S n) g + g (S n)). rewrite (total_ext (S n) (fun a => g (skip (S n) a)) g); [ring|]. intros a Ha. unfold skip. destruct (Nat.ltb_spec a (S n)); [reflexivity|lia].
  - change (total (S (S n)) g) with (total (S n) g + g (S n)). rewrite (IH i) by lia. cbn [total]. unfold skip at 3. destruct (Nat.ltb_spec n i); [lia|ring].
Qed.
Lemma f0_absent i c sigma f : (i <= length c)%nat -> tensions (S (length c)) sigma -> f 0 = 0 -> capital_f0 (insert_absent i c) sigma f = capital_f0 c (fun a b => sigma (skip i a) (skip i b)) f.
Proof.
  intros Hi Ht H0. rewrite f0_half by (rewrite insert_length; auto). rewrite insert_length by auto. set (n := length c) in *.
  assert (Ht' : tensions n (fun a b => sigma (skip i a) (skip i b))) by (destruct Ht as [T1 T2]; split; [intros a b Ha Hb; apply T1; now apply skip_lt|intros a Ha; apply T2; now apply skip_lt]).
  rewrite f0_half by exact Ht'. fold n. rewrite (total_skip n i) by auto. rewrite total_zero.
  - rewrite Rplus_0_l. apply total_ext. intros a Ha. rewrite (total_skip n i) by auto. rewrite insert_at, insert_skip by auto. rewrite H0, !Rplus_0_l.
    rewrite (total_ext n _ (fun b => sigma (skip i a) (skip i b) / 4 * (f (entry c b) + f (entry c a) - f (entry c b + entry c a)))) by (intros b Hb; now rewrite insert_skip by auto). unfold Rminus. rewrite Rplus_opp_r. ring.
  - intros b Hb. rewrite insert_at by auto. rewrite H0, !Rplus_0_r. field.
Qed.
Lemma psi_insert k i c f : (i <= length c)%nat -> f 0 = 0 -> psi_value k (insert_absent i c) f = psi_value k c f.
Proof. intros Hi H0. rewrite !psi_on_values by auto. unfold insert_absent. rewrite psi_absent by auto. now rewrite firstn_skipn. Qed.

(* ---- equal surface tensions ---- *)
Lemma psi_repeat k f : f 0 = 0 -> forall m l1 l2, psi_values k (l1 ++ repeat 0 m ++ l2) f = psi_values k (l1 ++ l2) f.
Proof. intros H0. induction m as [|m IH]; intros l1 l2; [reflexivity|]. cbn [repeat app]. rewrite psi_absent by auto. apply IH. Qed.
Definition two_phases (a b d : nat) (x : R) : list R := repeat 0 a ++ x :: repeat 0 b ++ (1 - x) :: repeat 0 d.
Lemma psi_two k a b d x f : f 0 = 0 -> psi_value k (two_phases a b d x) f = psi_values k [x; 1 - x] f.
Proof.
  intros H0. rewrite psi_on_values by auto. unfold two_phases.
  pose proof (psi_repeat k f H0 a [] (x :: repeat 0 b ++ (1 - x) :: repeat 0 d)) as E1. cbn [app] in E1.
  pose proof (psi_repeat k f H0 b [x] ((1 - x) :: repeat 0 d)) as E2. cbn [app] in E2.
  pose proof (psi_repeat k f H0 d [x; 1 - x] []) as E3. cbn [app] in E3. rewrite app_nil_r in E3. congruence.
Qed.
Lemma two_length a b d x : length (two_phases a b d x) = S (S (a + b + d)).
Proof. unfold two_phases. rewrite app_length. cbn. rewrite app_length. cbn. rewrite !repeat_length. lia. Qed.
Lemma equal_tension_two a b d x f sigma lambda1 : f 0 = 0 -> f 1 = 0 -> f (1 - x) = f x ->
  capital_f_bulk_equal_surface_tension (two_phases a b d x) f sigma lambda1 = sigma * f x.
Proof.
  intros H0 H1 Hs. unfold capital_f_bulk_equal_surface_tension. rewrite two_length. cbn [seq]. rewrite (rsum_ext _ (fun k => lambda_equal_surface_tension k sigma lambda1 * psi_values (S k) [x; 1 - x] f)) by (intros; now rewrite psi_two).
  cbn [map]. rewrite !rsum_cons. rewrite (rsum_ext _ (fun _ => 0)), rsum_zero.
  - unfold lambda_equal_surface_tension, psi_values, alternating. cbn. unfold minus_one_pow. cbn. replace (x + (1 - x + 0)) with 1 by ring. rewrite !Rplus_0_r, Hs, H0, H1. field.
  - intros k Hk. apply in_seq in Hk. unfold psi_values. rewrite combinations_long by (cbn; lia). cbn. ring.
Qed.

(* ---- surface tension ---- *)
Lemma sqrt_well c : 0 <= c <= 1 -> sqrt (double_well c) = c * (1 - c).
Proof. intros H. unfold double_well. replace (c ^ 2 * (1 - c) ^ 2) with (Rsqr (c * (1 - c))) by (unfold Rsqr; ring). apply sqrt_Rsqr. apply Rmult_le_pos; lra. Qed.
Lemma well_integral P : (forall c, 0 <= c <= 1 -> derivable_pt_lim P c (sqrt (double_well c))) -> P 1 - P 0 = / 6.
Proof.
  intros H. destruct (MVT_cor2 (fun c => P c - (c ^ 2 / 2 - c ^ 3 / 3)) (fun c => sqrt (double_well c) - c * (1 - c)) 0 1 ltac:(lra)) as (c & E & Hc).
  - intros c Hc. apply dn_minus; [now apply H|]. apply (dn_ext (fun c => / 2 * (c * c) - / 3 * (c * (c * c)))); [intros; field|].
    eapply dn_eq; [|apply dn_minus; apply dn_scal; [apply (dn_mult (fun c => c) (fun c => c)); apply dn_id|apply (dn_mult (fun c => c) (fun c => c * c)); [apply dn_id|apply (dn_mult (fun c => c) (fun c => c)); apply dn_id]]]. field.
  - rewrite sqrt_well in E by lra. lra.
Qed.
Lemma compute_ab_well : compute_ab double_well (/ 6) = Some (3 / 2, 12).
Proof.
  unfold compute_ab. assert (Z0 : double_well 0 = 0) by (unfold double_well; ring). assert (Z1 : double_well 1 = 0) by (unfold double_well; ring).
  rewrite Z0, Z1, !rsqrt_ok by (try lra; unfold double_well; nra). cbn [obind]. rewrite (sqrt_well (1 / 2)) by lra. rewrite sqrt_0.
  assert (M : Rmax (Rmax 0 (1 / 2 * (1 - 1 / 2))) 0 = / 4). { rewrite (Rmax_right 0) by lra. rewrite Rmax_left by lra. field. } rewrite M.
  rewrite !rdiv_ok by lra. cbn [obind]. do 2 f_equal; field.
Qed.
(* energy density of a mixture of the phases j and k with slope g *)
Lemma energy_density n sigma lambda theta factor eps j k x g : tensions n sigma -> (j < n)%nat -> (k < n)%nat -> j <> k -> eps <> 0 ->
  free_energy_interfacial (mixture_slope n j k g) sigma (3 / 2) eps + bulk_free_energy sigma lambda theta factor 12 eps (mixture n j k x) =
  sigma j k * (6 * x * (1 - x) * g + 3 / 4 * eps * (g - 4 * x * (1 - x) / eps) ^ 2).
Proof. intros Ht Hj Hk Hjk He. rewrite interfacial_mixture, bulk_mixture by auto. unfold double_well. field. auto. Qed.
Lemma primitive c x g : derivable_pt_lim c x g -> derivable_pt_lim (fun x => 3 * c x ^ 2 - 2 * c x ^ 3) x (6 * c x * (1 - c x) * g).
Proof.
  intros H. apply (dn_ext (fun x => 3 * (c x) ^ 2 - 2 * (c x * c x ^ 2))); [intros; ring|]. eapply dn_eq; [|apply dn_minus; apply dn_scal; [apply dn_square; exact H|apply dn_mult; [exact H|apply dn_square; exact H]]]. cbv beta. ring.
Qed.
Lemma profile_slope eps x : eps <> 0 -> derivable_pt_lim (fun x => 1 / (1 + exp (- 4 * x / eps))) x (4 * (1 / (1 + exp (- 4 * x / eps))) * (1 - 1 / (1 + exp (- 4 * x / eps))) / eps).
Proof.
  intros He. pose proof (exp_pos (- 4 * x / eps)) as P. eapply dn_eq; [|apply dn_div; [lra|apply dn_const|apply dn_plus; [apply dn_const|apply (dn_comp (fun x => - 4 * x / eps) exp); [|apply derivable_pt_lim_exp]]]].
  2:{ apply (dn_ext (fun x => - 4 / eps * x)); [intros; field; auto|]. apply dn_scal, dn_id. }
  unfold Rsqr. field. split; lra.
Qed.

(* ---- psi in terms of S ---- *)
Lemma subsets_of_subsets {A} : forall (l : list A) k s (psi : list A -> R), (s <= k)%nat ->
  rsum (map (fun i => rsum (map psi (combinations s i))) (combinations k l)) = INR (choose (length l - s) (k - s)) * rsum (map psi (combinations s l)).
Proof.
  induction l as [|x r IH]; intros k s ps H.
  - destruct k as [|k]; [replace s with 0%nat by lia; cbn; ring|]. destruct s as [|s]; cbn; [|ring]. ring.
  - destruct s as [|s].
    + rewrite !combinations_0. destruct k as [|k]; [rewrite combinations_0; cbn; ring|]. cbn [combinations].
      rewrite map_app, rsum_app, map_map. rewrite (rsum_ext (fun i => rsum (map ps (combinations 0 (x :: i)))) (fun i => rsum (map ps (combinations 0 i)))) by (intros; now rewrite !combinations_0).
      rewrite !IH by lia. rewrite !combinations_0, !Nat.sub_0_r. cbn [length choose]. rewrite plus_INR. ring.
    + destruct k as [|k]; [lia|]. cbn [combinations]. rewrite !map_app, !rsum_app, !map_map.
      rewrite (rsum_ext (fun i => rsum (map ps (combinations (Datatypes.S s) (x :: i)))) (fun i => rsum (map (fun j => ps (x :: j)) (combinations s i)) + rsum (map ps (combinations (Datatypes.S s) i)))) by (intros i _; cbn [combinations]; rewrite map_app, rsum_app, map_map; reflexivity).
      rewrite rsum_plus. rewrite (IH k s) by lia. cbn [length]. rewrite !Nat.sub_succ. rewrite (IH (Datatypes.S k) (Datatypes.S s)) by lia. rewrite Nat.sub_succ.
      enough (E : rsum (map (fun i => rsum (map ps (combinations (Datatypes.S s) i))) (combinations k r)) + INR (choose (length r - Datatypes.S s) (k - s)) * rsum (map ps (combinations (Datatypes.S s) r)) =
                  INR (choose (length r - s) (k - s)) * rsum (map ps (combinations (Datatypes.S s) r))) by lra.
      destruct (Nat.lt_ge_cases (length r) (Datatypes.S s)) as [L|G].
      * rewrite (combinations_long r (Datatypes.S s)) by auto. destruct (Nat.le_gt_cases (Datatypes.S s) k) as [L1|L1]; [rewrite (combinations_long r k) by lia; cbn; ring|].
        rewrite (rsum_ext _ (fun _ => 0)), rsum_zero by (intros i Hi; apply combinations_length in Hi; rewrite combinations_long by lia; reflexivity). cbn. ring.
      * replace (length r - s)%nat with (Datatypes.S (length r - Datatypes.S s)) by lia. destruct (Nat.le_gt_cases (Datatypes.S s) k) as [L1|L1].
        -- rewrite IH by auto. replace (k - s)%nat with (Datatypes.S (k - Datatypes.S s)) by lia. cbn [choose]. rewrite plus_INR. ring.
        -- rewrite (rsum_ext _ (fun _ => 0)), rsum_zero by (intros i Hi; apply combinations_length in Hi; rewrite combinations_long by lia; reflexivity).
           replace (k - s)%nat with 0%nat by lia. destruct (length r - Datatypes.S s)%nat; cbn [choose]; ring.
Qed.
Lemma minus_one_power k : minus_one_pow k = (-1) ^ k.
Proof. induction k as [|k IH]; [reflexivity|]. rewrite minus_one_S, IH. cbn. ring. Qed.
Lemma psi_subsets k c f : psi_value k c f = rsum (map (fun s => (-1) ^ (k - s) * INR (choose (length c - s) (k - s)) * capital_s s c f) (seq 1 k)).
Proof.
  unfold psi_value. rewrite rsum_swap. apply rsum_ext. intros s Hs. apply in_seq in Hs.
  rewrite (subsets_of_subsets (seq 0 (length c)) k s (fun j => minus_one_pow (k - s) * f (subset_sum c j))) by lia. rewrite seq_length, rsum_scal, minus_one_power. unfold capital_s. ring.
Qed.
