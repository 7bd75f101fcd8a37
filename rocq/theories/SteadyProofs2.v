(* Taylor's formula for polynomial fields. *)
From Coq Require Import List ZArith Bool Arith Reals Lra Lia.
From Verif Require Import StencilModel RealLib LinLib EqSpec SteadyModel SteadySpec SteadyProofs.
Import ListNotations.
Local Open Scope R_scope.

(* ---- the derivatives are the derivatives ---- *)
Lemma pd_lim a p x : derivable_pt_lim (fun h => val p (moved x a h)) 0 (val (pd a p) x).
Proof.
  assert (HM : forall p, val p (moved x a 0) = val p x).
  { clear p. induction p; cbn [val]; try congruence. unfold moved. destruct (Nat.eqb a a0); lra. }
  induction p as [r|b|p IHp q IHq|p IHp q IHq|r p IHp]; cbn [val pd].
  - apply derivable_pt_lim_const.
  - unfold moved, delta. destruct (Nat.eqb a b).
    + intros e He. exists (mkposreal 1 Rlt_0_1). intros h Hh _. replace ((x b + (0 + h) - (x b + 0)) / h - 1) with 0 by (field; exact Hh). rewrite Rabs_R0. exact He.
    + apply derivable_pt_lim_const.
  - apply (derivable_pt_lim_plus _ _ 0 _ _ IHp IHq).
  - pose proof (derivable_pt_lim_mult _ _ 0 _ _ IHp IHq) as H. cbv beta in H. rewrite !HM in H. exact H.
  - apply (derivable_pt_lim_scal _ r 0 _ IHp).
Qed.
Lemma pds_app i j p : pds (i ++ j) p = pds j (pds i p).
Proof. apply fold_left_app. Qed.

(* ---- coefficients along a line ---- *)
Definition conv (u v : nat -> R) (n : nat) : R := rsum (map (fun i => u i * v (n - i)%nat) (seq 0 (Datatypes.S n))).
Fixpoint coef (x : pos) (c : vec) (p : pf) (n : nat) : R :=
  match p with
  | Const r => if Nat.eqb n 0 then r else 0
  | Coord a => if Nat.eqb n 0 then x a else if Nat.eqb n 1 then comp c a else 0
  | Add p q => coef x c p n + coef x c q n
  | Mul p q => conv (coef x c p) (coef x c q) n
  | Scale r p => r * coef x c p n
  end.
Fixpoint deg (p : pf) : nat := match p with Const _ => 0 | Coord _ => 1 | Add p q => Nat.max (deg p) (deg q) | Mul p q => deg p + deg q | Scale _ p => deg p end%nat.
Lemma coef_deg x c p n : (deg p < n)%nat -> coef x c p n = 0.
Proof.
  revert n. induction p as [r|b|p IHp q IHq|p IHp q IHq|r p IHp]; intros n H; cbn [deg coef] in *.
  - destruct n; [lia|reflexivity].
  - destruct n as [|[|n]]; [lia|lia|reflexivity].
  - rewrite IHp, IHq by lia. ring.
  - unfold conv. apply rsum_zero_in. intros i Hi. apply in_seq in Hi. destruct (Nat.le_gt_cases i (deg p)) as [L|L]; [rewrite (IHq (n - i)%nat) by lia|rewrite (IHp i) by lia]; ring.
  - rewrite IHp by lia. ring.
Qed.
Lemma coef_zero x c p : coef x c p 0 = val p x.
Proof. induction p; cbn [coef val]; try reflexivity; try congruence. unfold conv. cbn [seq map rsum fold_right Nat.sub]. rewrite IHp1, IHp2. ring. Qed.
Lemma total_more (u : nat -> R) d M : (forall n, (d < n)%nat -> u n = 0) -> (d <= M)%nat -> rsum (map u (seq 0 (Datatypes.S M))) = rsum (map u (seq 0 (Datatypes.S d))).
Proof.
  intros H L. replace (Datatypes.S M) with (Datatypes.S d + (M - d))%nat by lia. rewrite seq_app, map_app, rsum_app. rewrite (rsum_zero_in u (seq (0 + Datatypes.S d) (M - d))); [ring|].
  intros i Hi. apply in_seq in Hi. apply H. lia.
Qed.
Lemma conv_total u v dp dq M : (forall n, (dp < n)%nat -> u n = 0) -> (forall n, (dq < n)%nat -> v n = 0) -> (dp + dq <= M)%nat ->
  rsum (map (conv u v) (seq 0 (Datatypes.S M))) = rsum (map u (seq 0 (Datatypes.S M))) * rsum (map v (seq 0 (Datatypes.S M))).
Proof.
  intros Hu Hv HM. rewrite (total_more v dq M Hv) by lia. rewrite (rsum_ext (conv u v) (fun n => rsum (map (fun i => ind (i <=? n) * (u i * v (n - i)%nat)) (seq 0 (Datatypes.S M))))).
  - rewrite rsum_swap. rewrite <- rsum_scal_r. apply rsum_ext. intros i Hi. apply in_seq in Hi. destruct (Nat.le_gt_cases i dp) as [L|L].
    + replace (Datatypes.S M) with (i + Datatypes.S (M - i))%nat by lia. rewrite seq_app, map_app, rsum_app. rewrite rsum_zero_in.
      * rewrite Rplus_0_l. replace (0 + i)%nat with (i + 0)%nat by lia. rewrite seq_shift_map. rewrite (rsum_ext _ (fun j => u i * v j)).
        -- rewrite rsum_scal. f_equal. apply (total_more v dq (M - i) Hv). lia.
        -- intros j _. replace (i <=? i + j)%nat with true by (symmetry; apply Nat.leb_le; lia). replace (i + j - i)%nat with j by lia. unfold ind. ring.
      * intros j Hj. apply in_seq in Hj. replace (i <=? j)%nat with false by (symmetry; apply Nat.leb_gt; lia). unfold ind. ring.
    + rewrite (Hu i L). rewrite rsum_zero_in; [ring|]. intros j _. ring.
  - intros n Hn. apply in_seq in Hn. unfold conv. replace (Datatypes.S M) with (Datatypes.S n + (M - n))%nat by lia. rewrite seq_app, map_app, rsum_app. rewrite (rsum_zero_in _ (seq (0 + Datatypes.S n) (M - n))).
    + rewrite Rplus_0_r. apply rsum_ext. intros i Hi. apply in_seq in Hi. replace (i <=? n)%nat with true by (symmetry; apply Nat.leb_le; lia). unfold ind. ring.
    + intros i Hi. apply in_seq in Hi. replace (i <=? n)%nat with false by (symmetry; apply Nat.leb_gt; lia). unfold ind. ring.
Qed.
Lemma coef_total x c p M : (deg p <= M)%nat -> rsum (map (coef x c p) (seq 0 (Datatypes.S M))) = val p (neighbour x c).
Proof.
  revert M. induction p as [r|b|p IHp q IHq|p IHp q IHq|r p IHp]; intros M HM; cbn [deg val] in *.
  - cbn [seq map]. rewrite rsum_cons, rsum_zero_in; [cbn; ring|]. intros i Hi. apply in_seq in Hi. destruct i; [lia|reflexivity].
  - destruct M as [|M]; [lia|]. cbn [seq map]. rewrite !rsum_cons, rsum_zero_in; [unfold neighbour; cbn; ring|]. intros i Hi. apply in_seq in Hi. destruct i as [|[|i]]; [lia|lia|reflexivity].
  - rewrite <- (IHp M), <- (IHq M) by lia. rewrite <- rsum_plus. reflexivity.
  - change (coef x c (Mul p q)) with (conv (coef x c p) (coef x c q)). rewrite (conv_total _ _ (deg p) (deg q) M (coef_deg x c p) (coef_deg x c q) HM). rewrite (IHp M), (IHq M) by lia. reflexivity.
  - rewrite <- (IHp M) by lia. rewrite <- rsum_scal. reflexivity.
Qed.
Lemma leibniz u v n : INR (Datatypes.S n) * conv u v (Datatypes.S n) =
  conv (fun k => INR (Datatypes.S k) * u (Datatypes.S k)) v n + conv u (fun k => INR (Datatypes.S k) * v (Datatypes.S k)) n.
Proof.
  unfold conv at 1. rewrite <- rsum_scal.
  rewrite (rsum_ext _ (fun i => INR i * u i * v (Datatypes.S n - i)%nat + INR (Datatypes.S n - i) * u i * v (Datatypes.S n - i)%nat)).
  - rewrite rsum_plus. f_equal.
    + change (seq 0 (Datatypes.S (Datatypes.S n))) with (0%nat :: seq (1 + 0) (Datatypes.S n)). cbn [map]. rewrite rsum_cons, seq_shift_map. cbn [INR]. rewrite !Rmult_0_l, Rplus_0_l. unfold conv. apply rsum_ext. intros i _. reflexivity.
    + rewrite seq_S, map_app, rsum_app. cbn [map]. rewrite rsum_cons, rsum_nil. replace (Datatypes.S n - (0 + Datatypes.S n))%nat with 0%nat by lia. change (INR 0) with 0. rewrite !Rmult_0_l, !Rplus_0_r. unfold conv.
      apply rsum_ext. intros i Hi. apply in_seq in Hi. cbv beta. replace (Datatypes.S n - i)%nat with (Datatypes.S (n - i)) by lia. generalize (INR (Datatypes.S (n - i))). intros. ring.
  - intros i Hi. apply in_seq in Hi. rewrite minus_INR by lia. ring.
Qed.
Lemma conv_add u u' v n : conv (fun k => u k + u' k) v n = conv u v n + conv u' v n.
Proof. unfold conv. rewrite <- rsum_plus. apply rsum_ext. intros. ring. Qed.
Lemma conv_sum_l {B} (u : B -> nat -> R) (w : B -> R) l v n : conv (fun k => rsum (map (fun b => w b * u b k) l)) v n = rsum (map (fun b => w b * conv (u b) v n) l).
Proof.
  unfold conv. rewrite (rsum_ext _ (fun i => rsum (map (fun b => w b * (u b i * v (n - i)%nat)) l))).
  - rewrite rsum_swap. apply rsum_ext. intros b _. rewrite rsum_scal. reflexivity.
  - intros i _. rewrite <- rsum_scal_r. apply rsum_ext. intros. ring.
Qed.
Lemma conv_sum_r {B} (u : nat -> R) (v : B -> nat -> R) (w : B -> R) l n : conv u (fun k => rsum (map (fun b => w b * v b k) l)) n = rsum (map (fun b => w b * conv u (v b) n) l).
Proof.
  unfold conv. rewrite (rsum_ext _ (fun i => rsum (map (fun b => w b * (u i * v b (n - i)%nat)) l))).
  - rewrite rsum_swap. apply rsum_ext. intros b _. rewrite rsum_scal. reflexivity.
  - intros i _. rewrite <- rsum_scal. apply rsum_ext. intros. ring.
Qed.
Lemma conv_ext u u' v v' n : (forall k, u k = u' k) -> (forall k, v k = v' k) -> conv u v n = conv u' v' n.
Proof. intros H1 H2. unfold conv. apply rsum_ext. intros. rewrite H1, H2. reflexivity. Qed.
Lemma coef_dir D x c p n : length c = D -> INR (Datatypes.S n) * coef x c p (Datatypes.S n) = rsum (map (fun a => comp c a * coef x c (pd a p) n) (seq 0 D)).
Proof.
  intros HD. revert n. induction p as [r|b|p IHp q IHq|p IHp q IHq|r p IHp]; intros n; cbn [pd].
  - cbn [coef]. rewrite rsum_zero_in; [cbn [Nat.eqb]; ring|]. intros a _. destruct (Nat.eqb n 0); ring.
  - cbn [coef]. destruct n as [|n].
    + cbn [Nat.eqb INR]. rewrite Rmult_1_l. destruct (Nat.lt_ge_cases b D) as [L|L].
      * rewrite (rsum_ext _ (fun a => if Nat.eqb a b then comp c b else 0)).
        -- clear HD. transitivity (rsum (map (fun a => if Nat.eqb a b then comp c b else 0) (seq 0 b ++ b :: seq (Datatypes.S b) (D - b - 1)))).
           ++ rewrite map_app, rsum_app. cbn [map]. rewrite rsum_cons, Nat.eqb_refl, !rsum_zero_in; [ring| |]; intros a Ha; apply in_seq in Ha; replace (a =? b)%nat with false by (symmetry; apply Nat.eqb_neq; lia); reflexivity.
           ++ f_equal. f_equal. transitivity (seq 0 (b + Datatypes.S (D - b - 1))); [rewrite seq_app; reflexivity|]. f_equal. lia.
        -- intros a _. unfold delta. destruct (Nat.eqb_spec a b) as [->|]; ring.
      * rewrite rsum_zero_in.
        -- unfold comp. rewrite nth_overflow by lia. reflexivity.
        -- intros a Ha. apply in_seq in Ha. unfold delta. replace (a =? b)%nat with false by (symmetry; apply Nat.eqb_neq; lia). ring.
    + cbn [Nat.eqb]. rewrite rsum_zero_in; [ring|]. intros a _. ring.
  - cbn [coef]. rewrite Rmult_plus_distr_l, IHp, IHq, <- rsum_plus. apply rsum_ext. intros. ring.
  - change (coef x c (Mul p q) (Datatypes.S n)) with (conv (coef x c p) (coef x c q) (Datatypes.S n)). rewrite leibniz.
    rewrite (conv_ext _ (fun k => rsum (map (fun a => comp c a * coef x c (pd a p) k) (seq 0 D))) _ (coef x c q) n IHp (fun _ => eq_refl)).
    rewrite (conv_ext (coef x c p) (coef x c p) _ (fun k => rsum (map (fun a => comp c a * coef x c (pd a q) k) (seq 0 D))) n (fun _ => eq_refl) IHq).
    rewrite conv_sum_l, conv_sum_r, <- rsum_plus. apply rsum_ext. intros a _.
    change (coef x c (Add (Mul (pd a p) q) (Mul p (pd a q))) n) with (conv (coef x c (pd a p)) (coef x c q) n + conv (coef x c p) (coef x c (pd a q)) n). rewrite Rmult_plus_distr_l. reflexivity.
  - cbn [coef]. transitivity (r * (INR (Datatypes.S n) * coef x c p (Datatypes.S n))); [ring|]. rewrite IHp, <- rsum_scal. apply rsum_ext. intros. ring.
Qed.

(* sum of the partial derivatives weighted with the components of c *)
Definition dirp (D : nat) (c : vec) (p : pf) : pf := fold_right (fun a r => Add (Scale (comp c a) (pd a p)) r) (Const 0) (seq 0 D).
Lemma pds_add idx p q : pds idx (Add p q) = Add (pds idx p) (pds idx q).
Proof. revert p q. induction idx as [|a idx IH]; intros p q; [reflexivity|]. unfold pds in *. cbn [fold_left pd]. apply IH. Qed.
Lemma pds_scale idx r p : pds idx (Scale r p) = Scale r (pds idx p).
Proof. revert p. induction idx as [|a idx IH]; intros p; [reflexivity|]. unfold pds in *. cbn [fold_left pd]. apply IH. Qed.
Lemma pds_const idx x : val (pds idx (Const 0)) x = 0.
Proof. induction idx as [|a idx IH]; [reflexivity|]. unfold pds in *. cbn [fold_left pd]. exact IH. Qed.
Lemma dirp_jet D c p idx x : jet_of (dirp D c p) idx x = dirder D c (jet_of p) idx x.
Proof.
  unfold jet_of, dirp, dirder. induction (seq 0 D) as [|a l IH]; [apply pds_const|]. cbn [fold_right map]. rewrite pds_add, pds_scale. cbn [val]. rewrite IH, rsum_cons. reflexivity.
Qed.
Lemma dirp_coef D x c p n : length c = D -> coef x c (dirp D c p) n = INR (Datatypes.S n) * coef x c p (Datatypes.S n).
Proof.
  intros HD. rewrite (coef_dir D x c p n HD). unfold dirp. clear HD. induction (seq 0 D) as [|a l IH]; [cbn [fold_right coef map rsum]; destruct (Nat.eqb n 0); reflexivity|].
  cbn [fold_right coef map]. rewrite IH, rsum_cons. reflexivity.
Qed.
Fixpoint dirder_n (D : nat) (c : vec) (n : nat) (g : jet) : jet := match n with O => g | Datatypes.S n => dirder D c (dirder_n D c n g) end.
Fixpoint dirp_n (D : nat) (c : vec) (n : nat) (p : pf) : pf := match n with O => p | Datatypes.S n => dirp D c (dirp_n D c n p) end.
Lemma dirder_ext D c g g' : (forall idx x, g idx x = g' idx x) -> forall idx x, dirder D c g idx x = dirder D c g' idx x.
Proof. intros H idx x. unfold dirder. apply rsum_ext. intros. rewrite H. reflexivity. Qed.
Lemma dirp_n_jet D c n g p : (forall idx x, g idx x = jet_of p idx x) -> forall idx x, dirder_n D c n g idx x = jet_of (dirp_n D c n p) idx x.
Proof. intros H. induction n as [|n IH]; [exact H|]. intros idx x. cbn [dirder_n dirp_n]. rewrite dirp_jet. apply dirder_ext. exact IH. Qed.
Lemma coef_n D x c p n : length c = D -> forall k, coef x c (dirp_n D c n p) k = INR (fact (n + k)) / INR (fact k) * coef x c p (n + k).
Proof.
  intros HD. induction n as [|n IH]; intros k.
  - cbn [dirp_n Nat.add]. field. apply INR_fact_neq_0.
  - cbn [dirp_n]. rewrite (dirp_coef D x c _ k HD), IH. replace (n + Datatypes.S k)%nat with (Datatypes.S n + k)%nat by lia.
    change (fact (Datatypes.S k)) with (Datatypes.S k * fact k)%nat. rewrite mult_INR. field. split; [apply INR_fact_neq_0|apply not_0_INR; lia].
Qed.
Lemma taylor_exact D c N g p x : length c = D -> (forall idx x, g idx x = jet_of p idx x) -> (forall idx x, (N < length idx)%nat -> g idx x = 0) ->
  g [] (neighbour x c) = g [] x + rsum (map (fun n => 1 / INR (fact n) * dirder_n D c n g [] x) (seq 1 N)).
Proof.
  intros HD Hp Hd. assert (Hz : forall n idx y, (N < n + length idx)%nat -> dirder_n D c n g idx y = 0).
  { induction n as [|n IH]; intros idx y H; [apply Hd; exact H|]. cbn [dirder_n]. unfold dirder. apply rsum_zero_in. intros a _. rewrite IH by (cbn [length]; lia). ring. }
  assert (Hc : forall n, coef x c p n = 1 / INR (fact n) * dirder_n D c n g [] x).
  { intros n. rewrite (dirp_n_jet D c n g p Hp). unfold jet_of, pds. cbn [fold_left]. rewrite <- (coef_zero x c). rewrite (coef_n D x c p n HD 0). rewrite Nat.add_0_r. cbn [fact INR]. field. apply INR_fact_neq_0. }
  rewrite (Hp [] (neighbour x c)). unfold jet_of at 1, pds at 1. cbn [fold_left]. rewrite <- (coef_total x c p (Nat.max N (deg p))) by lia.
  rewrite (total_more (coef x c p) N (Nat.max N (deg p))); [|intros n Hn; rewrite Hc, Hz by (cbn [length]; lia); ring|lia].
  cbn [seq map]. rewrite rsum_cons. f_equal.
  - rewrite Hc. cbn [fact INR dirder_n]. field.
  - apply rsum_ext. intros n _. apply Hc.
Qed.
