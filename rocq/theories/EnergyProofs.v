From Coq Require Import List Bool Arith Lia Reals Lra Psatz FunctionalExtensionality.
From Verif Require Import StencilModel RealLib LinLib EnergyModel EnergySpec.
Import ListNotations.
Local Open Scope R_scope.

(* ---- finite sums over indices ---- *)
Definition sumn (n : nat) (f : nat -> R) : R := rsum (map f (seq 0 n)).
Lemma rsum_app' l l' : rsum (l ++ l') = rsum l + rsum l'.
Proof. induction l as [|a l IH]; cbn [rsum fold_right app]; [unfold rsum; lra|]. unfold rsum in *. cbn. rewrite IH. lra. Qed.
Lemma sumn_S n f : sumn (S n) f = sumn n f + f n.
Proof. unfold sumn. rewrite seq_S, map_app, rsum_app'. cbn. lra. Qed.
Lemma sumn_ext n f g : (forall i, (i < n)%nat -> f i = g i) -> sumn n f = sumn n g.
Proof. induction n as [|n IH]; intros H; [reflexivity|]. rewrite !sumn_S, IH, H; auto. Qed.
Lemma sumn_zero n f : (forall i, (i < n)%nat -> f i = 0) -> sumn n f = 0.
Proof. induction n as [|n IH]; intros H; [reflexivity|]. rewrite sumn_S, IH, H; auto. lra. Qed.
Lemma sumn_one n f a : (a < n)%nat -> (forall i, (i < n)%nat -> i <> a -> f i = 0) -> sumn n f = f a.
Proof.
  induction n as [|n IH]; intros Ha H; [lia|]. rewrite sumn_S. destruct (Nat.eq_dec a n) as [->|Ne].
  - rewrite sumn_zero; [lra|]. intros i Hi. apply H; lia.
  - rewrite IH by (auto; lia). rewrite (H n) by lia. lra.
Qed.
Lemma sumn_two n f a b : (a < n)%nat -> (b < n)%nat -> a <> b -> (forall i, (i < n)%nat -> i <> a -> i <> b -> f i = 0) -> sumn n f = f a + f b.
Proof.
  induction n as [|n IH]; intros Ha Hb Hab H; [lia|]. rewrite sumn_S. destruct (Nat.eq_dec a n) as [->|Na]; [|destruct (Nat.eq_dec b n) as [->|Nb]].
  - rewrite (sumn_one n f b) by (first [lia | intros; apply H; lia]). lra.
  - rewrite (sumn_one n f a) by (first [lia | intros; apply H; lia]). lra.
  - rewrite IH by (auto; lia). rewrite (H n) by lia. lra.
Qed.
Lemma sumn_add n f g : sumn n (fun i => f i + g i) = sumn n f + sumn n g.
Proof. induction n as [|n IH]; [unfold sumn; cbn; lra|]. rewrite !sumn_S, IH. lra. Qed.
Lemma sumn_scal n c f : sumn n (fun i => c * f i) = c * sumn n f.
Proof. induction n as [|n IH]; [unfold sumn; cbn; lra|]. rewrite !sumn_S, IH. lra. Qed.
Lemma sumn_swap n m f : sumn n (fun i => sumn m (fun j => f i j)) = sumn m (fun j => sumn n (fun i => f i j)).
Proof.
  induction n as [|n IH]; [symmetry; apply sumn_zero; reflexivity|]. rewrite sumn_S, IH. rewrite <- sumn_add. apply sumn_ext. intros i _. now rewrite sumn_S.
Qed.
Lemma rsum_flat {A B} (l : list A) (l' : list B) (f : A * B -> R) : rsum (map f (list_prod l l')) = rsum (map (fun a => rsum (map (fun b => f (a, b)) l')) l).
Proof. induction l as [|a l IH]; [reflexivity|]. cbn [list_prod map]. rewrite map_app, rsum_app', IH, map_map. reflexivity. Qed.
Lemma rsum_filter {A} (p : A -> bool) (f : A -> R) l : rsum (map f (filter p l)) = rsum (map (fun a => if p a then f a else 0) l).
Proof. induction l as [|a l IH]; [reflexivity|]. cbn [filter map]. destruct (p a); cbn [map]; unfold rsum in *; cbn; rewrite IH; lra. Qed.
Lemma pairs_sum n f : rsum (map f (pairs n)) = sumn n (fun i => sumn n (fun j => f (i, j))).
Proof. unfold pairs, sumn. apply rsum_flat. Qed.

Section NPhase.
  Context (tau : nat -> nat -> R) (eta : R) (He : eta <> 0).
  Lemma sqrt2 : sqrt 2 * sqrt 2 = 2. Proof. apply sqrt_sqrt. lra. Qed.
  Lemma sqrt2_pos : sqrt 2 <> 0. Proof. intros H. pose proof sqrt2. rewrite H in *. lra. Qed.
  Lemma lambda_eq n k l : lambda_coeff tau eta n k l = 3 * eta * (tau k n + tau l n - tau k l).
  Proof. unfold lambda_coeff, width. field. apply sqrt2_pos. Qed.
  Lemma bulk_factor : 3 / sqrt 2 / width eta = 3 / (2 * eta).
  Proof. unfold width. pose proof sqrt2_pos. replace (3 / sqrt 2 / (eta * sqrt 2)) with (3 / (eta * (sqrt 2 * sqrt 2))) by (field; auto). rewrite sqrt2. field. exact He. Qed.

  Lemma f_bulk_eq f1 f2 triple phi : let N := length phi in let P := fun i => nth i phi 0 in
    f_bulk tau eta f1 f2 triple phi =
      3 / (2 * eta) * sumn N (fun i => sumn N (fun j => if i =? j then 0 else tau i j / 2 * (f1 (P i) + f1 (P j) - f2 (P i + P j))))
      + sumn N (fun i => sumn i (fun j => sumn j (fun k => triple * P i * P j * P k))).
  Proof.
    intros N P. unfold f_bulk. rewrite bulk_factor, rsum_filter, pairs_sum. f_equal. f_equal. apply sumn_ext. intros i _. apply sumn_ext. intros j _. cbn [fst snd]. destruct (i =? j); reflexivity.
  Qed.
  Lemma f_interface_eq n grad : f_interface tau eta n grad = sumn n (fun i => sumn n (fun j => 3 * eta * (tau i n + tau j n - tau i j) / 2 * nth i grad 0 * nth j grad 0)).
  Proof. unfold f_interface. rewrite pairs_sum. apply sumn_ext. intros i _. apply sumn_ext. intros j _. cbn [fst snd]. now rewrite lambda_eq. Qed.

  (* ---- mixtures of two phases ---- *)
  Lemma nth_map_seq_out (g : nat -> R) n j : (n <= j)%nat -> nth j (map g (seq 0 n)) 0 = 0.
  Proof. intros H. apply nth_overflow. now rewrite map_length, seq_length. Qed.
  Lemma rsum_seq l : rsum l = sumn (length l) (fun i => nth i l 0).
  Proof.
    unfold sumn. f_equal. apply list_ext; [now rewrite map_length, seq_length|]. intros i Hi. now rewrite nth_map_seq.
  Qed.
  Definition mixed (a b : nat) (c : R) (i : nat) : R := if i =? a then c else if i =? b then 1 - c else 0.
  Lemma all_mix n a b c : (a <= n)%nat -> (b <= n)%nat -> a <> b -> forall i, nth i (all_phases (mix n a b c)) 0 = if i <=? n then mixed a b c i else 0.
  Proof.
    intros Ha Hb Hab i. assert (L : length (mix n a b c) = n) by (unfold mix; now rewrite map_length, seq_length). unfold all_phases. destruct (lt_eq_lt_dec i n) as [[H|Hn]|H].
    - rewrite app_nth1 by lia. unfold mix. rewrite nth_map_seq by lia. replace (i <=? n) with true by (symmetry; apply Nat.leb_le; lia). reflexivity.
    - subst i. rewrite app_nth2 by lia. rewrite L, Nat.sub_diag. cbn [nth]. rewrite Nat.leb_refl. rewrite rsum_seq, L.
      rewrite (sumn_ext n _ (mixed a b c)) by (intros i Hi; unfold mix; now rewrite nth_map_seq by lia). unfold mixed at 2.
      destruct (n =? a) eqn:Ea; [|destruct (n =? b) eqn:Eb].
      + apply Nat.eqb_eq in Ea. subst a. rewrite (sumn_one n _ b) by (first [lia | intros j Hj Hjb; unfold mixed; destruct (Nat.eqb_spec j n); [lia|]; destruct (Nat.eqb_spec j b); [lia|reflexivity]]).
        unfold mixed. destruct (Nat.eqb_spec b n); [lia|]. rewrite Nat.eqb_refl. lra.
      + apply Nat.eqb_eq in Eb. subst b. rewrite (sumn_one n _ a) by (first [lia | intros j Hj Hjb; unfold mixed; destruct (Nat.eqb_spec j a); [lia|]; destruct (Nat.eqb_spec j n); [lia|reflexivity]]).
        unfold mixed. rewrite Nat.eqb_refl. lra.
      + apply Nat.eqb_neq in Ea, Eb. rewrite (sumn_two n _ a b) by (first [lia | intros j Hj Hja Hjb; unfold mixed; destruct (Nat.eqb_spec j a); [lia|]; destruct (Nat.eqb_spec j b); [lia|reflexivity]]).
        unfold mixed. rewrite !Nat.eqb_refl. destruct (Nat.eqb_spec b a); [lia|]. lra.
    - rewrite nth_overflow by (rewrite app_length; cbn; lia). replace (i <=? n) with false by (symmetry; apply Nat.leb_gt; lia). reflexivity.
  Qed.
  Lemma all_length l : length (all_phases l) = S (length l).
  Proof. unfold all_phases. rewrite app_length. cbn. lia. Qed.
  Lemma mix_length n a b c : length (mix n a b c) = n.
  Proof. unfold mix. now rewrite map_length, seq_length. Qed.

  Lemma bulk_two f1 f2 triple n a b c : (a <= n)%nat -> (b <= n)%nat -> a <> b -> f1 0 = 0 -> (forall x, x = c \/ x = 1 - c -> f2 x = f1 x) -> f2 0 = 0 -> (forall i j, tau i j = tau j i) ->
    f_bulk tau eta f1 f2 triple (all_phases (mix n a b c)) = 3 / (2 * eta) * (tau a b * (f1 c + f1 (1 - c) - f2 1)).
  Proof.
    intros Ha Hb Hab H1 H12 H2 HS. rewrite f_bulk_eq. rewrite all_length, mix_length.
    assert (P : forall i, (i < S n)%nat -> nth i (all_phases (mix n a b c)) 0 = mixed a b c i).
    { intros i Hi. rewrite all_mix by assumption. replace (i <=? n) with true by (symmetry; apply Nat.leb_le; lia). reflexivity. }
    assert (Ma : mixed a b c a = c) by (unfold mixed; now rewrite Nat.eqb_refl). assert (Mb : mixed a b c b = 1 - c) by (unfold mixed; rewrite Nat.eqb_refl; destruct (Nat.eqb_spec b a); [lia|reflexivity]).
    assert (Mo : forall i, i <> a -> i <> b -> mixed a b c i = 0) by (intros i Ia Ib; unfold mixed; destruct (Nat.eqb_spec i a); [lia|]; destruct (Nat.eqb_spec i b); [lia|reflexivity]).
    assert (T : sumn (S n) (fun i => sumn i (fun j => sumn j (fun k => triple * nth i (all_phases (mix n a b c)) 0 * nth j (all_phases (mix n a b c)) 0 * nth k (all_phases (mix n a b c)) 0))) = 0).
    { apply sumn_zero. intros i Hi. apply sumn_zero. intros j Hj. apply sumn_zero. intros k Hk. rewrite !P by lia.
      destruct (Nat.eq_dec i a), (Nat.eq_dec i b), (Nat.eq_dec j a), (Nat.eq_dec j b), (Nat.eq_dec k a), (Nat.eq_dec k b); try lia;
        first [rewrite (Mo i) by lia; ring | rewrite (Mo j) by lia; ring | rewrite (Mo k) by lia; ring]. }
    rewrite T, Rplus_0_r. f_equal.
    set (F := fun i j => if i =? j then 0 else tau i j / 2 * (f1 (mixed a b c i) + f1 (mixed a b c j) - f2 (mixed a b c i + mixed a b c j))).
    rewrite (sumn_ext (S n) _ (fun i => sumn (S n) (F i))) by (intros i Hi; apply sumn_ext; intros j Hj; now rewrite !P by lia).
    assert (Z : forall i j, i <> a -> i <> b -> F i j = 0).
    { intros i j Ia Ib. unfold F. destruct (i =? j); [reflexivity|]. rewrite (Mo i Ia Ib), Rplus_0_l, H1. destruct (Nat.eq_dec j a) as [->|Ja]; [rewrite Ma, H12 by auto; lra|].
      destruct (Nat.eq_dec j b) as [->|Jb]; [rewrite Mb, H12 by auto; lra|]. rewrite (Mo j Ja Jb), H1, H2. lra. }
    assert (Sym : forall i j, F i j = F j i). { intros i j. unfold F. rewrite (Nat.eqb_sym j i). destruct (i =? j); [reflexivity|]. rewrite (HS j i), (Rplus_comm (mixed a b c j)), (Rplus_comm (f1 (mixed a b c j))). reflexivity. }
    rewrite (sumn_two (S n) _ a b) by (first [lia | intros i Hi Ia Ib; apply sumn_zero; intros j _; now apply Z]).
    rewrite (sumn_two (S n) (F a) a b) by (first [lia | intros j Hj Ja Jb; rewrite Sym; now apply Z]). rewrite (sumn_two (S n) (F b) a b) by (first [lia | intros j Hj Ja Jb; rewrite Sym; now apply Z]).
    rewrite (Sym b a). unfold F. rewrite !Nat.eqb_refl. destruct (Nat.eqb_spec a b); [lia|]. rewrite Ma, Mb. replace (c + (1 - c)) with 1 by ring. lra.
  Qed.
  Definition gmixed (a b : nat) (g : R) (i : nat) : R := if i =? a then g else if i =? b then - g else 0.
  Lemma nth_mix_gradient n a b g i : (i < n)%nat -> nth i (mix_gradient n a b g) 0 = gmixed a b g i.
  Proof. intros H. unfold mix_gradient. now rewrite nth_map_seq. Qed.
  (* sums against the gradient of a mixture *)
  Lemma gsum n a b g h : (a <= n)%nat -> (b <= n)%nat -> a <> b -> h n = 0 -> sumn n (fun j => h j * gmixed a b g j) = (h a - h b) * g.
  Proof.
    intros Ha Hb Hab Hn.
    assert (Ga : gmixed a b g a = g) by (unfold gmixed; now rewrite Nat.eqb_refl). assert (Gb : gmixed a b g b = - g) by (unfold gmixed; rewrite Nat.eqb_refl; destruct (Nat.eqb_spec b a); [lia|reflexivity]).
    assert (Go : forall i, i <> a -> i <> b -> gmixed a b g i = 0) by (intros i Ia Ib; unfold gmixed; destruct (Nat.eqb_spec i a); [lia|]; destruct (Nat.eqb_spec i b); [lia|reflexivity]).
    assert (E : sumn n (fun j => h j * gmixed a b g j) = sumn (S n) (fun j => h j * gmixed a b g j)) by (rewrite sumn_S, Hn; lra). rewrite E.
    rewrite (sumn_two (S n) _ a b) by (first [lia | intros i _ Ia Ib; rewrite Go by auto; lra]). rewrite Ga, Gb. lra.
  Qed.
  Lemma interface_two n a b g : (a <= n)%nat -> (b <= n)%nat -> a <> b -> (forall i j, tau i j = tau j i) -> (forall i, (i <= n)%nat -> tau i i = 0) ->
    f_interface tau eta n (mix_gradient n a b g) = 3 * eta * tau a b * g ^ 2.
  Proof.
    intros Ha Hb Hab HS HD. rewrite f_interface_eq.
    rewrite (sumn_ext n _ (fun i => (3 * eta / 2 * (((tau i n + tau a n - tau i a) - (tau i n + tau b n - tau i b)) * g)) * gmixed a b g i)).
    - rewrite (gsum n a b g (fun i => 3 * eta / 2 * (((tau i n + tau a n - tau i a) - (tau i n + tau b n - tau i b)) * g))) by (auto; rewrite HD, !(HS n) by lia; lra).
      rewrite !(HS b a), !HD by lia. lra.
    - intros i Hi. rewrite (sumn_ext n _ (fun j => (3 * eta / 2 * gmixed a b g i * (tau i n + tau j n - tau i j)) * gmixed a b g j)).
      + rewrite (gsum n a b g (fun j => 3 * eta / 2 * gmixed a b g i * (tau i n + tau j n - tau i j))) by (auto; rewrite HD by lia; lra). lra.
      + intros j Hj. rewrite !nth_mix_gradient by assumption. lra.
  Qed.
End NPhase.
