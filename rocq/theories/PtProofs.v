From Coq Require Import List Bool Arith Reals Lra Lia Permutation.
From Verif Require Import StencilModel RealLib PtModel PtSpec.
Import ListNotations.
Local Open Scope R_scope.

Fixpoint diff_free (e : expr) : Prop :=
  match e with Const _ | Leaf _ _ => True | Add a b | Mul a b => diff_free a /\ diff_free b | Pow a _ => diff_free a | Diff _ _ => False end.
Lemma derive_free : forall a e, diff_free e -> diff_free (derive a e).
Proof. intros a. induction e; cbn; tauto. Qed.
Lemma expand_free : forall e, diff_free (expand e).
Proof. induction e; cbn; auto. now apply derive_free. Qed.
Lemma expand_id : forall e, diff_free e -> expand e = e.
Proof. induction e as [r|i ds|e1 IH1 e2 IH2|e1 IH1 e2 IH2|e IH n|e IH a]; cbn; intros H; auto; try (destruct H as [H1 H2]; rewrite IH1, IH2 by assumption; reflexivity); try (now rewrite IH); destruct H. Qed.

Lemma rsum_all0 : forall A (l : list A) (f : A -> R), (forall a, In a l -> f a = 0) -> rsum (map f l) = 0.
Proof. intros A l f H. induction l as [|a l IH]; [reflexivity|]. cbn [map]. rewrite rsum_cons, H, IH; [ring|intros; apply H; now right|now left]. Qed.

Section Values.
  Context (jet : nat -> list nat -> point -> R).
  Notation V := (value_expanded jet).
  (* derivatives of values *)
  Lemma value_derivative : smooth jet -> forall e a x, diff_free e -> partial_derivative (V e) a x (V (derive a e) x).
  Proof.
    intros [Hd _]. unfold partial_derivative in *.
    assert (Ev : forall (e : expr) x a, V e (move x a (x a)) = V e x).
    { intros e x a. assert (Hj : forall i ds, jet i ds (move x a (x a)) = jet i ds x).
      { intros i ds.
        f_equal. apply FunctionalExtensionality.functional_extensionality. intros k. unfold move. destruct (Nat.eqb_spec k a) as [->|]; reflexivity. }
      clear - Hj. induction e; cbn; auto; congruence. }
    intros e a x. induction e as [r|i ds|e1 IH1 e2 IH2|e1 IH1 e2 IH2|e IH n|e IH b]; cbn [value_expanded derive diff_free]; intros Hf.
    - apply derivable_pt_lim_const.
    - apply Hd.
    - destruct Hf. apply (derivable_pt_lim_plus (fun t => V e1 (move x a t)) (fun t => V e2 (move x a t))); auto.
    - destruct Hf. pose proof (derivable_pt_lim_mult (fun t => V e1 (move x a t)) (fun t => V e2 (move x a t)) (x a) _ _ (IH1 H) (IH2 H0)) as Hp. cbv beta in Hp. rewrite !Ev in Hp. exact Hp.
    - pose proof (derivable_pt_lim_comp (fun t => V e (move x a t)) (fun y => y ^ n) (x a) _ _ (IH Hf) (derivable_pt_lim_pow _ n)) as Hp. cbv beta in Hp. rewrite Ev in Hp.
      replace (INR n * V e x ^ (n - 1) * V (derive a e) x) with (INR n * V e x ^ pred n * V (derive a e) x) by (rewrite Nat.sub_1_r; reflexivity). exact Hp.
    - destruct Hf.
  Qed.

  Context (x : point).
  Definition v (e : expr) : R := value jet e x.
  Definition d (a : nat) (e : expr) : R := V (derive a (expand e)) x.
  Lemma v_add : forall p q, v (Add p q) = v p + v q. Proof. reflexivity. Qed.
  Lemma v_mul : forall p q, v (Mul p q) = v p * v q. Proof. reflexivity. Qed.
  Lemma v_scale : forall k p, v (scale k p) = k * v p. Proof. reflexivity. Qed.
  Lemma v_sub : forall p q, v (sub p q) = v p - v q. Proof. intros. unfold sub. rewrite v_add, v_scale. ring. Qed.
  Lemma v_diff : forall p a, v (Diff p a) = d a p. Proof. reflexivity. Qed.
  Lemma v_const : forall r, v (Const r) = r. Proof. reflexivity. Qed.
  Lemma v_sum : forall l, v (sum_of l) = rsum (map v l). Proof. induction l as [|p l IH]; [reflexivity|]. cbn [sum_of fold_right map rsum]. rewrite v_add. unfold sum_of in IH. rewrite IH. reflexivity. Qed.
  Lemma d_add : forall a p q, d a (Add p q) = d a p + d a q. Proof. reflexivity. Qed.
  Lemma d_mul : forall a p q, d a (Mul p q) = d a p * v q + v p * d a q. Proof. reflexivity. Qed.
  Lemma d_scale : forall a k p, d a (scale k p) = k * d a p. Proof. intros. unfold scale. rewrite d_mul. unfold d at 1. cbn. unfold v. cbn. ring. Qed.
  Lemma d_sub : forall a p q, d a (sub p q) = d a p - d a q. Proof. intros. unfold sub. rewrite d_add, d_scale. ring. Qed.
  Lemma d_const : forall a r, d a (Const r) = 0. Proof. reflexivity. Qed.
  Lemma d_sum : forall a l, d a (sum_of l) = rsum (map (d a) l).
  Proof. intros a. induction l as [|p l IH]; [reflexivity|]. cbn [sum_of fold_right map rsum]. rewrite d_add. unfold sum_of in IH. rewrite IH. reflexivity. Qed.

  (* ---- the coefficients of the gradient terms ---- *)
  Definition interface_value (X : nat -> nat -> R) (t : term) : R := match diffs t with [i; j] => factor t * (X i j + X j i) | _ => 0 end.
  Definition entry_sum (g : list ((nat * nat) * R)) (p : nat * nat) : R := rsum (map snd (filter (fun q => pair_eqb (fst q) p) g)).
  Lemma gamma_of_sorted : forall g i j, gamma_of (fun a b => entry_sum g (a, b)) i j = entry_sum g (sorted_pair i j).
  Proof.
    intros g i j. unfold gamma_of, sorted_pair. destruct (Nat.ltb_spec i j), (Nat.leb_spec i j); try reflexivity; try lia. replace j with i by lia. reflexivity.
  Qed.
  Lemma rsum_single : forall n k (f : nat -> R), (k < n)%nat -> rsum (map (fun i => if Nat.eqb i k then f i else 0) (seq 0 n)) = f k.
  Proof.
    intros n k f Hk. assert (G : forall m s, rsum (map (fun i => if Nat.eqb i k then f i else 0) (seq s m)) = if (Nat.leb s k && Nat.ltb k (s + m))%bool then f k else 0).
    { induction m as [|m IH]; intros s; cbn [seq map rsum].
      - rewrite Nat.add_0_r. destruct (Nat.leb_spec s k), (Nat.ltb_spec k s); cbn; try reflexivity; lia.
      - change (rsum (?a :: ?l)) with (a + rsum l). rewrite IH. destruct (Nat.eqb_spec s k) as [->|Hne].
        + destruct (Nat.leb_spec (Datatypes.S k) k); [lia|]. destruct (Nat.leb_spec k k); [|lia]. destruct (Nat.ltb_spec k (k + Datatypes.S m)); [|lia]. cbn. ring.
        + destruct (Nat.leb_spec (Datatypes.S s) k), (Nat.leb_spec s k), (Nat.ltb_spec k (Datatypes.S s + m)), (Nat.ltb_spec k (s + Datatypes.S m)); cbn; try lia; ring. }
    rewrite G. cbn [Nat.leb Nat.add]. destruct (Nat.ltb_spec k n); [reflexivity|lia].
  Qed.
  Lemma entry_bilinear : forall n p q w (X : nat -> nat -> R), (p < n)%nat -> (q < n)%nat ->
    rsum (map (fun i => rsum (map (fun j => (if pair_eqb (sorted_pair p q) (sorted_pair i j) then w else 0) * X i j) (seq 0 n))) (seq 0 n))
    = if Nat.eqb p q then w * X p p else w * (X p q + X q p).
  Proof.
    intros n p q w X Hp Hq.
    assert (E : forall i j, (if pair_eqb (sorted_pair p q) (sorted_pair i j) then w else 0) * X i j =
      (if Nat.eqb i p then (if Nat.eqb j q then w * X p q else 0) else 0) + (if Nat.eqb p q then 0 else if Nat.eqb i q then (if Nat.eqb j p then w * X q p else 0) else 0)).
    { intros i j. unfold sorted_pair, pair_eqb. destruct (Nat.leb_spec p q), (Nat.leb_spec i j); cbn [fst snd];
        destruct (Nat.eqb_spec i p), (Nat.eqb_spec j q), (Nat.eqb_spec p q), (Nat.eqb_spec i q), (Nat.eqb_spec j p); subst; try lia;
        repeat match goal with |- context [Nat.eqb ?a ?b] => destruct (Nat.eqb_spec a b); try lia end; cbn; ring. }
    erewrite rsum_ext. 2:{ intros i Hi. erewrite rsum_ext; [|intros j Hj; apply E]. rewrite rsum_plus. reflexivity. }
    rewrite rsum_plus.
    assert (S1 : forall a b y, (a < n)%nat -> (b < n)%nat -> rsum (map (fun i => rsum (map (fun j => if Nat.eqb i a then (if Nat.eqb j b then y else 0) else 0) (seq 0 n))) (seq 0 n)) = y).
    { intros a b y Ha Hb. rewrite (rsum_ext _ (fun i => if Nat.eqb i a then y else 0)).
      - now rewrite (rsum_single n a (fun _ => y)).
      - intros i Hi. destruct (Nat.eqb i a); [now rewrite (rsum_single n b (fun _ => y))|apply rsum_all0; auto]. }
    rewrite S1 by assumption. destruct (Nat.eqb_spec p q) as [->|].
    - rewrite (rsum_all0 _ (seq 0 n)); [ring|]. intros i Hi. apply rsum_all0. auto.
    - rewrite S1 by assumption. ring.
  Qed.
  Lemma gamma_bilinear : forall n energy g X, extract_gamma_terms n energy = Ok g ->
    rsum (map (fun i => rsum (map (fun j => entry_sum g (sorted_pair i j) * X i j) (seq 0 n))) (seq 0 n)) = rsum (map (interface_value X) energy).
  Proof.
    intros n energy. induction energy as [|t rest IH]; intros g X H.
    - cbn in H. injection H as <-. cbn [map]. apply rsum_all0. intros i Hi. apply rsum_all0. intros j Hj. unfold entry_sum. cbn. ring.
    - cbn [extract_gamma_terms] in H. cbn [map]. change (rsum (?a :: ?l)) with (a + rsum l). unfold interface_value at 1.
      destruct (diffs t) as [|i [|j [|k l]]]; try discriminate H; [rewrite Rplus_0_l; now apply IH|].
      destruct (Nat.ltb_spec i n) as [Hi|]; [|discriminate H]. destruct (Nat.ltb_spec j n) as [Hj|]; [|discriminate H]. cbn [andb] in H.
      destruct (extract_gamma_terms n rest) as [g'|e] eqn:Eg; [|discriminate H]. cbn [rbind] in H. injection H as <-. rewrite <- (IH g' X eq_refl).
      assert (En : forall p, entry_sum ((sorted_pair i j, if Nat.eqb i j then factor t * 2 else factor t) :: g') p =
        (if pair_eqb (sorted_pair i j) p then (if Nat.eqb i j then factor t * 2 else factor t) else 0) + entry_sum g' p).
      { intros p. unfold entry_sum. cbn [filter fst]. destruct (pair_eqb (sorted_pair i j) p); cbn [map snd]; [reflexivity|ring]. }
      rewrite (rsum_ext _ (fun a => rsum (map (fun b => (if pair_eqb (sorted_pair i j) (sorted_pair a b) then (if Nat.eqb i j then factor t * 2 else factor t) else 0) * X a b) (seq 0 n))
        + rsum (map (fun b => entry_sum g' (sorted_pair a b) * X a b) (seq 0 n)))).
      2:{ intros a Ha. rewrite <- rsum_plus. apply rsum_ext. intros b Hb. rewrite En. ring. }
      rewrite rsum_plus, entry_bilinear by assumption. f_equal. destruct (Nat.eqb_spec i j) as [->|]; ring.
  Qed.
End Values.
