From Coq Require Import List Arith Reals Lra Lia Permutation Psatz.
From Verif Require Import StencilModel RealLib StatModel StatSpec RateProofs.
Import ListNotations.
Local Open Scope R_scope.

Lemma upd_same m i v : upd m i v i = v. Proof. unfold upd. rewrite Nat.eqb_refl. reflexivity. Qed.
Lemma upd_other m i k v : k <> i -> upd m i v k = m k.
Proof. intros H. unfold upd. destruct (Nat.eqb_spec k i); [contradiction|reflexivity]. Qed.

(* a loop that updates pairwise different components, each from its own old value *)
Lemma fold_upd {A} (key : A -> nat) (g : A -> R -> R) (l : list A) (m : nat -> R) :
  NoDup (map key l) ->
  (forall a, In a l -> fold_left (fun m a => upd m (key a) (g a (m (key a)))) l m (key a) = g a (m (key a))) /\
  (forall k, ~ In k (map key l) -> fold_left (fun m a => upd m (key a) (g a (m (key a)))) l m k = m k).
Proof.
  revert m; induction l as [|a l IH]; intros m Hnd; [split; [intros a []|reflexivity]|].
  cbn [map] in Hnd. apply NoDup_cons_iff in Hnd as [Hni Hnd]. cbn [fold_left].
  destruct (IH (upd m (key a) (g a (m (key a)))) Hnd) as [I1 I2]. split.
  - intros b [<-|Hb].
    + rewrite I2 by exact Hni. apply upd_same.
    + rewrite I1 by exact Hb. rewrite upd_other; [reflexivity|].
      intros E. apply Hni. rewrite <- E. apply in_map, Hb.
  - intros k Hk. rewrite I2; [|intros h; apply Hk; right; exact h]. apply upd_other. intros ->. apply Hk. left; reflexivity.
Qed.

Lemma fold_left_flat {A B} (f : A -> B -> A) {C} (h : C -> list B) (l : list C) (m : A) :
  fold_left (fun m c => fold_left f (h c) m) l m = fold_left f (flat_map h l) m.
Proof. revert m; induction l as [|c l IH]; intros m; [reflexivity|]. cbn [fold_left flat_map]. rewrite fold_left_app. apply IH. Qed.

Definition pairs (dim : nat) : list (nat * nat) := flat_map (fun i => map (fun j => (i, j)) (seq 0 dim)) (seq 0 dim).
Definition triples (dim : nat) : list (nat * nat * nat) :=
  flat_map (fun i => flat_map (fun j => map (fun k => (i, j, k)) (seq 0 dim)) (seq 0 dim)) (seq 0 dim).

Lemma fold_left_map {A B C} (f : A -> B -> A) (h : C -> B) l m : fold_left f (map h l) m = fold_left (fun m c => f m (h c)) l m.
Proof. revert m; induction l as [|c l IH]; intros m; [reflexivity|]. apply IH. Qed.
Lemma fold_left_ext {A B} (f g : A -> B -> A) l m : (forall a b, f a b = g a b) -> fold_left f l m = fold_left g l m.
Proof. intros H. revert m; induction l as [|b l IH]; intros m; [reflexivity|]. cbn [fold_left]. rewrite H. apply IH. Qed.

Lemma in_pairs dim i j : In (i, j) (pairs dim) <-> (i < dim)%nat /\ (j < dim)%nat.
Proof.
  unfold pairs. rewrite in_flat_map. split.
  - intros (a & Ha & Hb). apply in_map_iff in Hb as (b & E & Hb). injection E as -> ->. rewrite in_seq in *. lia.
  - intros [Hi Hj]. exists i. rewrite in_seq. split; [lia|]. apply in_map_iff. exists j. rewrite in_seq. split; [reflexivity|lia].
Qed.
Lemma in_triples dim i j k : In (i, j, k) (triples dim) <-> (i < dim)%nat /\ (j < dim)%nat /\ (k < dim)%nat.
Proof.
  unfold triples. rewrite in_flat_map. split.
  - intros (a & Ha & Hb). apply in_flat_map in Hb as (b & Hb & Hc). apply in_map_iff in Hc as (c & E & Hc).
    injection E as -> -> ->. rewrite in_seq in *. lia.
  - intros (Hi & Hj & Hk). exists i. rewrite in_seq. split; [lia|]. apply in_flat_map. exists j. rewrite in_seq. split; [lia|].
    apply in_map_iff. exists k. rewrite in_seq. split; [reflexivity|lia].
Qed.

Lemma idx2_inj dim i j i' j' : (j < dim)%nat -> (j' < dim)%nat -> (i * dim + j = i' * dim + j')%nat -> i = i' /\ j = j'.
Proof.
  intros Hj Hj' E. assert (i = i') by (destruct (lt_eq_lt_dec i i') as [[h|h]|h]; [nia|exact h|nia]).
  subst. split; [reflexivity|lia].
Qed.

Lemma NoDup_map_inj_in {A B} (f : A -> B) l : NoDup l -> (forall a b, In a l -> In b l -> f a = f b -> a = b) -> NoDup (map f l).
Proof.
  induction l as [|a l IH]; intros Hnd Hinj; [constructor|]. apply NoDup_cons_iff in Hnd as [Hni Hnd]. cbn [map]. constructor.
  - intros Hin. apply in_map_iff in Hin as (b & E & Hb). apply Hni. rewrite <- (Hinj b a); auto; [right; exact Hb|left; reflexivity].
  - apply IH; [exact Hnd|]. intros x y Hx Hy. apply Hinj; right; assumption.
Qed.

Lemma NoDup_flat_map {A B} (f : A -> list B) l : NoDup l -> (forall a, In a l -> NoDup (f a)) ->
  (forall a b x, In a l -> In b l -> In x (f a) -> In x (f b) -> a = b) -> NoDup (flat_map f l).
Proof.
  induction l as [|a l IH]; intros Hnd H1 H2; [constructor|]. apply NoDup_cons_iff in Hnd as [Hni Hnd]. cbn [flat_map].
  assert (Hl : NoDup (flat_map f l)).
  { apply IH; [exact Hnd| |]. - intros b Hb; apply H1; right; exact Hb. - intros b c x Hb Hc; apply H2; right; assumption. }
  assert (Ha : NoDup (f a)) by (apply H1; left; reflexivity).
  assert (Hd : forall x, In x (f a) -> ~ In x (flat_map f l)).
  { intros x Hx Hin. apply in_flat_map in Hin as (b & Hb & Hxb). apply Hni. rewrite (H2 a b x); auto; [left; reflexivity|right; exact Hb]. }
  clear - Ha Hl Hd. induction (f a) as [|x xs IH]; [exact Hl|]. apply NoDup_cons_iff in Ha as [Hx Hxs]. cbn [app]. constructor.
  - rewrite in_app_iff. intros [h|h]; [contradiction|]. apply (Hd x); [left; reflexivity|exact h].
  - apply IH; [exact Hxs|]. intros y Hy. apply Hd. right; exact Hy.
Qed.

Lemma pairs_NoDup dim : NoDup (pairs dim).
Proof.
  apply NoDup_flat_map; [apply seq_NoDup| |].
  - intros i _. apply NoDup_map_inj_in; [apply seq_NoDup|]. intros a b _ _ E. injection E as ->. reflexivity.
  - intros a b [x y] _ _ H1 H2. apply in_map_iff in H1 as (? & E1 & _). apply in_map_iff in H2 as (? & E2 & _). congruence.
Qed.
Lemma triples_NoDup dim : NoDup (triples dim).
Proof.
  apply NoDup_flat_map; [apply seq_NoDup| |].
  - intros i _. apply NoDup_flat_map; [apply seq_NoDup| |].
    + intros j _. apply NoDup_map_inj_in; [apply seq_NoDup|]. intros a b _ _ E. injection E as ->. reflexivity.
    + intros a b [[x y] z] _ _ H1 H2. apply in_map_iff in H1 as (? & E1 & _). apply in_map_iff in H2 as (? & E2 & _). congruence.
  - intros a b [[x y] z] _ _ H1 H2. apply in_flat_map in H1 as (? & _ & H1). apply in_flat_map in H2 as (? & _ & H2).
    apply in_map_iff in H1 as (? & E1 & _). apply in_map_iff in H2 as (? & E2 & _). congruence.
Qed.

Lemma loop1_ok dim c x mean : forall i,
  (fst (w_loop1 dim c x mean) i = if Nat.ltb i dim then x i - mean i else 0) /\
  (snd (w_loop1 dim c x mean) i = if Nat.ltb i dim then mean i + (x i - mean i) / c else mean i).
Proof.
  unfold w_loop1. induction dim as [|dim IH]; intros i; [split; reflexivity|].
  rewrite seq_S, fold_left_app. cbn [fold_left]. set (dm := fold_left _ (seq 0 dim) _) in *. cbn [fst snd].
  rewrite Nat.add_0_l. unfold upd. destruct (Nat.eqb_spec i dim) as [->|Hne].
  - rewrite (proj2 (Nat.ltb_lt dim (S dim))) by lia. destruct (IH dim) as [_ I2]. rewrite Nat.ltb_irrefl in I2. rewrite I2. split; reflexivity.
  - destruct (IH i) as [I1 I2]. destruct (Nat.ltb_spec i dim), (Nat.ltb_spec i (S dim)); try lia; auto.
Qed.

Lemma loop2_ok dim x mean i : (i < dim)%nat -> w_loop2 dim x mean i = x i - mean i.
Proof.
  intros Hi. unfold w_loop2.
  destruct (fold_upd (fun i => i) (fun i _ => x i - mean i) (seq 0 dim) (fun _ => 0)) as [F _]; [rewrite map_id; apply seq_NoDup|].
  apply F. apply in_seq. lia.
Qed.

Lemma loop3_ok dim delta delta2 sq :
  (forall i j, (i < dim)%nat -> (j < dim)%nat -> w_loop3 dim delta delta2 sq (i * dim + j)%nat = sq (i * dim + j)%nat + delta i * delta2 j) /\
  (forall k, (dim * dim <= k)%nat -> w_loop3 dim delta delta2 sq k = sq k).
Proof.
  set (key := fun p : nat * nat => (fst p * dim + snd p)%nat).
  set (g := fun (p : nat * nat) v => v + delta (fst p) * delta2 (snd p)).
  assert (E : w_loop3 dim delta delta2 sq = fold_left (fun m a => upd m (key a) (g a (m (key a)))) (pairs dim) sq).
  { unfold w_loop3, pairs. rewrite <- fold_left_flat. apply fold_left_ext. intros m i. rewrite fold_left_map. reflexivity. }
  rewrite E. destruct (fold_upd key g (pairs dim) sq) as [F1 F2].
  { apply NoDup_map_inj_in; [apply pairs_NoDup|]. intros [i j] [i' j'] H1 H2 Ek. apply in_pairs in H1. apply in_pairs in H2.
    unfold key in Ek. cbn [fst snd] in Ek. apply idx2_inj in Ek; [|lia|lia]. destruct Ek as [-> ->]. reflexivity. }
  split.
  - intros i j Hi Hj. specialize (F1 (i, j) (proj2 (in_pairs dim i j) (conj Hi Hj))). exact F1.
  - intros k Hk. apply F2. intros Hin. apply in_map_iff in Hin as ([i j] & <- & Hin). apply in_pairs in Hin. unfold key in Hk. cbn in Hk. nia.
Qed.

Lemma loop4_ok dim c delta delta2 sq cb :
  (forall i j k, (i < dim)%nat -> (j < dim)%nat -> (k < dim)%nat ->
     w_loop4 dim c delta delta2 sq cb ((i * dim + j) * dim + k)%nat =
     cb ((i * dim + j) * dim + k)%nat - delta k / c * sq (i * dim + j)%nat - delta j / c * sq (k * dim + i)%nat
       - delta i / c * sq (j * dim + k)%nat + delta2 i * (2 * delta j - delta2 j) * delta k) /\
  (forall l, (dim * dim * dim <= l)%nat -> w_loop4 dim c delta delta2 sq cb l = cb l).
Proof.
  set (key := fun p : nat * nat * nat => ((fst (fst p) * dim + snd (fst p)) * dim + snd p)%nat).
  set (g := fun (p : nat * nat * nat) v => let i := fst (fst p) in let j := snd (fst p) in let k := snd p in
    v - delta k / c * sq (i * dim + j)%nat - delta j / c * sq (k * dim + i)%nat
       - delta i / c * sq (j * dim + k)%nat + delta2 i * (2 * delta j - delta2 j) * delta k).
  assert (E : w_loop4 dim c delta delta2 sq cb = fold_left (fun m a => upd m (key a) (g a (m (key a)))) (triples dim) cb).
  { unfold w_loop4, triples. rewrite <- fold_left_flat. apply fold_left_ext. intros m i. rewrite <- fold_left_flat.
    apply fold_left_ext. intros m' j. rewrite fold_left_map. reflexivity. }
  rewrite E. destruct (fold_upd key g (triples dim) cb) as [F1 F2].
  { apply NoDup_map_inj_in; [apply triples_NoDup|]. intros [[i j] k] [[i' j'] k'] H1 H2 Ek. apply in_triples in H1. apply in_triples in H2.
    unfold key in Ek. cbn [fst snd] in Ek. apply idx2_inj in Ek; [|lia|lia]. destruct Ek as [Ek ->].
    apply idx2_inj in Ek; [|lia|lia]. destruct Ek as [-> ->]. reflexivity. }
  split.
  - intros i j k Hi Hj Hk. exact (F1 (i, j, k) (proj2 (in_triples dim i j k) (conj Hi (conj Hj Hk)))).
  - intros l Hl. apply F2. intros Hin. apply in_map_iff in Hin as ([[i j] k] & <- & Hin). apply in_triples in Hin. unfold key in Hl. cbn [fst snd] in Hl.
    assert ((i * dim + j) + 1 <= dim * dim)%nat by nia. nia.
Qed.

(* ---- the running statistics as an invariant ---- *)
Definition cov_at (m : nat -> R) (xs : list (nat -> R)) i j : R := rsum (map (fun x => (x i - m i) * (x j - m j)) xs).
Definition third_at (m : nat -> R) (xs : list (nat -> R)) i j k : R :=
  rsum (map (fun x => (x i - m i) * (x j - m j) * (x k - m k)) xs).

Record winv (dim : nat) (sq cb : bool) (xs : list (nat -> R)) (st : wstate) : Prop := {
  wi_mean : forall i, (i < dim)%nat -> INR (length xs) * w_mean st i = rsum (map (fun x => x i) xs);
  wi_sq : sq = true -> forall i j, (i < dim)%nat -> (j < dim)%nat -> w_sq st (i * dim + j)%nat = cov_at (w_mean st) xs i j;
  wi_cb : cb = true -> forall i j k, (i < dim)%nat -> (j < dim)%nat -> (k < dim)%nat ->
    w_cb st ((i * dim + j) * dim + k)%nat = third_at (w_mean st) xs i j k }.

Lemma centred (xs : list (nat -> R)) m i : INR (length xs) * m = rsum (map (fun x => x i) xs) -> rsum (map (fun x => x i - m) xs) = 0.
Proof. intros H. rewrite (rsum_minus (fun x => x i) (fun _ => m)), rsum_const, <- H. lra. Qed.

Lemma cov_shift (xs : list (nat -> R)) m m' i j :
  INR (length xs) * m i = rsum (map (fun x => x i) xs) -> INR (length xs) * m j = rsum (map (fun x => x j) xs) ->
  cov_at m' xs i j = cov_at m xs i j + INR (length xs) * ((m' i - m i) * (m' j - m j)).
Proof.
  intros Hi Hj. apply centred in Hi, Hj. unfold cov_at.
  rewrite (rsum_ext _ (fun x => ((x i - m i) * (x j - m j) + (m' i - m i) * (m' j - m j))
      - ((m' j - m j) * (x i - m i) + (m' i - m i) * (x j - m j)))) by (intros; ring).
  rewrite (rsum_minus (fun x => _ + _) (fun x => _ + _)), (rsum_plus (fun x => (x i - m i) * (x j - m j)) (fun _ => _)).
  rewrite rsum_const, (rsum_plus (fun x => (m' j - m j) * (x i - m i)) (fun x => _)).
  rewrite !rsum_scal, Hi, Hj. ring.
Qed.

Lemma third_shift (xs : list (nat -> R)) m m' i j k :
  INR (length xs) * m i = rsum (map (fun x => x i) xs) -> INR (length xs) * m j = rsum (map (fun x => x j) xs) ->
  INR (length xs) * m k = rsum (map (fun x => x k) xs) ->
  let d a := m' a - m a in
  third_at m' xs i j k = third_at m xs i j k - d k * cov_at m xs i j - d j * cov_at m xs i k - d i * cov_at m xs j k
    - INR (length xs) * (d i * d j * d k).
Proof.
  intros Hi Hj Hk d. apply centred in Hi, Hj, Hk. unfold third_at, cov_at.
  rewrite (rsum_ext _ (fun x => ((x i - m i) * (x j - m j) * (x k - m k) - (d i * d j * d k))
     - (d k * ((x i - m i) * (x j - m j)) + d j * ((x i - m i) * (x k - m k)) + d i * ((x j - m j) * (x k - m k)))
     + ((d j * d k) * (x i - m i) + (d i * d k) * (x j - m j) + (d i * d j) * (x k - m k)))) by (intros; unfold d; ring).
  rewrite (rsum_plus (fun x => _ - _) (fun x => _ + _)).
  rewrite (rsum_minus (fun x => _ - _) (fun x => _ + _)).
  rewrite (rsum_minus (fun x => _ * _) (fun x => _)), rsum_const.
  rewrite (rsum_plus (fun x => d k * _ + d j * _) (fun x => d i * _)), (rsum_plus (fun x => d k * _) (fun x => d j * _)).
  rewrite (rsum_plus (fun x => d j * d k * _ + _) (fun x => d i * d j * _)), (rsum_plus (fun x => d j * d k * _) (fun x => _ * _)).
  rewrite !rsum_scal, Hi, Hj, Hk. ring.
Qed.

Lemma cov_snoc m xs x i j : cov_at m (xs ++ [x]) i j = cov_at m xs i j + (x i - m i) * (x j - m j).
Proof. unfold cov_at. rewrite map_app, rsum_app. cbn. ring. Qed.
Lemma third_snoc m xs x i j k : third_at m (xs ++ [x]) i j k = third_at m xs i j k + (x i - m i) * (x j - m j) * (x k - m k).
Proof. unfold third_at. rewrite map_app, rsum_app. cbn. ring. Qed.
Lemma cov_sym m xs i j : cov_at m xs i j = cov_at m xs j i.
Proof. apply rsum_ext. intros; ring. Qed.

Definition some_b {A} (o : option A) : bool := match o with Some _ => true | None => false end.
Definition layouts_ok (dim : nat) (sq cb : option nat) : Prop :=
  (sq = None \/ sq = Some (dim ^ 2)%nat) /\ (cb = None \/ cb = Some (dim ^ 3)%nat) /\ (cb <> None -> sq <> None).

Lemma welford_step_ok dim sq cb xs x st : layouts_ok dim sq cb -> winv dim (some_b sq) (some_b cb) xs st ->
  exists st', welford_step dim sq cb (INR (length xs + 1)) x st = Ok st' /\ winv dim (some_b sq) (some_b cb) (xs ++ [x]) st' /\
    (forall i, (dim <= i)%nat -> w_mean st' i = w_mean st i) /\
    (forall i, (sq = None \/ dim * dim <= i)%nat -> w_sq st' i = w_sq st i) /\
    (forall i, (cb = None \/ dim * dim * dim <= i)%nat -> w_cb st' i = w_cb st i).
Proof.
  intros (Hsq & Hcb & Hboth) [Im Isq Icb].
  assert (L1 : welford_layout sq (dim ^ 2) = Ok tt) by (destruct Hsq as [->| ->]; cbn [welford_layout]; [|rewrite Nat.eqb_refl]; reflexivity).
  assert (L2 : welford_layout cb (dim ^ 3) = Ok tt) by (destruct Hcb as [->| ->]; cbn [welford_layout]; [|rewrite Nat.eqb_refl]; reflexivity).
  unfold welford_step. rewrite L1, L2. cbn [rbind].
  set (n := length xs) in *. set (c := INR (n + 1)).
  assert (Hc : c = INR n + 1) by (unfold c; rewrite plus_INR; simpl; ring).
  assert (Hn : 0 <= INR n) by apply pos_INR. assert (Hc0 : c <> 0) by lra.
  pose proof (loop1_ok dim c x (w_mean st)) as L. set (dm := w_loop1 dim c x (w_mean st)) in *.
  assert (Ld : forall i, (i < dim)%nat -> fst dm i = x i - w_mean st i).
  { intros i Hi. destruct (L i) as [E _]. rewrite E. rewrite (proj2 (Nat.ltb_lt i dim) Hi). reflexivity. }
  assert (Lm : forall i, (i < dim)%nat -> snd dm i = w_mean st i + (x i - w_mean st i) / c).
  { intros i Hi. destruct (L i) as [_ E]. rewrite E. rewrite (proj2 (Nat.ltb_lt i dim) Hi). reflexivity. }
  assert (Lmo : forall i, (dim <= i)%nat -> snd dm i = w_mean st i).
  { intros i Hi. destruct (L i) as [_ E]. rewrite E. destruct (Nat.ltb_spec i dim); [lia|reflexivity]. }
  assert (Hlen : INR (length (xs ++ [x])) = c).
  { rewrite app_length. cbn [length]. reflexivity. }
  assert (NM : forall i, (i < dim)%nat -> INR (length (xs ++ [x])) * snd dm i = rsum (map (fun x => x i) (xs ++ [x]))).
  { intros i Hi. rewrite Hlen, map_app, rsum_app, <- Im by exact Hi. cbn. rewrite Lm by exact Hi. field_simplify; [|exact Hc0]. rewrite Hc. ring. }
  set (d2 := w_loop2 dim x (snd dm)).
  assert (L2' : forall i, (i < dim)%nat -> d2 i = x i - snd dm i) by (intros; apply loop2_ok; assumption).
  destruct (loop3_ok dim (fst dm) d2 (w_sq st)) as [L3 L3o]. set (sq' := w_loop3 dim (fst dm) d2 (w_sq st)) in *.
  destruct (loop4_ok dim c (fst dm) d2 sq' (w_cb st)) as [L4 L4o].
  assert (NSQ : some_b sq = true -> forall i j, (i < dim)%nat -> (j < dim)%nat -> sq' (i * dim + j)%nat = cov_at (snd dm) (xs ++ [x]) i j).
  { intros Hb i j Hi Hj. rewrite L3, Isq, Ld, L2' by assumption.
    rewrite cov_snoc, (cov_shift xs (w_mean st) (snd dm)) by (apply Im; assumption).
    fold n. rewrite !Lm by assumption. replace (INR n) with (c - 1) by lra. field. exact Hc0. }
  assert (NCB : some_b sq = true -> some_b cb = true -> forall i j k, (i < dim)%nat -> (j < dim)%nat -> (k < dim)%nat ->
    w_loop4 dim c (fst dm) d2 sq' (w_cb st) ((i * dim + j) * dim + k)%nat = third_at (snd dm) (xs ++ [x]) i j k).
  { intros Hb Hb' i j k Hi Hj Hk. rewrite L4, !NSQ, Icb, !Ld, !L2' by assumption.
    rewrite third_snoc, (third_shift xs (w_mean st) (snd dm)) by (apply Im; assumption).
    rewrite !cov_snoc. rewrite !(cov_shift xs (w_mean st) (snd dm)) by (apply Im; assumption).
    fold n. rewrite (cov_sym _ _ k i). rewrite !Lm by assumption. replace (INR n) with (c - 1) by lra. field. exact Hc0. }
  clearbody dm d2 sq'.
  destruct sq as [s|]; destruct cb as [b|]; try (exfalso; apply Hboth; congruence);
    (eexists; split; [reflexivity|]; split; [constructor; cbn [w_mean w_sq w_cb some_b]; first [discriminate | auto | intros; apply NSQ; auto | intros; apply NCB; auto]|]); cbn [w_mean w_sq w_cb];
    (split; [exact Lmo|]; split; intros ? [h|h]; try discriminate; auto).
Qed.

Lemma welford_run_gen dim sq cb xs pre st : layouts_ok dim sq cb -> winv dim (some_b sq) (some_b cb) pre st ->
  exists st', welford_run dim sq cb (length pre) xs st = Ok st' /\ winv dim (some_b sq) (some_b cb) (pre ++ xs) st' /\
    (forall i, (dim <= i)%nat -> w_mean st' i = w_mean st i) /\
    (forall i, (sq = None \/ dim * dim <= i)%nat -> w_sq st' i = w_sq st i) /\
    (forall i, (cb = None \/ dim * dim * dim <= i)%nat -> w_cb st' i = w_cb st i).
Proof.
  intros Hl. revert pre st; induction xs as [|x xs IH]; intros pre st Hi.
  - exists st. rewrite app_nil_r. repeat split; auto; apply Hi.
  - destruct (welford_step_ok dim sq cb pre x st Hl Hi) as (st1 & E1 & I1 & K1 & K2 & K3).
    destruct (IH (pre ++ [x]) st1 I1) as (st2 & E2 & I2 & M1 & M2 & M3).
    exists st2. cbn [welford_run]. rewrite E1. cbn [rbind]. rewrite app_length in E2. cbn [length] in E2. rewrite E2.
    rewrite <- app_assoc in I2. split; [reflexivity|]. split; [exact I2|].
    split; [intros; rewrite M1, K1 by assumption; reflexivity|]. split; intros; [rewrite M2, K2 by assumption|rewrite M3, K3 by assumption]; reflexivity.
Qed.

Lemma winv_batch dim sq cb xs st : xs <> [] -> winv dim sq cb xs st ->
  (forall i, (i < dim)%nat -> w_mean st i = batch_mean xs i) /\
  (sq = true -> forall i j, (i < dim)%nat -> (j < dim)%nat -> w_sq st (i * dim + j)%nat = batch_cov xs i j) /\
  (cb = true -> forall i j k, (i < dim)%nat -> (j < dim)%nat -> (k < dim)%nat -> w_cb st ((i * dim + j) * dim + k)%nat = batch_third xs i j k).
Proof.
  intros Hne [Im Isq Icb].
  assert (Hn : INR (length xs) <> 0). { apply not_0_INR. destruct xs; [congruence|discriminate]. }
  assert (Em : forall i, (i < dim)%nat -> w_mean st i = batch_mean xs i).
  { intros i Hi. unfold batch_mean. rewrite <- Im by exact Hi. field. exact Hn. }
  split; [exact Em|]. split.
  - intros Hb i j Hi Hj. rewrite Isq by assumption. unfold cov_at, batch_cov. apply rsum_ext. intros x _. rewrite !Em by assumption. reflexivity.
  - intros Hb i j k Hi Hj Hk. rewrite Icb by assumption. unfold third_at, batch_third. apply rsum_ext. intros x _. rewrite !Em by assumption. reflexivity.
Qed.

Lemma welford_correct dim sq cb xs st : layouts_ok dim sq cb -> xs <> [] ->
  (sq <> None -> forall i, (i < dim * dim)%nat -> w_sq st i = 0) ->
  (cb <> None -> forall i, (i < dim * dim * dim)%nat -> w_cb st i = 0) ->
  exists st', welford_run dim sq cb 0 xs st = Ok st' /\
    (forall i, (i < dim)%nat -> w_mean st' i = batch_mean xs i) /\
    (sq <> None -> forall i j, (i < dim)%nat -> (j < dim)%nat -> w_sq st' (i * dim + j)%nat = batch_cov xs i j) /\
    (cb <> None -> forall i j k, (i < dim)%nat -> (j < dim)%nat -> (k < dim)%nat ->
       w_cb st' ((i * dim + j) * dim + k)%nat = batch_third xs i j k) /\
    (forall i, (dim <= i)%nat -> w_mean st' i = w_mean st i) /\
    (forall i, (sq = None \/ dim * dim <= i)%nat -> w_sq st' i = w_sq st i) /\
    (forall i, (cb = None \/ dim * dim * dim <= i)%nat -> w_cb st' i = w_cb st i).
Proof.
  intros Hl Hne H2 H3.
  assert (I0 : winv dim (some_b sq) (some_b cb) [] st).
  { constructor.
    - intros i _. cbn. ring.
    - intros Hb i j Hi Hj. rewrite H2; [reflexivity| |nia]. destruct sq; [discriminate|discriminate Hb].
    - intros Hb i j k Hi Hj Hk. rewrite H3; [reflexivity| |].
      + destruct cb; [discriminate|discriminate Hb].
      + assert ((i * dim + j) + 1 <= dim * dim)%nat by nia. nia. }
  destruct (welford_run_gen dim sq cb xs [] st Hl I0) as (st' & E & I & K). exists st'. split; [exact E|].
  destruct (winv_batch dim _ _ xs st' Hne I) as (B1 & B2 & B3). split; [exact B1|].
  split; [intros h; apply B2; destruct sq; [reflexivity|congruence]|]. split; [intros h; apply B3; destruct cb; [reflexivity|congruence]|exact K].
Qed.

Lemma batch_perm xs ys : Permutation xs ys ->
  (forall i, batch_mean xs i = batch_mean ys i) /\ (forall i j, batch_cov xs i j = batch_cov ys i j) /\
  (forall i j k, batch_third xs i j k = batch_third ys i j k).
Proof.
  intros P. assert (Em : forall i, batch_mean xs i = batch_mean ys i).
  { intros i. unfold batch_mean. rewrite (Permutation_length P). f_equal. apply rsum_perm, Permutation_map, P. }
  split; [exact Em|]. split; intros; unfold batch_cov, batch_third; rewrite !Em; apply rsum_perm, Permutation_map, P.
Qed.

Lemma welford_order dim sq cb xs ys st : layouts_ok dim sq cb -> xs <> [] -> Permutation xs ys ->
  (sq <> None -> forall i, (i < dim * dim)%nat -> w_sq st i = 0) ->
  (cb <> None -> forall i, (i < dim * dim * dim)%nat -> w_cb st i = 0) ->
  exists s1 s2, welford_run dim sq cb 0 xs st = Ok s1 /\ welford_run dim sq cb 0 ys st = Ok s2 /\
    (forall i, w_mean s1 i = w_mean s2 i) /\ (forall i, w_sq s1 i = w_sq s2 i) /\ (forall i, w_cb s1 i = w_cb s2 i).
Proof.
  intros Hl Hne P H2 H3. assert (Hne' : ys <> []) by (intros ->; apply Hne, Permutation_nil, Permutation_sym, P).
  destruct (welford_correct dim sq cb xs st Hl Hne H2 H3) as (s1 & E1 & A1 & A2 & A3 & A4 & A5 & A6).
  destruct (welford_correct dim sq cb ys st Hl Hne' H2 H3) as (s2 & E2 & B1 & B2 & B3 & B4 & B5 & B6).
  destruct (batch_perm xs ys P) as (P1 & P2 & P3).
  exists s1, s2. split; [exact E1|]. split; [exact E2|]. split; [|split].
  - intros i. destruct (Nat.lt_ge_cases i dim); [rewrite A1, B1 by assumption; apply P1|rewrite A4, B4 by assumption; reflexivity].
  - intros i. destruct sq as [s|]; [|rewrite A5, B5 by (left; reflexivity); reflexivity].
    destruct (Nat.lt_ge_cases i (dim * dim)) as [h|h]; [|rewrite A5, B5 by (right; exact h); reflexivity].
    assert (Hd : (0 < dim)%nat) by nia.
    assert (Hlt : (i / dim < dim)%nat) by (apply Nat.div_lt_upper_bound; lia).
    assert (Hm : (i mod dim < dim)%nat) by (apply Nat.mod_upper_bound; lia).
    rewrite (Nat.div_mod i dim) by lia. rewrite (Nat.mul_comm dim).
    rewrite A2, B2 by (try discriminate; assumption). apply P2.
  - intros i. destruct cb as [s|]; [|rewrite A6, B6 by (left; reflexivity); reflexivity].
    destruct (Nat.lt_ge_cases i (dim * dim * dim)) as [h|h]; [|rewrite A6, B6 by (right; exact h); reflexivity].
    assert (Hd : (0 < dim)%nat) by nia.
    set (q := (i / dim)%nat). assert (Hq : (q < dim * dim)%nat) by (apply Nat.div_lt_upper_bound; nia).
    assert (Hlt : (q / dim < dim)%nat) by (apply Nat.div_lt_upper_bound; lia).
    assert (Hm : (i mod dim < dim)%nat) by (apply Nat.mod_upper_bound; lia).
    assert (Hm2 : (q mod dim < dim)%nat) by (apply Nat.mod_upper_bound; lia).
    assert (Ei : i = ((q / dim * dim + q mod dim) * dim + i mod dim)%nat).
    { rewrite (Nat.mul_comm (q / dim)). rewrite <- (Nat.div_mod q dim) by lia. unfold q. rewrite (Nat.mul_comm (i / dim)). apply Nat.div_mod. lia. }
    rewrite Ei. rewrite A3, B3 by (try discriminate; assumption). apply P3.
Qed.

(* ---- entropy ---- *)
Fixpoint dot (a b r : list R) : R :=
  match a, b, r with x :: a, y :: b, z :: r => x * y / z + dot a b r | _, _, _ => 0 end.

Lemma omega_dots ds dh feq : length ds = length dh ->
  rsum (map (fun t => fst (fst t) * snd (fst t) / snd t) (combine (combine ds dh) feq)) = dot ds dh feq.
Proof.
  revert dh feq; induction ds as [|a ds IH]; intros [|b dh] [|c feq] H; try discriminate; try reflexivity.
  cbn [combine map]. rewrite rsum_cons, IH by (injection H; auto). reflexivity.
Qed.
Lemma omega_dot dh feq : rsum (map (fun t => fst t * fst t / snd t) (combine dh feq)) = dot dh dh feq.
Proof. revert feq; induction dh as [|b dh IH]; intros [|c feq]; try reflexivity. cbn [combine map]. rewrite rsum_cons, IH. reflexivity. Qed.
Lemma entropy_spec f r : discrete_approx_entropy f r = quadratic_entropy f r.
Proof.
  unfold discrete_approx_entropy. revert r; induction f as [|a f IH]; intros [|b r]; cbn [combine map quadratic_entropy rsum fold_right]; try lra.
  rewrite <- IH. unfold rsum. cbn [fst snd]. lra.
Qed.

Lemma feq_axpy f ds dh : length f = length ds -> length ds = length dh -> entropic_feq f ds dh = axpy (axpy f 1 ds) 1 dh.
Proof.
  unfold entropic_feq. revert ds dh; induction f as [|a f IH]; intros [|b ds] [|c dh] H1 H2; try discriminate; try reflexivity.
  cbn [combine map axpy]. rewrite IH by (injection H1; injection H2; auto). f_equal. cbn. ring.
Qed.
Lemma update_axpy f ds dh s h : length f = length ds -> length ds = length dh -> entropic_update f ds dh s h = axpy (axpy f s ds) h dh.
Proof.
  unfold entropic_update. revert ds dh; induction f as [|a f IH]; intros [|b ds] [|c dh] H1 H2; try discriminate; try reflexivity.
  cbn [combine map axpy]. rewrite IH by (injection H1; injection H2; auto). reflexivity.
Qed.

(* S(a + w b) for any w *)
Lemma entropy_axpy a b r w w0 : length a = length b -> length b = length r -> Forall (fun x => 0 < x) r ->
  quadratic_entropy (axpy a w b) r =
  quadratic_entropy (axpy a w0 b) r - (w - w0) ^ 2 * dot b b r - 2 * (w - w0) * dot (axpy a w0 b) b r + (w - w0) * rsum b.
Proof.
  revert b r; induction a as [|x a IH]; intros [|y b] [|z r] H1 H2 Hp; try discriminate; [cbn; ring|].
  apply Forall_cons_iff in Hp as [Hz Hp]. cbn [axpy quadratic_entropy dot]. rewrite rsum_cons, (IH b r) by (injection H1; injection H2; auto).
  field. lra.
Qed.

Lemma dot_axpy_feq f ds dh s h : length f = length ds -> length ds = length dh ->
  Forall (fun x => 0 < x) (axpy (axpy f 1 ds) 1 dh) ->
  dot (axpy (axpy f s ds) h dh) dh (axpy (axpy f 1 ds) 1 dh) =
  rsum dh + (s - 1) * dot ds dh (axpy (axpy f 1 ds) 1 dh) + (h - 1) * dot dh dh (axpy (axpy f 1 ds) 1 dh).
Proof.
  revert ds dh; induction f as [|x f IH]; intros [|y ds] [|z dh] H1 H2 Hp; try discriminate; [cbn; ring|].
  cbn [axpy] in *. apply Forall_cons_iff in Hp as [Hz Hp]. cbn [dot]. rewrite rsum_cons, IH by (try (injection H1; injection H2; auto); assumption).
  field. lra.
Qed.

Lemma dot_pos b r : length b = length r -> Forall (fun x => 0 < x) r -> 0 <= dot b b r /\ (dot b b r = 0 -> Forall (fun x => x = 0) b).
Proof.
  revert r; induction b as [|y b IH]; intros [|z r] H Hp; try discriminate; [cbn; split; [lra|constructor]|].
  apply Forall_cons_iff in Hp as [Hz Hp]. cbn [dot]. destruct (IH r) as [I1 I2]; [injection H; auto|exact Hp|].
  assert (Hy : 0 <= y * y / z). { unfold Rdiv. apply Rmult_le_pos; [nra|]. left. apply Rinv_0_lt_compat, Hz. }
  split; [lra|]. intros E. constructor; [|apply I2; lra].
  assert (E1 : y * y / z = 0) by lra. apply Rmult_integral in E1 as [E1|E1]; [nra|].
  pose proof (Rinv_0_lt_compat z Hz). lra.
Qed.

Lemma axpy_length a s b : length a = length b -> length (axpy a s b) = length b.
Proof. revert b; induction a as [|x a IH]; intros [|y b] H; try discriminate; [reflexivity|]. cbn. rewrite IH by (injection H; auto). reflexivity. Qed.

Lemma entropic_maximal f ds dh s : length f = length ds -> length ds = length dh ->
  Forall (fun x => 0 < x) (axpy (axpy f 1 ds) 1 dh) -> rsum dh = 0 -> ~ Forall (fun x => x = 0) dh ->
  exists wh post, add_entropy_condition false f f ds dh s = Ok (Some (wh, post)) /\
    post = axpy (axpy f s ds) wh dh /\
    forall w, w <> wh -> quadratic_entropy (axpy (axpy f s ds) w dh) (axpy (axpy f 1 ds) 1 dh) < quadratic_entropy post (axpy (axpy f 1 ds) 1 dh).
Proof.
  intros H1 H2 Hp Hm Hnz. unfold add_entropy_condition, entropy_maximizing_omega.
  rewrite feq_axpy by assumption. set (feq := axpy (axpy f 1 ds) 1 dh) in *.
  rewrite omega_dots by exact H2. rewrite omega_dot.
  assert (Lf : length dh = length feq).
  { unfold feq. rewrite axpy_length; [reflexivity|]. rewrite axpy_length; congruence. }
  destruct (dot_pos dh feq Lf Hp) as [P1 P2].
  assert (Hdd : dot dh dh feq <> 0) by (intros E; apply Hnz, P2, E).
  rewrite rdiv_ok by exact Hdd. cbn [obind]. set (wh := 1 - _).
  rewrite update_axpy by assumption. do 2 eexists. split; [reflexivity|]. split; [reflexivity|].
  intros w Hw.
  rewrite (entropy_axpy (axpy f s ds) dh feq w wh); [|rewrite axpy_length; congruence|exact Lf|exact Hp].
  assert (Hz : dot (axpy (axpy f s ds) wh dh) dh feq = 0).
  { unfold feq. rewrite dot_axpy_feq by assumption. fold feq. rewrite Hm. unfold wh. field. exact Hdd. }
  rewrite Hz, Hm. assert (0 < (w - wh) ^ 2). { assert (w - wh <> 0) by lra. nra. }
  assert (0 < dot dh dh feq) by lra. nra.
Qed.

(* Newton: linear update rules reach the maximiser in one step, from any start *)
Lemma newton_dots off fac feq : length off = length fac -> length fac = length feq -> Forall (fun x => 0 < x) feq ->
  newton_coeff0 off fac feq = rsum fac - 2 * dot off fac feq.
Proof.
  unfold newton_coeff0. revert fac feq; induction off as [|x off IH]; intros [|y fac] [|z feq] H1 H2 Hp; try discriminate; [cbn; ring|].
  apply Forall_cons_iff in Hp as [Hz Hp]. cbn [combine map dot]. rewrite !rsum_cons. cbn [fst snd].
  assert (IH' := IH fac feq). rewrite Ropp_plus_distr, IH' by (try (injection H1; injection H2; auto); assumption). field. lra.
Qed.
Lemma newton_dots1 fac feq : newton_coeff1 fac feq = - (2 * dot fac fac feq).
Proof.
  unfold newton_coeff1. f_equal. revert feq; induction fac as [|y fac IH]; intros [|z feq]; try (cbn; ring).
  cbn [combine map dot]. rewrite rsum_cons, IH. cbn [fst snd]. unfold Rdiv. ring.
Qed.
Lemma dot_axpy_l a b r w : length a = length b -> dot (axpy a w b) b r = dot a b r + w * dot b b r.
Proof.
  revert b r; induction a as [|x a IH]; intros [|y b] [|z r] H; try discriminate; try (cbn; ring).
  cbn [axpy dot]. rewrite IH by (injection H; auto). unfold Rdiv. ring.
Qed.

Lemma newton_maximal n off fac feq w0 : length off = length fac -> length fac = length feq ->
  Forall (fun x => 0 < x) feq -> ~ Forall (fun x => x = 0) fac ->
  exists wh, newton_iterations (S n) off fac feq w0 = Some wh /\
    forall w, w <> wh -> quadratic_entropy (axpy off w fac) feq < quadratic_entropy (axpy off wh fac) feq.
Proof.
  intros H1 H2 Hp Hnz. destruct (dot_pos fac feq H2 Hp) as [P1 P2].
  assert (Hdd : dot fac fac feq <> 0) by (intros E; apply Hnz, P2, E).
  set (wh := (rsum fac - 2 * dot off fac feq) / (2 * dot fac fac feq)).
  assert (Estep : forall w, newton_step off fac feq w = Some wh).
  { intros w. unfold newton_step. rewrite newton_dots by assumption. rewrite newton_dots1.
    rewrite rdiv_ok by lra. cbn [obind]. f_equal. unfold wh. field. exact Hdd. }
  assert (Eall : forall n w, newton_iterations (S n) off fac feq w = Some wh).
  { clear n. induction n as [|n IH]; intros w; cbn [newton_iterations]; rewrite Estep; [reflexivity|]. exact (IH wh). }
  exists wh. split; [apply Eall|]. intros w Hw.
  rewrite (entropy_axpy off fac feq w wh) by assumption. rewrite dot_axpy_l by exact H1.
  assert (0 < (w - wh) ^ 2). { assert (w - wh <> 0) by lra. nra. }
  assert (Hlin : - 2 * (w - wh) * (dot off fac feq + wh * dot fac fac feq) + (w - wh) * rsum fac = 0).
  { unfold wh. field. exact Hdd. }
  assert (0 < dot fac fac feq) by lra. nra.
Qed.
