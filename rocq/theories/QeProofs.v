From Coq Require Import List ZArith Bool Arith Reals Lra Lia.
From Verif Require Import StencilModel StencilProofs RealLib EqModel EqSpec QeModel QeSpec.
Import ListNotations.
Local Open Scope R_scope.

(* one variable *)
Fixpoint horner (l : list R) (x : R) : R := match l with [] => 0 | c :: l => c + x * horner l x end.
Lemma horner_bound l x : Rabs x <= 1 -> Rabs (horner l x) <= rsum (map Rabs l).
Proof.
  intros Hx. induction l as [|c l IH]; cbn [horner map]; [rewrite Rabs_R0; apply Rle_refl|]. change (rsum (Rabs c :: map Rabs l)) with (Rabs c + rsum (map Rabs l)).
  eapply Rle_trans; [apply Rabs_triang|]. apply Rplus_le_compat_l. rewrite Rabs_mult. pose proof (Rabs_pos x). pose proof (Rabs_pos (horner l x)). nra.
Qed.
Lemma horner_zero l : (forall x, x <> 0 -> horner l x = 0) -> forall c, In c l -> c = 0.
Proof.
  induction l as [|c l IH]; intros H; [intros ? []|]. set (B := rsum (map Rabs l)).
  assert (HB : 0 <= B) by (unfold B; clear; induction l as [|c l IH]; [apply Rle_refl|]; change (0 <= Rabs c + rsum (map Rabs l)); pose proof (Rabs_pos c); lra).
  assert (C0 : c = 0).
  { destruct (Req_dec c 0) as [|Hc]; [assumption|exfalso]. pose proof (Rabs_pos_lt c Hc) as Hp. set (x := Rmin 1 (Rabs c / (2 * (B + 1)))).
    assert (Hq : 0 < Rabs c / (2 * (B + 1))) by (apply Rdiv_lt_0_compat; lra).
    assert (Hx : 0 < x) by (unfold x; apply Rmin_glb_lt; lra). assert (Hx1 : x <= 1) by apply Rmin_l. assert (Hx2 : x <= Rabs c / (2 * (B + 1))) by apply Rmin_r.
    specialize (H x ltac:(lra)). cbn [horner] in H. pose proof (horner_bound l x ltac:(rewrite Rabs_right; lra)) as Hh. fold B in Hh.
    assert (E : Rabs c = x * Rabs (horner l x)) by (replace c with (- (x * horner l x)) at 1 by lra; rewrite Rabs_Ropp, Rabs_mult, (Rabs_right x) by lra; reflexivity).
    assert (x * Rabs (horner l x) <= x * B) by (apply Rmult_le_compat_l; lra).
    assert (x * B <= Rabs c / (2 * (B + 1)) * B) by (apply Rmult_le_compat_r; lra).
    assert (Rabs c / (2 * (B + 1)) * B <= Rabs c / 2).
    { replace (Rabs c / 2) with (Rabs c / (2 * (B + 1)) * (B + 1)) by (field; lra). apply Rmult_le_compat_l; lra. }
    lra. }
  intros y [<-|Hy]; [exact C0|]. apply IH; [|exact Hy]. intros x Hx. specialize (H x Hx). cbn [horner] in H. rewrite C0, Rplus_0_l in H. apply Rmult_integral in H as [?|?]; [contradiction|assumption].
Qed.
Lemma horner_sum f m : forall s x, horner (map f (seq s m)) x * x ^ s = rsum (map (fun n => f n * x ^ n) (seq s m)).
Proof.
  induction m as [|m IH]; intros s x; [cbn; unfold rsum; cbn; ring|]. cbn [seq map horner]. change (rsum (f s * x ^ s :: ?l)) with (f s * x ^ s + rsum l).
  rewrite <- IH. rewrite <- tech_pow_Rmult. ring.
Qed.

(* several variables: a polynomial that is zero everywhere has coefficients zero *)
Lemma ueval_app p q u : ueval (p ++ q) u = ueval p u + ueval q u.
Proof. unfold ueval. rewrite map_app. apply rsum_app. Qed.
Lemma ueval_neg p u : ueval (uneg p) u = - ueval p u.
Proof. unfold ueval, uneg. rewrite map_map. cbn [fst snd]. rewrite (rsum_ext _ (fun t => -1 * (snd t * umono (fst t) u))) by (intros; ring). rewrite rsum_scal. ring. Qed.
Lemma ueval_scale r p u : ueval (uscale r p) u = r * ueval p u.
Proof. unfold ueval, uscale. rewrite map_map. cbn [fst snd]. rewrite (rsum_ext _ (fun t => r * (snd t * umono (fst t) u))) by (intros; ring). apply rsum_scal. Qed.
Lemma ucoeff_app p q e : ucoeff (p ++ q) e = ucoeff p e + ucoeff q e.
Proof. unfold ucoeff. rewrite map_app. apply rsum_app. Qed.
Lemma ucoeff_neg p e : ucoeff (uneg p) e = - ucoeff p e.
Proof. unfold ucoeff, uneg. rewrite map_map. cbn [fst snd]. rewrite (rsum_ext _ (fun t => -1 * (if tuple_dec (fst t) e then snd t else 0))) by (intros t _; destruct (tuple_dec (fst t) e); ring). rewrite rsum_scal. ring. Qed.
Lemma ueval_cons t p u : ueval (t :: p) u = snd t * umono (fst t) u + ueval p u.
Proof. reflexivity. Qed.
Lemma ucoeff_cons t p e : ucoeff (t :: p) e = (if tuple_dec (fst t) e then snd t else 0) + ucoeff p e.
Proof. reflexivity. Qed.

Definition slice (n : nat) (p : upoly) : upoly := flat_map (fun t => match fst t with m :: e => if Nat.eqb m n then [(e, snd t)] else [] | [] => [] end) p.
Lemma slice_cons n t p u : ueval (slice n (t :: p)) u = match fst t with m :: e => if Nat.eqb m n then snd t * umono e u else 0 | [] => 0 end + ueval (slice n p) u.
Proof. cbn [slice flat_map]. fold (slice n p). rewrite ueval_app. f_equal. destruct (fst t) as [|m e]; [reflexivity|]. destruct (Nat.eqb m n); [|reflexivity]. unfold ueval, rsum. cbn. ring. Qed.
Lemma slice_coeff n p e D : in_variables (S D) p -> ucoeff (slice n p) e = ucoeff p (n :: e).
Proof.
  intros H. induction p as [|t p IH]; [reflexivity|]. cbn [slice flat_map]. fold (slice n p). rewrite ucoeff_app, ucoeff_cons, IH by (intros s Hs; apply H; right; exact Hs). f_equal.
  pose proof (H t (or_introl eq_refl)) as Ht. destruct (fst t) as [|m f]; [discriminate|]. destruct (Nat.eqb_spec m n) as [->|Hn].
  - rewrite ucoeff_cons. cbn [fst snd]. change (ucoeff [] e) with 0. rewrite Rplus_0_r. destruct (tuple_dec f e) as [->|Hf]; destruct (tuple_dec (n :: _) (n :: e)) as [E|E]; try reflexivity; [contradiction|]. injection E as E. contradiction.
  - change (ucoeff [] e) with 0. destruct (tuple_dec (m :: f) (n :: e)) as [E|E]; [injection E as E _; contradiction|reflexivity].
Qed.
Lemma slice_variables n p D : in_variables (S D) p -> in_variables D (slice n p).
Proof.
  intros H t Ht. unfold slice in Ht. apply in_flat_map in Ht as (s & Hs & Ht). specialize (H s Hs). destruct (fst s) as [|m e]; [destruct Ht|]. destruct (Nat.eqb m n); [|destruct Ht]. destruct Ht as [<-|[]]. cbn [fst]. cbn in H. lia.
Qed.
Definition top (p : upoly) : nat := fold_right (fun t m => Nat.max (hd 0%nat (fst t)) m) 0%nat p.
Lemma slice_eval D p x u : in_variables (S D) p -> forall N, (top p <= N)%nat -> ueval p (x :: u) = horner (map (fun n => ueval (slice n p) u) (seq 0 (S N))) x.
Proof.
  intros H N HN. pose proof (horner_sum (fun n => ueval (slice n p) u) (S N) 0 x) as E. rewrite pow_O, Rmult_1_r in E. rewrite E. clear E.
  induction p as [|t p IH].
  - change (ueval [] (x :: u)) with 0. rewrite (rsum_ext _ (fun n => 0 * x ^ n)) by (intros; reflexivity). rewrite rsum_scal. ring.
  - rewrite ueval_cons. cbn [top fold_right] in HN. fold (top p) in HN. rewrite IH by (lia || intros s Hs; apply H; right; exact Hs).
    rewrite (rsum_ext (fun n => ueval (slice n (t :: p)) u * x ^ n) (fun n => match fst t with m :: e => if Nat.eqb m n then snd t * umono e u else 0 | [] => 0 end * x ^ n + ueval (slice n p) u * x ^ n)) by (intros n _; rewrite slice_cons; ring).
    rewrite rsum_plus. f_equal. pose proof (H t (or_introl eq_refl)) as Ht. destruct (fst t) as [|m e]; [discriminate|]. cbn [hd] in HN. cbn [umono].
    assert (G : forall k s, rsum (map (fun n => (if Nat.eqb m n then snd t * umono e u else 0) * x ^ n) (seq s k)) = if (s <=? m)%nat && (m <? s + k)%nat then snd t * umono e u * x ^ m else 0).
    { clear. induction k as [|k IH]; intros s; cbn [seq map]. - change (rsum []) with 0. destruct (Nat.leb_spec s m); destruct (Nat.ltb_spec m (s + 0)); cbn; try reflexivity; lia.
      - change (rsum (?a :: ?l)) with (a + rsum l). rewrite IH. destruct (Nat.eqb_spec m s) as [->|Hn].
        + destruct (Nat.leb_spec (S s) s); [lia|]. destruct (Nat.leb_spec s s); [|lia]. destruct (Nat.ltb_spec s (s + S k)); [|lia]. cbn [andb]. ring.
        + destruct (Nat.leb_spec (S s) m); destruct (Nat.leb_spec s m); try lia; cbn [andb]; [|ring]. destruct (Nat.ltb_spec m (S s + k)); destruct (Nat.ltb_spec m (s + S k)); try lia; ring. }
    rewrite G. destruct (Nat.leb_spec 0 m); [|lia]. destruct (Nat.ltb_spec m (0 + S N)); [|lia]. cbn [andb]. ring.
Qed.
Lemma slice_over n p : (top p < n)%nat -> slice n p = [].
Proof.
  induction p as [|t p IH]; [reflexivity|]. cbn [top fold_right slice flat_map]. fold (top p) (slice n p). intros H. rewrite IH by lia. rewrite app_nil_r. destruct (fst t) as [|m e]; [reflexivity|]. cbn [hd] in H. destruct (Nat.eqb_spec m n); [lia|reflexivity].
Qed.
Lemma zero_polynomial D : forall p, in_variables D p -> (forall u, length u = D -> ueval p u = 0) -> forall e, length e = D -> ucoeff p e = 0.
Proof.
  induction D as [|D IH]; intros p Hp Hz e He.
  - destruct e; [|discriminate]. rewrite <- (Hz [] eq_refl). unfold ucoeff, ueval. apply rsum_ext. intros t Ht. specialize (Hp t Ht). destruct (fst t); [|discriminate]. destruct (tuple_dec [] []); [cbn; ring|contradiction].
  - destruct e as [|n e]; [discriminate|]. injection He as He. rewrite <- (slice_coeff n p e D Hp). apply IH; [apply slice_variables; exact Hp| |exact He].
    intros u Hu. destruct (le_lt_dec n (top p)) as [Hn|Hn]; [|rewrite slice_over by exact Hn; reflexivity].
    apply (horner_zero (map (fun n => ueval (slice n p) u) (seq 0 (S (top p))))).
    + intros x _. rewrite <- (slice_eval D p x u Hp (top p) (le_n _)). apply Hz. cbn. lia.
    + apply in_map_iff. exists n. split; [reflexivity|]. apply in_seq. lia.
Qed.
Lemma filter_len {A} (f : A -> bool) l : (length (filter f l) <= length l)%nat.
Proof. induction l as [|a l IH]; cbn; [lia|]. destruct (f a); cbn; lia. Qed.
(* conversely: coefficients zero at all monomials that occur *)
Lemma coefficients_zero u : forall n p, (length p <= n)%nat -> (forall e, In e (map fst p) -> ucoeff p e = 0) -> ueval p u = 0.
Proof.
  induction n as [|n IH]; intros p Hn H; [destruct p; [reflexivity|cbn in Hn; lia]|]. destruct p as [|t p]; [reflexivity|].
  set (e := fst t). set (q := filter (fun s => if tuple_dec (fst s) e then false else true) (t :: p)).
  assert (S1 : forall l : upoly, ueval l u = ucoeff l e * umono e u + ueval (filter (fun s => if tuple_dec (fst s) e then false else true) l) u).
  { induction l as [|s l IHl]; [cbn; unfold ueval, ucoeff, rsum; cbn; ring|]. rewrite ueval_cons, ucoeff_cons. cbn [filter]. destruct (tuple_dec (fst s) e) as [->|]; [rewrite IHl; ring|rewrite ueval_cons, IHl; ring]. }
  assert (S2 : forall (l : upoly) f, f <> e -> ucoeff (filter (fun s => if tuple_dec (fst s) e then false else true) l) f = ucoeff l f).
  { induction l as [|s l IHl]; intros f Hf; [reflexivity|]. cbn [filter]. destruct (tuple_dec (fst s) e) as [E|E]; rewrite ?ucoeff_cons, ?IHl by exact Hf; [|reflexivity]. destruct (tuple_dec (fst s) f) as [E2|]; [congruence|ring]. }
  rewrite (S1 (t :: p)), (H e) by (left; reflexivity). rewrite Rmult_0_l, Rplus_0_l. apply IH.
  - cbn [filter]. destruct (tuple_dec (fst t) e) as [|Hne]; [|unfold e in Hne; contradiction]. cbn in Hn. pose proof (filter_len (fun s : list nat * R => if tuple_dec (fst s) e then false else true) p). lia.
  - intros f Hf. apply in_map_iff in Hf as (s & <- & Hs). apply filter_In in Hs as [Hs Hd]. destruct (tuple_dec (fst s) e) as [|Hne]; [discriminate|]. rewrite S2 by exact Hne. apply H. apply in_map. exact Hs.
Qed.
Lemma same_polynomial D p q : in_variables D p -> in_variables D q ->
  ((forall u, length u = D -> ueval p u = ueval q u) <-> forall e, In e (map fst p ++ map fst q) -> ucoeff p e = ucoeff q e).
Proof.
  intros Hp Hq. assert (V : in_variables D (p ++ uneg q)).
  { intros t Ht. apply in_app_or in Ht as [Ht|Ht]; [apply Hp; exact Ht|]. apply in_map_iff in Ht as (s & <- & Hs). exact (Hq s Hs). }
  split.
  - intros H e He. assert (E : ucoeff (p ++ uneg q) e = 0).
    { apply (zero_polynomial D _ V); [intros u Hu; rewrite ueval_app, ueval_neg, H by exact Hu; ring|]. rewrite <- map_app in He. apply in_map_iff in He as (t & <- & Ht). apply in_app_or in Ht as [Ht|Ht]; auto. }
    rewrite ucoeff_app, ucoeff_neg in E. lra.
  - intros H u _. enough (ueval (p ++ uneg q) u = 0) by (rewrite ueval_app, ueval_neg in H0; lra). apply (coefficients_zero u (length (p ++ uneg q))); [apply le_n|].
    intros e He. rewrite ucoeff_app, ucoeff_neg, H; [ring|]. rewrite map_app in He. apply in_app_or in He as [He|He]; apply in_or_app; [left; exact He|right]. unfold uneg in He. rewrite map_map in He. exact He.
Qed.
