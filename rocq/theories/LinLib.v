(* Vectors and matrices of reals as lists. *)
From Coq Require Import List Reals Lra Lia Bool Arith.
From Verif Require Import RealLib.
Import ListNotations.
Local Open Scope R_scope.

Notation mat := (list (list R)).
(* sum_i r_i x_i *)
Definition dot (r x : list R) : R := rsum (map (fun p => fst p * snd p) (combine r x)).
(* matrix times column vector *)
Definition mv (M : mat) (x : list R) : list R := map (fun r => dot r x) M.
Definition radd (x y : list R) : list R := map (fun p => fst p + snd p) (combine x y).
Definition rsub (x y : list R) : list R := map (fun p => fst p - snd p) (combine x y).
Definition rscal (a : R) (x : list R) : list R := map (Rmult a) x.
Definition rmul (x y : list R) : list R := map (fun p => fst p * snd p) (combine x y).
Definition rzero (n : nat) : list R := repeat 0 n.
(* row vector times matrix with n columns *)
Definition lincomb (n : nat) (r : list R) (B : mat) : list R :=
  fold_right (fun p acc => radd (rscal (fst p) (snd p)) acc) (rzero n) (combine r B).
(* matrix product, B has n columns *)
Definition mm (n : nat) (A B : mat) : mat := map (fun r => lincomb n r B) A.
Definition mat_wf (m n : nat) (A : mat) : Prop := length A = m /\ Forall (fun r => length r = n) A.
(* B is the two-sided inverse of the n x n matrix A *)
Definition is_inverse (n : nat) (A B : mat) : Prop :=
  mat_wf n n A /\ mat_wf n n B /\
  (forall x, length x = n -> mv A (mv B x) = x) /\ (forall x, length x = n -> mv B (mv A x) = x).

Lemma radd_length x y : length (radd x y) = Nat.min (length x) (length y).
Proof. unfold radd. now rewrite map_length, combine_length. Qed.
Lemma rsub_length x y : length (rsub x y) = Nat.min (length x) (length y).
Proof. unfold rsub. now rewrite map_length, combine_length. Qed.
Lemma rmul_length x y : length (rmul x y) = Nat.min (length x) (length y).
Proof. unfold rmul. now rewrite map_length, combine_length. Qed.
Lemma rscal_length a x : length (rscal a x) = length x.
Proof. unfold rscal. apply map_length. Qed.
Lemma rzero_length n : length (rzero n) = n.
Proof. apply repeat_length. Qed.
Lemma mv_length M x : length (mv M x) = length M.
Proof. apply map_length. Qed.

Lemma radd_cons a x b y : radd (a :: x) (b :: y) = (a + b) :: radd x y.
Proof. reflexivity. Qed.
Lemma rsub_cons a x b y : rsub (a :: x) (b :: y) = (a - b) :: rsub x y.
Proof. reflexivity. Qed.
Lemma dot_cons a r b x : dot (a :: r) (b :: x) = a * b + dot r x.
Proof. reflexivity. Qed.
Lemma dot_nil_l x : dot [] x = 0. Proof. reflexivity. Qed.
Lemma dot_nil_r r : dot r [] = 0. Proof. unfold dot. now rewrite combine_nil. Qed.
Lemma dot_comm r x : dot r x = dot x r.
Proof. revert x; induction r as [|a r IH]; intros [|b x]; rewrite ?dot_nil_l, ?dot_nil_r; auto. rewrite !dot_cons, IH. lra. Qed.

Lemma dot_radd_r r x y : length x = length y -> dot r (radd x y) = dot r x + dot r y.
Proof.
  revert x y; induction r as [|a r IH]; intros [|b x] [|c y] H; try discriminate; rewrite ?dot_nil_l, ?dot_nil_r; try lra.
  rewrite radd_cons, !dot_cons, IH by (simpl in H; lia). lra.
Qed.
Lemma dot_rsub_r r x y : length x = length y -> dot r (rsub x y) = dot r x - dot r y.
Proof.
  revert x y; induction r as [|a r IH]; intros [|b x] [|c y] H; try discriminate; rewrite ?dot_nil_l, ?dot_nil_r; try lra.
  rewrite rsub_cons, !dot_cons, IH by (simpl in H; lia). lra.
Qed.
Lemma dot_radd_l r s x : length r = length s -> dot (radd r s) x = dot r x + dot s x.
Proof. intros H. rewrite !(dot_comm _ x). now apply dot_radd_r. Qed.
Lemma dot_scal_r r a x : dot r (rscal a x) = a * dot r x.
Proof.
  revert x; induction r as [|b r IH]; intros [|c x]; rewrite ?dot_nil_l, ?dot_nil_r; try lra.
  cbn [rscal map]. rewrite !dot_cons. unfold rscal in IH. rewrite IH. lra.
Qed.
Lemma dot_scal_l a r x : dot (rscal a r) x = a * dot r x.
Proof. rewrite !(dot_comm _ x). apply dot_scal_r. Qed.
Lemma dot_zero_l n x : dot (rzero n) x = 0.
Proof. revert x; induction n as [|n IH]; intros [|b x]; unfold rzero in *; cbn [repeat]; rewrite ?dot_nil_l, ?dot_nil_r; auto. rewrite dot_cons, IH. lra. Qed.

Lemma mv_radd M x y : length x = length y -> mv M (radd x y) = radd (mv M x) (mv M y).
Proof. intros H. induction M as [|r M IH]; [reflexivity|]. cbn [mv map]. rewrite radd_cons, dot_radd_r by auto. f_equal. exact IH. Qed.
Lemma mv_rsub M x y : length x = length y -> mv M (rsub x y) = rsub (mv M x) (mv M y).
Proof. intros H. induction M as [|r M IH]; [reflexivity|]. cbn [mv map]. rewrite rsub_cons, dot_rsub_r by auto. f_equal. exact IH. Qed.
Lemma mv_scal M a x : mv M (rscal a x) = rscal a (mv M x).
Proof. induction M as [|r M IH]; [reflexivity|]. cbn [mv map rscal]. rewrite dot_scal_r. f_equal. exact IH. Qed.

Lemma rsub_radd_cancel x s : length x = length s -> rsub (radd x s) s = x.
Proof.
  revert s; induction x as [|a x IH]; intros [|b s] H; try discriminate; [reflexivity|].
  rewrite radd_cons, rsub_cons, IH by (simpl in H; lia). f_equal. lra.
Qed.
Lemma radd_rsub_cancel x s : length x = length s -> radd (rsub x s) s = x.
Proof.
  revert s; induction x as [|a x IH]; intros [|b s] H; try discriminate; [reflexivity|].
  rewrite rsub_cons, radd_cons, IH by (simpl in H; lia). f_equal. lra.
Qed.
Lemma rsub_diag x : rsub x x = rzero (length x).
Proof. induction x as [|a x IH]; [reflexivity|]. rewrite rsub_cons, IH. cbn. f_equal. lra. Qed.
Lemma radd_zero_r x : radd x (rzero (length x)) = x.
Proof. induction x as [|a x IH]; [reflexivity|]. cbn [length rzero repeat]. rewrite radd_cons. f_equal; [lra|exact IH]. Qed.
Lemma radd_zero_l x : radd (rzero (length x)) x = x.
Proof. induction x as [|a x IH]; [reflexivity|]. cbn [length rzero repeat]. rewrite radd_cons. f_equal; [lra|exact IH]. Qed.
Lemma rsub_zero_r x : rsub x (rzero (length x)) = x.
Proof. induction x as [|a x IH]; [reflexivity|]. cbn [length rzero repeat]. rewrite rsub_cons. f_equal; [lra|exact IH]. Qed.
Lemma rsub_zero_r' n x : length x = n -> rsub x (rzero n) = x.
Proof. intros <-. apply rsub_zero_r. Qed.
Lemma radd_assoc x y z : radd x (radd y z) = radd (radd x y) z.
Proof. revert y z; induction x as [|a x IH]; intros [|b y] [|c z]; try reflexivity. rewrite !radd_cons, IH. f_equal. lra. Qed.
Lemma radd_comm x y : radd x y = radd y x.
Proof. revert y; induction x as [|a x IH]; intros [|b y]; try reflexivity. rewrite !radd_cons, IH. f_equal. lra. Qed.

Lemma nth_radd x y i : length x = length y -> nth i (radd x y) 0 = nth i x 0 + nth i y 0.
Proof.
  revert y i; induction x as [|a x IH]; intros [|b y] [|i] H; try discriminate; unfold radd; cbn; try lra.
  apply IH. simpl in H. lia.
Qed.
Lemma nth_rsub x y i : length x = length y -> nth i (rsub x y) 0 = nth i x 0 - nth i y 0.
Proof.
  revert y i; induction x as [|a x IH]; intros [|b y] [|i] H; try discriminate; unfold rsub; cbn; try lra.
  apply IH. simpl in H. lia.
Qed.
Lemma nth_rmul x y i : length x = length y -> nth i (rmul x y) 0 = nth i x 0 * nth i y 0.
Proof.
  revert y i; induction x as [|a x IH]; intros [|b y] [|i] H; try discriminate; unfold rmul; cbn; try lra.
  apply IH. simpl in H. lia.
Qed.
Lemma nth_rscal a x i : nth i (rscal a x) 0 = a * nth i x 0.
Proof. revert i; induction x as [|b x IH]; intros [|i]; cbn; try lra. apply IH. Qed.
Lemma nth_mv M x i : nth i (mv M x) 0 = dot (nth i M []) x.
Proof. revert i; induction M as [|r M IH]; intros [|i]; cbn; try reflexivity. apply IH. Qed.
Lemma nth_rzero n i : nth i (rzero n) 0 = 0.
Proof. revert i; induction n as [|n IH]; intros [|i]; cbn; auto. Qed.

Lemma list_ext (x y : list R) : length x = length y -> (forall i, (i < length x)%nat -> nth i x 0 = nth i y 0) -> x = y.
Proof. intros H H'. apply nth_ext with (d := 0) (d' := 0); auto. Qed.

Lemma lincomb_length n r B : Forall (fun r => length r = n) B -> length (lincomb n r B) = n.
Proof.
  unfold lincomb. revert B; induction r as [|a r IH]; intros [|b B] H; cbn [combine fold_right fst snd]; rewrite ?rzero_length; auto.
  rewrite radd_length, rscal_length. inversion H; subst. rewrite IH by auto. lia.
Qed.
Lemma dot_lincomb n r B x : Forall (fun r => length r = n) B -> dot (lincomb n r B) x = dot r (mv B x).
Proof.
  unfold lincomb. revert B; induction r as [|a r IH]; intros [|b B] H; cbn [combine fold_right mv map];
    rewrite ?dot_nil_l, ?dot_nil_r, ?dot_zero_l; auto.
  inversion H as [|? ? H1 H2]; subst.
  rewrite dot_radd_l, dot_scal_l, dot_cons. 2:{ cbn [fst snd]. rewrite rscal_length. fold (lincomb (length b) r B). now rewrite lincomb_length. }
  cbn [fst snd]. rewrite IH by auto. reflexivity.
Qed.
Lemma mv_mm n A B x : Forall (fun r => length r = n) B -> mv (mm n A B) x = mv A (mv B x).
Proof. intros H. unfold mm, mv. rewrite map_map. apply map_ext. intros r. now apply dot_lincomb. Qed.
Lemma mm_wf m k n A B : mat_wf m k A -> mat_wf k n B -> mat_wf m n (mm n A B).
Proof.
  intros [HA1 HA2] [HB1 HB2]. split; [unfold mm; now rewrite map_length|].
  unfold mm. apply Forall_map. eapply Forall_impl; [|exact HA2]. intros r _. now apply lincomb_length.
Qed.

Lemma is_inverse_sym n A B : is_inverse n A B -> is_inverse n B A.
Proof. intros (HA & HB & H1 & H2). repeat split; try apply HA; try apply HB; auto. Qed.
Lemma is_inverse_mm n A A' B B' : is_inverse n A A' -> is_inverse n B B' -> is_inverse n (mm n A B) (mm n B' A').
Proof.
  intros (HA & HA' & H1 & H2) (HB & HB' & H3 & H4).
  split; [now apply (mm_wf n n)|]. split; [now apply (mm_wf n n)|].
  split; intros x Hx; rewrite !mv_mm by (apply HA || apply HA' || apply HB || apply HB').
  - rewrite H3 by (rewrite mv_length; apply HA'). now apply H1.
  - rewrite H2 by (rewrite mv_length; apply HB). now apply H4.
Qed.
(* the inverse is unique as a map *)
Lemma is_inverse_unique n A B B' x : is_inverse n A B -> is_inverse n A B' -> length x = n -> mv B x = mv B' x.
Proof.
  intros (HA & HB & H1 & H2) (_ & HB' & H3 & H4) Hx.
  rewrite <- (H3 x Hx) at 1. apply H2. rewrite mv_length. apply HB'.
Qed.

(* unit vectors and matrix extensionality *)
Definition unitv (n i : nat) : list R := map (fun j => if Nat.eqb i j then 1 else 0) (seq 0 n).
Lemma unitv_length n i : length (unitv n i) = n.
Proof. unfold unitv. now rewrite map_length, seq_length. Qed.
Lemma nth_map_seq (g : nat -> R) n j : (j < n)%nat -> nth j (map g (seq 0 n)) 0 = g j.
Proof. intros H. rewrite nth_indep with (d' := g 0%nat) by (rewrite map_length, seq_length; lia). rewrite map_nth, seq_nth by lia. reflexivity. Qed.
Lemma dot_seq r x : length r = length x -> dot r x = rsum (map (fun j => nth j r 0 * nth j x 0) (seq 0 (length x))).
Proof.
  revert x; induction r as [|a r IH]; intros [|b x] H; try discriminate; [reflexivity|].
  rewrite dot_cons. cbn [length seq map]. rewrite rsum_cons. cbn [nth]. f_equal.
  rewrite IH by (simpl in H; lia). rewrite <- seq_shift, map_map. reflexivity.
Qed.
Lemma dot_unitv r n i : length r = n -> (i < n)%nat -> dot r (unitv n i) = nth i r 0.
Proof.
  revert n i; induction r as [|a r IH]; intros n i <- Hi; [simpl in Hi; lia|].
  unfold unitv. cbn [length seq map]. rewrite dot_cons, <- seq_shift, map_map.
  destruct i as [|i]; cbn [Nat.eqb nth].
  - replace (map (fun _ : nat => 0) (seq 0 (length r))) with (rzero (length r)).
    2:{ unfold rzero. rewrite <- (seq_length (length r) 0) at 1. clear. induction (seq 0 (length r)); cbn; congruence. }
    rewrite dot_comm, dot_zero_l. lra.
  - change (map (fun x : nat => if (i =? x)%nat then 1 else 0) (seq 0 (length r))) with (unitv (length r) i).
    rewrite IH by (simpl in Hi; auto; lia). lra.
Qed.
