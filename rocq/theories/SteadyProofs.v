(* The hierarchy solves the expanded equation; exactness for polynomial fields. *)
From Coq Require Import List ZArith Bool Arith Reals Lra Lia.
From Verif Require Import StencilModel RealLib LinLib EqSpec SteadyModel SteadySpec.
Import ListNotations.
Local Open Scope R_scope.

(* ---- reindexing ---- *)
Definition ind (b : bool) : R := if b then 1 else 0.
Lemma seq_shift_map {A} (f : nat -> A) k s n : map f (seq (k + s) n) = map (fun i => f (k + i)%nat) (seq s n).
Proof. revert s. induction n as [|n IH]; intros s; [reflexivity|]. cbn [seq map]. f_equal. replace (Datatypes.S (k + s)) with (k + Datatypes.S s)%nat by lia. apply IH. Qed.
Lemma rsum_zero_in {A} (f : A -> R) l : (forall a, In a l -> f a = 0) -> rsum (map f l) = 0.
Proof. intros H. rewrite (rsum_ext f (fun _ => 0) l H). apply rsum_zero. Qed.
Lemma reindex (N n : nat) (h : nat -> R) : (1 <= n <= N)%nat ->
  rsum (map (fun i => ind (n <=? i) * h (i - n)%nat) (seq 1 N)) = rsum (map (fun j => ind (n + j <=? N) * h j) (seq 0 (Datatypes.S N))).
Proof.
  intros Hn. transitivity (rsum (map h (seq 0 (N + 1 - n)))).
  - replace N with ((n - 1) + (N + 1 - n))%nat at 1 by lia. rewrite seq_app, map_app, rsum_app. rewrite rsum_zero_in.
    + rewrite Rplus_0_l. replace (1 + (n - 1))%nat with (n + 0)%nat by lia. rewrite seq_shift_map. apply rsum_ext. intros i _.
      replace (n <=? n + i)%nat with true by (symmetry; apply Nat.leb_le; lia). unfold ind. replace (n + i - n)%nat with i by lia. ring.
    + intros i Hi. apply in_seq in Hi. replace (n <=? i)%nat with false by (symmetry; apply Nat.leb_gt; lia). unfold ind. ring.
  - replace (Datatypes.S N) with ((N + 1 - n) + n)%nat by lia. rewrite seq_app, map_app, rsum_app. rewrite (rsum_zero_in _ (seq (0 + (N + 1 - n)) n)).
    + rewrite Rplus_0_r. apply rsum_ext. intros j Hj. apply in_seq in Hj. replace (n + j <=? N)%nat with true by (symmetry; apply Nat.leb_le; lia). unfold ind. ring.
    + intros j Hj. apply in_seq in Hj. replace (n + j <=? N)%nat with false by (symmetry; apply Nat.leb_gt; lia). unfold ind. ring.
Qed.
(* sum over i and n <= i of g n (i - n), as a sum over all n and j *)
Lemma triangle (N : nat) (g : nat -> nat -> R) :
  rsum (map (fun i => rsum (map (fun n => g n (i - n)%nat) (seq 1 i))) (seq 1 N)) =
  rsum (map (fun n => rsum (map (fun j => ind (n + j <=? N) * g n j) (seq 0 (Datatypes.S N)))) (seq 1 N)).
Proof.
  rewrite (rsum_ext _ (fun i => rsum (map (fun n => ind (n <=? i) * g n (i - n)%nat) (seq 1 N)))).
  - rewrite rsum_swap. apply rsum_ext. intros n Hn. apply in_seq in Hn. apply (reindex N n (g n)). lia.
  - intros i Hi. apply in_seq in Hi. replace N with (i + (N - i))%nat at 1 by lia. rewrite seq_app, map_app, rsum_app. rewrite (rsum_zero_in _ (seq (1 + i) (N - i))).
    + rewrite Rplus_0_r. apply rsum_ext. intros n Hn. apply in_seq in Hn. replace (n <=? i)%nat with true by (symmetry; apply Nat.leb_le; lia). unfold ind. ring.
    + intros n Hn. apply in_seq in Hn. replace (n <=? i)%nat with false by (symmetry; apply Nat.leb_gt; lia). unfold ind. ring.
Qed.

Section Steady.
  Variables (S : stencil) (A Ainv : mat) (f0 force : jets).
  Let n := length S.
  Hypothesis HI : is_inverse n A Ainv.
  Notation T := (taylor_term S).
  Notation F := (pdf_order S Ainv f0 force).
  Notation app := (apply_matrix S).

  (* ---- linearity ---- *)
  Lemma advect_ext f g : same_fields n f g -> same_fields n (advect S f) (advect S g).
  Proof. intros H q idx x Hq. unfold advect, dirder. apply rsum_ext. intros a _. rewrite (H q (a :: idx) x Hq). reflexivity. Qed.
  Lemma advect_n_ext k f g : same_fields n f g -> same_fields n (advect_n S k f) (advect_n S k g).
  Proof. intros H. induction k as [|k IH]; [exact H|]. cbn [advect_n]. apply advect_ext. exact IH. Qed.
  Lemma taylor_ext k f g : same_fields n f g -> same_fields n (T k f) (T k g).
  Proof. intros H q idx x Hq. unfold taylor_term, jscal. rewrite (advect_n_ext k f g H q idx x Hq). reflexivity. Qed.
  Lemma advect_sum {B} (G : B -> jets) (w : B -> R) l : forall q idx x, advect S (jsum (map (fun b => jscal (w b) (G b)) l)) q idx x = jsum (map (fun b => jscal (w b) (advect S (G b))) l) q idx x.
  Proof.
    intros q idx x. unfold advect, dirder, jsum. rewrite map_map. rewrite (rsum_ext _ (fun a => rsum (map (fun b => w b * (comp (nth q S []) a * G b q (a :: idx) x)) l))).
    - rewrite rsum_swap. apply rsum_ext. intros b _. unfold jscal. rewrite rsum_scal. reflexivity.
    - intros a _. rewrite map_map. rewrite <- rsum_scal. apply rsum_ext. intros b _. unfold jscal. ring.
  Qed.
  Lemma advect_n_sum {B} k (G : B -> jets) (w : B -> R) l : same_fields n (advect_n S k (jsum (map (fun b => jscal (w b) (G b)) l))) (jsum (map (fun b => jscal (w b) (advect_n S k (G b))) l)).
  Proof.
    induction k as [|k IH]; [intros q idx x _; reflexivity|]. cbn [advect_n]. intros q idx x Hq. rewrite (advect_ext _ _ IH q idx x Hq). apply advect_sum.
  Qed.
  Lemma taylor_sum {B} k (G : B -> jets) (w : B -> R) l q idx x : (q < n)%nat -> T k (jsum (map (fun b => jscal (w b) (G b)) l)) q idx x = rsum (map (fun b => w b * T k (G b) q idx x) l).
  Proof.
    intros Hq. unfold taylor_term, jscal at 1. rewrite (advect_n_sum k G w l q idx x Hq). unfold jsum. rewrite map_map, <- rsum_scal. apply rsum_ext. intros b _. unfold jscal. ring.
  Qed.
  Lemma app_mv M f q idx x : app M f q idx x = nth q (mv M (map (fun r => f r idx x) (seq 0 n))) 0.
  Proof. unfold apply_matrix. rewrite nth_mv. reflexivity. Qed.
  Lemma app_ext M f g q idx x : same_fields n f g -> app M f q idx x = app M g q idx x.
  Proof. intros H. unfold apply_matrix. f_equal. apply map_ext_in. intros r Hr. apply in_seq in Hr. apply H. unfold n. lia. Qed.
  Lemma app_sum {B} M (G : B -> jets) (w : B -> R) l q idx x : app M (jsum (map (fun b => jscal (w b) (G b)) l)) q idx x = rsum (map (fun b => w b * app M (G b) q idx x) l).
  Proof.
    unfold apply_matrix. set (r := nth q M []). fold n. induction l as [|b l IH].
    - cbn [map rsum fold_right]. rewrite (map_ext _ (fun _ => 0)) by reflexivity. unfold dot. generalize (seq 0 n). clear. induction r as [|a r IH]; intros [|s t]; try reflexivity. cbn [map combine rsum fold_right fst snd].
      match goal with |- _ + fold_right Rplus 0 ?m = _ => change (fold_right Rplus 0 m) with (rsum m) end. rewrite IH. ring.
    - cbn [map]. rewrite rsum_cons, <- IH. rewrite <- dot_scal_r, <- dot_radd_r.
      + f_equal. apply list_ext; [rewrite radd_length, rscal_length, !map_length; lia|]. intros i Hi. rewrite map_length, seq_length in Hi.
        rewrite nth_radd by (rewrite rscal_length, !map_length; reflexivity). rewrite nth_rscal, !nth_map_seq by exact Hi. unfold jsum, jscal. cbn [map]. rewrite rsum_cons, ?map_map. reflexivity.
      + rewrite rscal_length, !map_length. reflexivity.
  Qed.
  Lemma app_scal M a f q idx x : app M (jscal a f) q idx x = a * app M f q idx x.
  Proof.
    pose proof (app_sum M (fun _ : nat => f) (fun _ => a) [0%nat] q idx x) as H. cbn [map rsum fold_right] in H.
    rewrite Rplus_0_r in H. rewrite <- H. unfold apply_matrix. f_equal. apply map_ext. intros r. unfold jsum, jscal. cbn [map rsum fold_right]. ring.
  Qed.
  Lemma app_sub M f g q idx x : app M (jsub f g) q idx x = app M f q idx x - app M g q idx x.
  Proof.
    unfold apply_matrix. rewrite <- dot_rsub_r by (rewrite !map_length; reflexivity). f_equal. apply list_ext; [rewrite rsub_length, !map_length; lia|]. intros i Hi. rewrite map_length, seq_length in Hi.
    rewrite nth_rsub by (rewrite !map_length; reflexivity). rewrite !nth_map_seq by exact Hi. reflexivity.
  Qed.
  Lemma app_cancel f q idx x : (q < n)%nat -> app A (app Ainv f) q idx x = f q idx x.
  Proof.
    intros Hq. destruct HI as ((LA & _) & (LB & _) & H1 & H2). rewrite app_mv.
    replace (map (fun r => app Ainv f r idx x) (seq 0 n)) with (mv Ainv (map (fun r => f r idx x) (seq 0 n))).
    - rewrite H1 by (rewrite map_length, seq_length; reflexivity). apply (nth_map_seq (fun r => f r idx x)). exact Hq.
    - apply list_ext; [rewrite mv_length, map_length, seq_length; exact LB|]. intros i Hi. rewrite mv_length, LB in Hi. rewrite (nth_map_seq (fun r => app Ainv f r idx x)) by exact Hi. rewrite app_mv. reflexivity.
  Qed.
  Lemma app_cancel' f q idx x : (q < n)%nat -> app Ainv (app A f) q idx x = f q idx x.
  Proof.
    intros Hq. destruct HI as ((LA & _) & (LB & _) & H1 & H2). rewrite app_mv.
    replace (map (fun r => app A f r idx x) (seq 0 n)) with (mv A (map (fun r => f r idx x) (seq 0 n))).
    - rewrite H2 by (rewrite map_length, seq_length; reflexivity). apply (nth_map_seq (fun r => f r idx x)). exact Hq.
    - apply list_ext; [rewrite mv_length, map_length, seq_length; exact LA|]. intros i Hi. rewrite mv_length, LA in Hi. rewrite (nth_map_seq (fun r => app A f r idx x)) by exact Hi. rewrite app_mv. reflexivity.
  Qed.

  (* ---- the hierarchy ---- *)
  Lemma hierarchy_length i : length (hierarchy S Ainv f0 force i) = Datatypes.S i.
  Proof. induction i as [|i IH]; [reflexivity|]. cbn [hierarchy]. rewrite app_length, IH. cbn [length]. lia. Qed.
  Lemma hierarchy_nth i j : (j <= i)%nat -> nth j (hierarchy S Ainv f0 force i) jzero = F j.
  Proof.
    induction i as [|i IH]; intros H; [replace j with 0%nat by lia; reflexivity|]. destruct (Nat.eq_dec j (Datatypes.S i)) as [->|N]; [reflexivity|].
    cbn [hierarchy]. rewrite app_nth1 by (rewrite hierarchy_length; lia). apply IH. lia.
  Qed.
  Lemma pdf_zero : F 0 = f0. Proof. reflexivity. Qed.
  Definition sources (i : nat) (g : nat -> jets) : jets :=
    jsub (jsum (map (fun k => T k (g (i - k)%nat)) (seq 1 i))) (if Nat.eqb i 1 then force else jzero).
  Lemma pdf_next i q idx x : F (Datatypes.S i) q idx x = - app Ainv (sources (Datatypes.S i) F) q idx x.
  Proof.
    unfold pdf_order at 1. cbn [hierarchy]. rewrite app_nth2 by (rewrite hierarchy_length; lia). rewrite hierarchy_length, Nat.sub_diag. cbn [nth].
    unfold next_order. rewrite hierarchy_length. unfold jscal. replace (-1 * _) with (- apply_matrix S Ainv
      (jsub (jsum (map (fun k => T k (nth (Datatypes.S i - k) (hierarchy S Ainv f0 force i) jzero)) (seq 1 (Datatypes.S i)))) (if (Datatypes.S i =? 1)%nat then force else jzero)) q idx x) by ring.
    f_equal. unfold sources. f_equal. f_equal. f_equal. apply map_ext_in. intros k Hk. apply in_seq in Hk. rewrite hierarchy_nth by lia. reflexivity.
  Qed.
  Lemma pdf_equation i q idx x : (q < n)%nat -> (1 <= i)%nat -> app A (F i) q idx x = - sources i F q idx x.
  Proof.
    intros Hq Hi. destruct i as [|i]; [lia|]. rewrite (app_ext A (F (Datatypes.S i)) (jscal (-1) (app Ainv (sources (Datatypes.S i) F)))).
    - rewrite app_scal, app_cancel by exact Hq. ring.
    - intros r idx' x' Hr. rewrite pdf_next. unfold jscal. ring.
  Qed.
  (* uniqueness of the orders *)
  Lemma orders_unique N (g : nat -> jets) : same_fields n (g 0%nat) f0 ->
    (forall i q idx x, (1 <= i <= N)%nat -> (q < n)%nat -> jsum (map (fun k => T k (g (i - k)%nat)) (seq 1 i)) q idx x + app A (g i) q idx x - (if Nat.eqb i 1 then force else jzero) q idx x = 0) ->
    forall i, (i <= N)%nat -> same_fields n (g i) (F i).
  Proof.
    intros H0 H. induction i as [i IH] using lt_wf_ind. intros Hi. destruct i as [|i]; [exact H0|].
    intros q idx x Hq. rewrite <- (app_cancel' (g (Datatypes.S i)) q idx x Hq). rewrite pdf_next.
    rewrite (app_ext Ainv (app A (g (Datatypes.S i))) (jscal (-1) (sources (Datatypes.S i) F))); [rewrite app_scal; ring|].
    intros r idx' x' Hr. specialize (H (Datatypes.S i) r idx' x' ltac:(lia) Hr). unfold jscal, sources, jsub. unfold jsum in *. rewrite map_map in *.
    rewrite (rsum_ext (fun k => T k (F (Datatypes.S i - k)%nat) r idx' x') (fun k => T k (g (Datatypes.S i - k)%nat) r idx' x')); [lra|].
    intros k Hk. apply in_seq in Hk. symmetry. apply (taylor_ext k); [|exact Hr]. apply IH; lia.
  Qed.

  (* ---- the partial sums ---- *)
  Definition series (N : nat) (eps : R) : jets := jsum (map (fun i => jscal (eps ^ i) (F i)) (seq 0 (Datatypes.S N))).
  Lemma series_split N eps q idx x : series N eps q idx x = f0 q idx x + rsum (map (fun i => eps ^ i * F i q idx x) (seq 1 N)).
  Proof. unfold series, jsum. rewrite map_map. cbn [seq map]. rewrite rsum_cons. unfold jscal at 1. cbn [pow]. rewrite pdf_zero, Rmult_1_l. reflexivity. Qed.
  Lemma residual N eps q idx x : (q < n)%nat -> (1 <= N)%nat ->
    taylor_expanded_equation S f0 force N A eps (series N eps) q idx x =
    rsum (map (fun k => rsum (map (fun j => ind (negb (k + j <=? N)) * (eps ^ (k + j) * T k (F j) q idx x)) (seq 0 (Datatypes.S N)))) (seq 1 N)).
  Proof.
    intros Hq HN. unfold taylor_expanded_equation. unfold jsub at 1, jadd. unfold jsum at 1. rewrite map_map. unfold jscal at 1.
    rewrite (rsum_ext _ (fun k => rsum (map (fun j => eps ^ (k + j) * T k (F j) q idx x) (seq 0 (Datatypes.S N))))).
    2:{ intros k _. unfold series. rewrite (taylor_sum k F (fun i => eps ^ i) _ q idx x Hq). rewrite <- rsum_scal. apply rsum_ext. intros j _. rewrite pow_add. ring. }
    rewrite (app_ext A (jsub (series N eps) f0) (jsum (map (fun i => jscal (eps ^ i) (F i)) (seq 1 N)))).
    2:{ intros r idx' x' Hr. unfold jsub. rewrite series_split. unfold jsum. rewrite map_map. unfold jscal. ring. }
    rewrite app_sum. rewrite (rsum_ext (fun b => eps ^ b * app A (F b) q idx x) (fun i => (if Nat.eqb i 1 then eps * force q idx x else 0) - rsum (map (fun k => eps ^ (k + (i - k)) * T k (F (i - k)%nat) q idx x) (seq 1 i)))).
    2:{ intros i Hi. apply in_seq in Hi. rewrite pdf_equation by (try exact Hq; lia). unfold sources, jsub, jsum. rewrite map_map.
        rewrite (rsum_ext (fun k => eps ^ (k + (i - k)) * T k (F (i - k)%nat) q idx x) (fun k => eps ^ i * T k (F (i - k)%nat) q idx x)).
        - rewrite rsum_scal. destruct (Nat.eqb_spec i 1) as [->|Ni]; [cbn [pow]; ring|unfold jzero; ring].
        - intros k Hk. apply in_seq in Hk. replace (k + (i - k))%nat with i by lia. reflexivity. }
    rewrite rsum_minus. rewrite (triangle N (fun k j => eps ^ (k + j) * T k (F j) q idx x)).
    replace (rsum (map (fun i => if Nat.eqb i 1 then eps * force q idx x else 0) (seq 1 N))) with (eps * force q idx x).
    2:{ destruct N as [|N]; [lia|]. cbn [seq map]. rewrite rsum_cons, rsum_zero_in; [cbn [Nat.eqb]; ring|]. intros i Hi. apply in_seq in Hi. replace (i =? 1)%nat with false by (symmetry; apply Nat.eqb_neq; lia). reflexivity. }
    unfold jscal.
    rewrite (rsum_ext (fun k => rsum (map (fun j => eps ^ (k + j) * T k (F j) q idx x) (seq 0 (Datatypes.S N))))
      (fun k => rsum (map (fun j => ind (k + j <=? N) * (eps ^ (k + j) * T k (F j) q idx x)) (seq 0 (Datatypes.S N))) + rsum (map (fun j => ind (negb (k + j <=? N)) * (eps ^ (k + j) * T k (F j) q idx x)) (seq 0 (Datatypes.S N))))).
    2:{ intros k _. rewrite <- rsum_plus. apply rsum_ext. intros j _. unfold ind. destruct (k + j <=? N)%nat; cbn [negb]; ring. }
    rewrite rsum_plus. ring.
  Qed.
  (* the residual has no power of eps up to the order *)
  Lemma residual_orders N q idx x : (q < n)%nat -> (1 <= N)%nat -> exists r : nat -> R, forall eps,
    taylor_expanded_equation S f0 force N A eps (series N eps) q idx x = rsum (map (fun k => r k * eps ^ k) (seq (N + 1) N)).
  Proof.
    intros Hq HN. exists (fun m => rsum (map (fun k => rsum (map (fun j => ind (k + j =? m) * T k (F j) q idx x) (seq 0 (Datatypes.S N)))) (seq 1 N))). intros eps. rewrite residual by assumption.
    symmetry. rewrite (rsum_ext _ (fun m => rsum (map (fun k => rsum (map (fun j => ind (k + j =? m) * eps ^ m * T k (F j) q idx x) (seq 0 (Datatypes.S N)))) (seq 1 N)))).
    2:{ intros m _. rewrite <- rsum_scal_r. apply rsum_ext. intros k _. rewrite <- rsum_scal_r. apply rsum_ext. intros j _. ring. }
    rewrite rsum_swap. apply rsum_ext. intros k Hk. apply in_seq in Hk. rewrite rsum_swap. apply rsum_ext. intros j Hj. apply in_seq in Hj.
    rewrite rsum_scal_r. rewrite <- Rmult_assoc. f_equal.
    destruct (Nat.leb_spec (k + j) N) as [HL|HL]; unfold ind; cbn [negb].
    - rewrite rsum_zero_in; [ring|]. intros m Hm. apply in_seq in Hm. replace (k + j =? m)%nat with false by (symmetry; apply Nat.eqb_neq; lia). ring.
    - replace (seq (N + 1) N) with (seq (N + 1) (k + j - N - 1) ++ (k + j)%nat :: seq (k + j + 1) (2 * N - k - j)).
      + rewrite map_app, rsum_app. cbn [map]. rewrite rsum_cons, Nat.eqb_refl. rewrite !rsum_zero_in; [ring| |].
        * intros m Hm. apply in_seq in Hm. replace (k + j =? m)%nat with false by (symmetry; apply Nat.eqb_neq; lia). ring.
        * intros m Hm. apply in_seq in Hm. replace (k + j =? m)%nat with false by (symmetry; apply Nat.eqb_neq; lia). ring.
      + transitivity (seq (N + 1) ((k + j - N - 1) + Datatypes.S (2 * N - k - j))); [|f_equal; lia]. rewrite seq_app. f_equal. replace (N + 1 + (k + j - N - 1))%nat with (k + j)%nat by lia. cbn [seq]. f_equal. f_equal. lia.
  Qed.
End Steady.
