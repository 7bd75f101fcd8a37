(* Inverses of rational matrices by Gauss-Jordan elimination, checked afterwards; used to exhibit inverses. *)
From Coq Require Import List ZArith QArith Qreals Reals Lra Lia Bool Arith.
From Verif Require Import RealLib LinLib.
Import ListNotations.
Local Open Scope Q_scope.

Notation qvec := (list Q).
Notation qmat := (list (list Q)).
Definition qscal (a : Q) (x : qvec) : qvec := map (fun y => Qred (a * y)) x.
Definition qadd (x y : qvec) : qvec := map (fun p => Qred (fst p + snd p)) (combine x y).
Definition qid_row (n i : nat) : qvec := map (fun j => if Nat.eqb i j then 1 else 0) (seq 0 n).
Definition qnth (i : nat) (x : qvec) : Q := nth i x 0.
Fixpoint find_pivot (k : nat) (rows : qmat) : option (qvec * qmat) :=
  match rows with
  | [] => None
  | r :: rs => if Qeq_bool (qnth k r) 0
               then match find_pivot k rs with Some (p, rs') => Some (p, r :: rs') | None => None end
               else Some (r, rs)
  end.
(* done: rows already normalised for columns < k (reversed) *)
Fixpoint gauss_jordan (fuel k : nat) (done todo : qmat) : option qmat :=
  match fuel with
  | O => Some (rev done)
  | S fuel' =>
    match find_pivot k todo with
    | None => None
    | Some (p, rest) =>
      let p' := qscal (/ qnth k p) p in
      let elim r := if Qeq_bool (qnth k r) 0 then r else qadd r (qscal (- qnth k r) p') in
      gauss_jordan fuel' (S k) (p' :: map elim done) (map elim rest)
    end
  end.
Definition qinv (A : qmat) : qmat :=
  let n := length A in
  match gauss_jordan n 0 [] (map (fun p => fst p ++ qid_row n (snd p)) (combine A (seq 0 n))) with
  | Some B => map (skipn n) B
  | None => []
  end.
Definition qlincomb (n : nat) (r : qvec) (B : qmat) : qvec :=
  fold_right (fun p acc => if Qeq_bool (fst p) 0 then acc else qadd (qscal (fst p) (snd p)) acc) (repeat 0 n) (combine r B).
Definition qvec_eqb (x y : qvec) : bool := Nat.eqb (length x) (length y) && forallb (fun p => Qeq_bool (fst p) (snd p)) (combine x y).
Definition qleft_inverse (n : nat) (A B : qmat) : bool :=
  forallb (fun p => qvec_eqb (qlincomb n (fst p) B) (qid_row n (snd p))) (combine A (seq 0 n)).
Definition qshape (n : nat) (A : qmat) : bool := Nat.eqb (length A) n && forallb (fun r => Nat.eqb (length r) n) A.
Definition qinverse_check (n : nat) (A B : qmat) : bool := qshape n A && qshape n B && qleft_inverse n A B && qleft_inverse n B A.

Local Open Scope R_scope.
Definition q2r (A : qmat) : mat := map (map Q2R) A.

Lemma qscal_R a x : map Q2R (qscal a x) = rscal (Q2R a) (map Q2R x).
Proof. unfold qscal, rscal. rewrite !map_map. apply map_ext. intros y. rewrite <- Q2R_mult. apply Qeq_eqR, Qred_correct. Qed.
Lemma qadd_R x y : map Q2R (qadd x y) = radd (map Q2R x) (map Q2R y).
Proof.
  revert y; induction x as [|a x IH]; intros [|b y]; try reflexivity.
  unfold qadd in *. cbn [combine map]. rewrite radd_cons, <- IH. f_equal. cbn [fst snd]. rewrite <- Q2R_plus. apply Qeq_eqR, Qred_correct.
Qed.
Lemma rzero_R n : map Q2R (repeat 0%Q n) = rzero n.
Proof. induction n; cbn; [reflexivity|]. f_equal; auto. apply RMicromega.Q2R_0. Qed.
Lemma rscal_0 n x : length x = n -> rscal 0 x = rzero n.
Proof. revert n; induction x as [|a x IH]; intros n <-; cbn; [reflexivity|]. f_equal; [lra|]. now apply IH. Qed.
Lemma qlincomb_R n r B : Forall (fun b => length b = n) B ->
  map Q2R (qlincomb n r B) = lincomb n (map Q2R r) (q2r B).
Proof.
  unfold qlincomb, lincomb, q2r. revert B; induction r as [|a r IH]; intros [|b B] H; cbn [combine map fold_right]; try apply rzero_R.
  inversion H as [|? ? Hb HB]; subst. cbn [fst snd]. specialize (IH B HB).
  match type of IH with map Q2R ?t = _ => set (acc := t) in * end.
  destruct (Qeq_bool a 0) eqn:E.
  - apply Qeq_bool_eq in E. apply Qeq_eqR in E. rewrite E, RMicromega.Q2R_0.
    rewrite (rscal_0 (length b)) by (now rewrite map_length).
    rewrite IH. symmetry. rewrite <- IH.
    replace (length b) with (length (map Q2R acc)); [apply radd_zero_l|].
    rewrite IH. apply (lincomb_length (length b) (map Q2R r) (map (map Q2R) B)).
    apply Forall_map. eapply Forall_impl; [|exact HB]. intros x Hx. rewrite map_length. exact Hx.
  - rewrite qadd_R, qscal_R, IH. reflexivity.
Qed.
Lemma qvec_eqb_R x y : qvec_eqb x y = true -> map Q2R x = map Q2R y.
Proof.
  unfold qvec_eqb. rewrite andb_true_iff, Nat.eqb_eq. intros [Hl H]. revert y Hl H.
  induction x as [|a x IH]; intros [|b y] Hl H; try discriminate; [reflexivity|].
  cbn [combine forallb fst snd] in H. apply andb_true_iff in H. destruct H as [H1 H2]. cbn [map]. f_equal.
  - apply Qeq_eqR. now apply Qeq_bool_eq.
  - apply IH; auto.
Qed.
Lemma qid_row_R n i : map Q2R (qid_row n i) = unitv n i.
Proof.
  unfold qid_row, unitv. rewrite map_map. apply map_ext. intros j. destruct (Nat.eqb i j); [apply RMicromega.Q2R_1|apply RMicromega.Q2R_0].
Qed.
Lemma qshape_R n A : qshape n A = true -> mat_wf n n (q2r A) /\ Forall (fun r => length r = n) A.
Proof.
  unfold qshape. rewrite andb_true_iff, Nat.eqb_eq, forallb_forall. intros [Hl H].
  assert (F : Forall (fun r => length r = n) A) by (apply Forall_forall; intros r Hr; apply Nat.eqb_eq; auto).
  split; [|exact F]. split; [unfold q2r; now rewrite map_length|]. unfold q2r. apply Forall_map.
  eapply Forall_impl; [|exact F]. intros r Hr. rewrite map_length. exact Hr.
Qed.
Lemma nth_map_list {A B} (h : A -> B) l i d d' : (i < length l)%nat -> nth i (map h l) d = h (nth i l d').
Proof. intros H. rewrite nth_indep with (d' := h d') by (now rewrite map_length). apply map_nth. Qed.
Lemma qleft_inverse_R n A B x : qshape n A = true -> qshape n B = true -> qleft_inverse n A B = true -> length x = n ->
  mv (q2r A) (mv (q2r B) x) = x.
Proof.
  intros HA HB H Hx. apply qshape_R in HA, HB. destruct HA as [[HA1 HA2] HA3], HB as [[HB1 HB2] HB3].
  rewrite <- (mv_mm n) by exact HB2.
  apply list_ext. { rewrite mv_length. unfold mm. rewrite map_length. congruence. }
  intros i Hi. rewrite mv_length in Hi. unfold mm in Hi. rewrite map_length in Hi. rewrite nth_mv. unfold mm.
  rewrite (nth_map_list _ _ _ _ []) by auto.
  unfold q2r at 1. unfold q2r in Hi. rewrite map_length in Hi.
  rewrite (nth_map_list (map Q2R) A i [] []) by auto. rewrite <- qlincomb_R by exact HB3.
  unfold qleft_inverse in H. rewrite forallb_forall in H.
  specialize (H (nth i A [], i)).
  assert (Hin : In (nth i A [], i) (combine A (seq 0 n))).
  { replace (nth i A [], i) with (nth i (combine A (seq 0 n)) ([], 0%nat)).
    - apply nth_In. rewrite combine_length, seq_length. unfold q2r in HA1. rewrite map_length in HA1. lia.
    - rewrite combine_nth by (rewrite seq_length; unfold q2r in HA1; now rewrite map_length in HA1).
      rewrite seq_nth; [reflexivity|]. unfold q2r in HA1. rewrite map_length in HA1. lia. }
  specialize (H Hin). cbn [fst snd] in H. apply qvec_eqb_R in H. rewrite H, qid_row_R.
  rewrite dot_comm. apply dot_unitv; auto. unfold q2r in HA1. rewrite map_length in HA1. lia.
Qed.
Theorem qinverse_check_R n A B : qinverse_check n A B = true -> is_inverse n (q2r A) (q2r B).
Proof.
  unfold qinverse_check. rewrite !andb_true_iff. intros [[[HA HB] H1] H2].
  split; [now apply qshape_R|]. split; [now apply qshape_R|].
  split; intros x Hx; now apply (qleft_inverse_R n).
Qed.
