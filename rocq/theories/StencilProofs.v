(* Lemmas about vectors, stencil indexing and the predefined tables. *)
From Coq Require Import String List ZArith Bool Arith Lia.
From Verif Require Import StencilModel.
Import ListNotations.
Local Open Scope Z_scope.

Lemma vec_eqb_eq a b : vec_eqb a b = true <-> a = b.
Proof. unfold vec_eqb; destruct (vec_eq_dec a b); split; congruence. Qed.

Lemma vec_eqb_refl a : vec_eqb a a = true.
Proof. apply vec_eqb_eq; reflexivity. Qed.

Lemma existsb_vec_In d l : existsb (vec_eqb d) l = true <-> In d l.
Proof.
  rewrite existsb_exists. split.
  - intros (x & Hx & He). apply vec_eqb_eq in He. subst. exact Hx.
  - intros H. exists d. split; [exact H|apply vec_eqb_refl].
Qed.

Lemma vneg_length d : length (vneg d) = length d.
Proof. apply map_length. Qed.

Lemma vneg_involutive d : vneg (vneg d) = d.
Proof.
  unfold vneg. rewrite map_map. induction d as [|x d IH]; simpl; [reflexivity|].
  rewrite IH. f_equal. lia.
Qed.

Lemma vadd_length a b : length a = length b -> length (vadd a b) = length a.
Proof. intros H. unfold vadd. rewrite map_length, combine_length. lia. Qed.

Lemma vzero_length D : length (vzero D) = D.
Proof. apply repeat_length. Qed.

Lemma vadd_cons x a y b : vadd (x :: a) (y :: b) = (x + y) :: vadd a b.
Proof. reflexivity. Qed.

Lemma vzero_S D : vzero (S D) = 0 :: vzero D.
Proof. reflexivity. Qed.

Lemma vadd_comm a b : vadd a b = vadd b a.
Proof.
  revert b; induction a as [|x a IH]; intros [|y b]; try reflexivity.
  rewrite !vadd_cons, IH. f_equal. lia.
Qed.

Lemma vadd_assoc a b c : vadd a (vadd b c) = vadd (vadd a b) c.
Proof.
  revert b c; induction a as [|x a IH]; intros [|y b] [|z c]; try reflexivity.
  rewrite !vadd_cons, IH. f_equal. lia.
Qed.

Lemma vadd_zero_r a : vadd a (vzero (length a)) = a.
Proof.
  induction a as [|x a IH]; [reflexivity|].
  cbn [length]. rewrite vzero_S, vadd_cons, IH. f_equal. lia.
Qed.

Lemma vadd_zero_r' a D : length a = D -> vadd a (vzero D) = a.
Proof. intros <-. apply vadd_zero_r. Qed.

Lemma vadd_zero_l a : vadd (vzero (length a)) a = a.
Proof. rewrite vadd_comm. apply vadd_zero_r. Qed.

Lemma vadd_neg_r a : vadd a (vneg a) = vzero (length a).
Proof.
  induction a as [|x a IH]; [reflexivity|].
  cbn [length vneg map]. fold (vneg a). rewrite vzero_S, vadd_cons, IH. f_equal. lia.
Qed.

Lemma vadd_neg_l a : vadd (vneg a) a = vzero (length a).
Proof. rewrite vadd_comm. apply vadd_neg_r. Qed.

Lemma vneg_vzero D : vneg (vzero D) = vzero D.
Proof. unfold vneg, vzero. induction D; simpl; [reflexivity|]. now rewrite IHD. Qed.

Lemma vneg_vadd a b : vneg (vadd a b) = vadd (vneg a) (vneg b).
Proof.
  revert b; induction a as [|x a IH]; intros [|y b]; try reflexivity.
  cbn [vneg map]. fold (vneg a) (vneg b). rewrite !vadd_cons. cbn [vneg map].
  fold (vneg (vadd a b)). rewrite IH. f_equal. lia.
Qed.

Lemma vneg_inj a b : vneg a = vneg b -> a = b.
Proof. intros H. rewrite <- (vneg_involutive a), <- (vneg_involutive b), H. reflexivity. Qed.

(* ---------- index_of ---------- *)

Lemma index_of_Some d l i : index_of d l = Some i -> nth_error l i = Some d.
Proof.
  revert i; induction l as [|e l IH]; intros i; simpl; [discriminate|].
  destruct (vec_eqb d e) eqn:E.
  - intros [= <-]. apply vec_eqb_eq in E. subst. reflexivity.
  - destruct (index_of d l) as [k|] eqn:E2; simpl; [|discriminate].
    intros [= <-]. simpl. now apply IH.
Qed.

Lemma index_of_In d l : In d l -> exists i, index_of d l = Some i.
Proof.
  induction l as [|e l IH]; simpl; [tauto|].
  intros H. destruct (vec_eqb d e) eqn:E; [eauto|].
  destruct H as [->|H]; [rewrite vec_eqb_refl in E; discriminate|].
  destruct (IH H) as [i ->]. simpl. eauto.
Qed.

Lemma index_of_None d l : index_of d l = None -> ~ In d l.
Proof. intros H Hin. destruct (index_of_In _ _ Hin) as [i Hi]. congruence. Qed.

Lemma index_of_lt d l i : index_of d l = Some i -> (i < length l)%nat.
Proof. intros H. apply nth_error_Some. rewrite (index_of_Some _ _ _ H). discriminate. Qed.

Lemma NoDup_nth_error_inj (l : list vec) i j d :
  NoDup l -> nth_error l i = Some d -> nth_error l j = Some d -> i = j.
Proof.
  intros Hnd Hi Hj.
  apply (proj1 (NoDup_nth_error l) Hnd).
  - apply nth_error_Some. congruence.
  - congruence.
Qed.

Lemma index_of_nth l i d : NoDup l -> nth_error l i = Some d -> index_of d l = Some i.
Proof.
  intros Hnd Hi.
  destruct (index_of_In d l) as [k Hk]; [eapply nth_error_In; eauto|].
  rewrite Hk. f_equal. eapply NoDup_nth_error_inj; eauto. now apply index_of_Some.
Qed.

Lemma has_dup_NoDup l : has_dup l = false <-> NoDup l.
Proof.
  induction l as [|a l IH]; simpl.
  - split; [constructor|reflexivity].
  - rewrite orb_false_iff, IH. split.
    + intros [H1 H2]. constructor; [|exact H2].
      intros Hin. apply existsb_vec_In in Hin. congruence.
    + intros H. inversion H as [|? ? Hn Hd]; subst. split; [|exact Hd].
      destruct (existsb (vec_eqb a) l) eqn:E; [|reflexivity].
      apply existsb_vec_In in E. contradiction.
Qed.

(* ---------- mapM and enum ---------- *)

Lemma mapM_Ok_length {A B} (f : A -> res B) l bs : mapM f l = Ok bs -> length bs = length l.
Proof.
  revert bs; induction l as [|a l IH]; simpl; intros bs.
  - intros [= <-]. reflexivity.
  - destruct (f a); simpl; [|discriminate].
    destruct (mapM f l); simpl; [|discriminate].
    intros [= <-]. simpl. now rewrite IH.
Qed.

Lemma mapM_nth {A B} (f : A -> res B) l bs i a :
  mapM f l = Ok bs -> nth_error l i = Some a ->
  exists b, f a = Ok b /\ nth_error bs i = Some b.
Proof.
  revert bs i; induction l as [|a' l IH]; simpl; intros bs i.
  - intros _. destruct i; discriminate.
  - destruct (f a') as [b|] eqn:E; simpl; [|discriminate].
    destruct (mapM f l) as [bs'|] eqn:E2; simpl; [|discriminate].
    intros [= <-]. destruct i as [|i]; simpl.
    + intros [= ->]. eauto.
    + intros H. destruct (IH bs' i eq_refl H) as (b' & H1 & H2). eauto.
Qed.

Lemma mapM_ex {A B} (f : A -> res B) l :
  (forall a, In a l -> exists b, f a = Ok b) -> exists bs, mapM f l = Ok bs.
Proof.
  induction l as [|a l IH]; simpl; intros H; [eauto|].
  destruct (H a (or_introl eq_refl)) as [b ->]. simpl.
  destruct IH as [bs ->]; [intros; apply H; auto|]. simpl. eauto.
Qed.

Lemma mapM_map_Ok {A B} (f : A -> B) l : mapM (fun a => Ok (f a)) l = Ok (map f l).
Proof. induction l as [|a l IH]; simpl; [reflexivity|]. now rewrite IH. Qed.

Lemma mapM_ext {A B} (f g : A -> res B) l :
  (forall a, In a l -> f a = g a) -> mapM f l = mapM g l.
Proof.
  induction l as [|a l IH]; simpl; intros H; [reflexivity|].
  rewrite (H a (or_introl eq_refl)). destruct (g a); simpl; [|reflexivity].
  rewrite IH; auto.
Qed.

Lemma enum_nth {A} (l : list A) i :
  nth_error (enum l) i = option_map (fun a => (i, a)) (nth_error l i).
Proof.
  unfold enum.
  assert (H : forall k, nth_error (combine (seq k (length l)) l) i
              = option_map (fun a => ((k + i)%nat, a)) (nth_error l i)).
  { revert i; induction l as [|a l IH]; intros i k; simpl; [destruct i; reflexivity|].
    destruct i as [|i]; simpl; [now rewrite Nat.add_0_r|].
    rewrite IH. destruct (nth_error l i); simpl; [|reflexivity]. do 2 f_equal. lia. }
  apply H.
Qed.

Lemma enum_length {A} (l : list A) : length (enum l) = length l.
Proof. unfold enum. rewrite combine_length, seq_length. lia. Qed.
