(* Finite sums over lists of reals and partial real operations. *)
From Coq Require Import List Reals Lra Lia Permutation.
Import ListNotations.
Local Open Scope R_scope.

(* python's sum(...) *)
Definition rsum (l : list R) : R := fold_right Rplus 0 l.

(* operations that are undefined (NaN / exception) outside their domain *)
Definition rdiv (a b : R) : option R := if Req_EM_T b 0 then None else Some (a / b).
Definition rsqrt (a : R) : option R := if Rlt_dec a 0 then None else Some (sqrt a).
Definition obind {A B} (o : option A) (f : A -> option B) : option B :=
  match o with Some a => f a | None => None end.

Lemma rdiv_ok a b : b <> 0 -> rdiv a b = Some (a / b).
Proof. intros H. unfold rdiv. destruct (Req_EM_T b 0); [contradiction|reflexivity]. Qed.
Lemma rdiv_zero a : rdiv a 0 = None.
Proof. unfold rdiv. destruct (Req_EM_T 0 0); [reflexivity|congruence]. Qed.
Lemma rsqrt_ok a : 0 <= a -> rsqrt a = Some (sqrt a).
Proof. intros H. unfold rsqrt. destruct (Rlt_dec a 0); [lra|reflexivity]. Qed.
Lemma rsqrt_neg a : a < 0 -> rsqrt a = None.
Proof. intros H. unfold rsqrt. destruct (Rlt_dec a 0); [reflexivity|lra]. Qed.

Section Sums.
  Context {A : Type}.
  Implicit Types (l : list A) (f g : A -> R).

  Lemma rsum_nil : rsum [] = 0. Proof. reflexivity. Qed.
  Lemma rsum_cons x (l : list R) : rsum (x :: l) = x + rsum l. Proof. reflexivity. Qed.
  Lemma rsum_app (l l' : list R) : rsum (l ++ l') = rsum l + rsum l'.
  Proof. induction l as [|x l IH]; simpl; [lra|]. rewrite IH. lra. Qed.
  Lemma rsum_perm (l l' : list R) : Permutation l l' -> rsum l = rsum l'.
  Proof. induction 1; simpl; try lra. Qed.
  Lemma rsum_plus f g l : rsum (map (fun a => f a + g a) l) = rsum (map f l) + rsum (map g l).
  Proof. induction l as [|x l IH]; simpl; [lra|]. rewrite IH. lra. Qed.
  Lemma rsum_minus f g l : rsum (map (fun a => f a - g a) l) = rsum (map f l) - rsum (map g l).
  Proof. induction l as [|x l IH]; simpl; [lra|]. rewrite IH. lra. Qed.
  Lemma rsum_scal c f l : rsum (map (fun a => c * f a) l) = c * rsum (map f l).
  Proof. induction l as [|x l IH]; simpl; [lra|]. rewrite IH. lra. Qed.
  Lemma rsum_scal_r c f l : rsum (map (fun a => f a * c) l) = rsum (map f l) * c.
  Proof. induction l as [|x l IH]; simpl; [lra|]. rewrite IH. lra. Qed.
  Lemma rsum_const c l : rsum (map (fun _ => c) l) = INR (length l) * c.
  Proof. induction l as [|x l IH]; [simpl; lra|]. cbn [map rsum fold_right]. fold (rsum (map (fun _ => c) l)). rewrite IH.
         change (length (x :: l)) with (S (length l)). rewrite S_INR. lra. Qed.
  Lemma rsum_ext f g l : (forall a, In a l -> f a = g a) -> rsum (map f l) = rsum (map g l).
  Proof. intros H. f_equal. apply map_ext_in. exact H. Qed.
  Lemma rsum_zero l : rsum (map (fun _ => 0) l) = 0.
  Proof. rewrite rsum_const. lra. Qed.
  Lemma rsum_nonneg f l : (forall a, In a l -> 0 <= f a) -> 0 <= rsum (map f l).
  Proof. induction l as [|x l IH]; simpl; intros H; [lra|]. specialize (IH (fun a Ha => H a (or_intror Ha))). specialize (H x (or_introl eq_refl)). lra. Qed.
  Lemma rsum_le f g l : (forall a, In a l -> f a <= g a) -> rsum (map f l) <= rsum (map g l).
  Proof. induction l as [|x l IH]; simpl; intros H; [lra|]. specialize (IH (fun a Ha => H a (or_intror Ha))). specialize (H x (or_introl eq_refl)). lra. Qed.
  Lemma rsum_zero_inv f l : (forall a, In a l -> 0 <= f a) -> rsum (map f l) = 0 -> forall a, In a l -> f a = 0.
  Proof.
    induction l as [|x l IH]; simpl; intros H E a Ha; [destruct Ha|].
    pose proof (rsum_nonneg f l (fun a Ha => H a (or_intror Ha))). pose proof (H x (or_introl eq_refl)).
    destruct Ha as [<-|Ha]; [lra|]. apply IH; auto. lra.
  Qed.
End Sums.

Lemma rsum_swap {A B} (f : A -> B -> R) (l : list A) (l' : list B) :
  rsum (map (fun a => rsum (map (f a) l')) l) = rsum (map (fun b => rsum (map (fun a => f a b) l)) l').
Proof.
  induction l as [|x l IH]; simpl; [symmetry; apply rsum_zero|].
  rewrite IH. symmetry. apply rsum_plus.
Qed.
