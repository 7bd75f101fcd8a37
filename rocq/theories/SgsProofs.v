From Coq Require Import String List Bool Arith Reals Lra Lia.
From Verif Require Import SgsModel SgsSpec.
Import ListNotations.
Local Open Scope R_scope.
Open Scope string_scope.

Lemma subs_eq a b e : subs a b e = if expr_eq_dec e a then b else match e with Add x y => Add (subs a b x) (subs a b y) | Mul x y => Mul (subs a b x) (subs a b y) | Inv x => Inv (subs a b x) | Sqrt x => Sqrt (subs a b x) | _ => e end.
Proof. destruct e; reflexivity. Qed.
Lemma set_same v s x : set v s x s = x.
Proof. unfold set. destruct (string_dec s s); congruence. Qed.
Lemma set_other v s x t : t <> s -> set v s x t = v t.
Proof. intros H. unfold set. destruct (string_dec t s); congruence. Qed.
(* replacing a symbol is the same as giving it another value *)
Lemma value_subs v w n e : value v (subs (Sym w) (Sym n) e) = value (set v w (v n)) e.
Proof.
  induction e; rewrite subs_eq; destruct (expr_eq_dec _ (Sym w)) as [E|E]; try discriminate; cbn [value]; try (rewrite ?IHe, ?IHe1, ?IHe2; reflexivity); try reflexivity.
  - injection E as ->. rewrite set_same. reflexivity.
  - rewrite set_other by congruence. reflexivity.
Qed.
Lemma value_fresh v s x e : ~ occurs s e -> value (set v s x) e = value v e.
Proof. induction e; cbn [occurs value]; intros H; try reflexivity; try (rewrite IHe by tauto; reflexivity); try (rewrite IHe1, IHe2 by tauto; reflexivity). apply set_other. congruence. Qed.
Lemma subs_no_part a b e : ~ part a e -> subs a b e = e.
Proof.
  induction e; intros H; rewrite subs_eq; destruct (expr_eq_dec _ a) as [E|E]; try (exfalso; apply H; subst; cbn; tauto); try reflexivity; cbn [part] in H; try (rewrite IHe by tauto; reflexivity); rewrite IHe1, IHe2 by tauto; reflexivity.
Qed.

(* the search *)
Lemma extract_none l st : (forall eq, In eq l -> snd eq <> fst st) -> fold_left extract_step l st = st.
Proof.
  revert st. induction l as [|eq l IH]; intros st H; [reflexivity|]. cbn [fold_left]. unfold extract_step at 2. destruct (expr_eq_dec _ _) as [E|_]; [exfalso; exact (H eq (or_introl eq_refl) E)|]. apply IH. intros; apply H; right; assumption.
Qed.
Lemma extract_found l st : snd st = true -> snd (fold_left extract_step l st) = true.
Proof. revert st. induction l as [|eq l IH]; intros st H; [exact H|]. cbn [fold_left]. apply IH. unfold extract_step. destruct (expr_eq_dec _ _); [reflexivity|exact H]. Qed.
Lemma extract_value v r l : solves v l -> forall st, value v (fst st) = r -> value v (fst (fold_left extract_step l st)) = r.
Proof.
  intros H. induction l as [|eq l IH]; intros st E; [exact E|]. cbn [fold_left]. apply IH; [intros s e I; apply H; right; exact I|]. unfold extract_step. destruct (expr_eq_dec (snd eq) (fst st)) as [Q|_]; [|exact E]. cbn [fst value]. rewrite (H (fst eq) (snd eq)) by (left; destruct eq; reflexivity). rewrite Q. exact E.
Qed.
Lemma extract_shape l r : let st := fold_left extract_step l (Num r, false) in (snd st = false /\ fst st = Num r) \/ (snd st = true /\ exists s, fst st = Sym s /\ In s (map fst l)).
Proof.
  assert (G : forall l st, (snd st = false /\ fst st = Num r) \/ (snd st = true /\ exists s, fst st = Sym s) -> let st' := fold_left extract_step l st in (snd st' = false /\ fst st' = Num r) \/ (snd st' = true /\ exists s, fst st' = Sym s /\ (In s (map fst l) \/ fst st = Sym s))).
  { clear. induction l as [|eq l IH]; intros st H; cbn [fold_left]; [destruct H as [H|[H (s & E)]]; [left; exact H|right; split; [exact H|exists s; tauto]]|].
    assert (H' : let st' := extract_step st eq in (snd st' = false /\ fst st' = Num r) \/ (snd st' = true /\ exists s, fst st' = Sym s)) by (unfold extract_step; destruct (expr_eq_dec _ _); [right; split; [reflexivity|eexists; reflexivity]|exact H]).
    specialize (IH _ H'). destruct IH as [IH|[IH (s & E & I)]]; [left; exact IH|right]. split; [exact IH|]. exists s. split; [exact E|]. destruct I as [I|I]; [left; right; exact I|]. unfold extract_step in I. destruct (expr_eq_dec _ _); [cbn in I; injection I as I; left; left; exact I|right; exact I]. }
  specialize (G l (Num r, false) (or_introl (conj eq_refl eq_refl))). cbv zeta in *. destruct G as [G|[G (s & E & [I|I])]]; [left; exact G|right; split; [exact G|exists s; tauto]|discriminate].
Qed.
