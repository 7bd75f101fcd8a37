(* Cahn-Hilliard equilibrium: moments. *)
From Coq Require Import String List ZArith Bool Arith QArith Reals Qreals Lra Lia.
From Verif Require Import StencilModel StencilProofs StencilProofs2 RealLib LinLib EqModel EqSpec EqProofs CollModel ChModel ChSpec.
Import ListNotations.
Local Open Scope R_scope.

(* ---- the rest direction comes first ---- *)
Definition first_zero (e : string * string * stencil) : bool := match snd e with c :: _ => vec_eqb c (vzero (length c)) | [] => false end.
Lemma table_first_zero : forallb first_zero predefined_table = true.
Proof. vm_compute. reflexivity. Qed.
Lemma predefined_first name ord S : predefined_stencils name ord = Ok S -> exists S', S = vzero (dimD S) :: S'.
Proof.
  intros HS. apply predefined_In in HS. pose proof table_first_zero as T. rewrite forallb_forall in T. specialize (T _ HS). unfold first_zero in T. cbn [snd] in T.
  destruct S as [|c S']; [discriminate|]. exists S'. unfold dimD. cbn [nth]. f_equal. apply vec_eqb_eq. exact T.
Qed.
Lemma comp_vzero D a : comp (vzero D) a = 0.
Proof. unfold comp, vzero. f_equal. revert a; induction D as [|D IH]; intros [|a]; cbn; auto. Qed.

Lemma fsum_cons x f c S g : fsum (x :: f) (c :: S) g = x * g c + fsum f S g.
Proof. reflexivity. Qed.
Lemma fsum_rsum f S (A : Type) (l : list A) (h : A -> R) (g : A -> vec -> R) :
  fsum f S (fun c => rsum (map (fun i => h i * g i c) l)) = rsum (map (fun i => h i * fsum f S (g i)) l).
Proof.
  induction l as [|i l IH]; cbn [map].
  - rewrite (fsum_ext f S _ (fun _ => 0 * 0)) by (intros; cbn; ring). rewrite fsum_scal. cbn. ring.
  - rewrite rsum_cons, <- IH, <- fsum_scal, <- fsum_plus. apply fsum_ext. intros; reflexivity.
Qed.
Lemma rsum_delta D a h : (a < D)%nat -> rsum (map (fun i => h i * delta i a) (seq 0 D)) = h a.
Proof.
  intros Ha. assert (G : forall n k, (k <= a < k + n)%nat -> rsum (map (fun i => h i * delta i a) (seq k n)) = h a).
  { induction n as [|n IH]; intros k Hk; [lia|]. cbn [seq map]. rewrite rsum_cons. destruct (Nat.eq_dec k a) as [->|N].
    - rewrite (rsum_ext _ (fun _ => 0)); [rewrite rsum_zero; unfold delta; rewrite Nat.eqb_refl; ring|].
      intros i Hi. apply in_seq in Hi. unfold delta. replace (Nat.eqb i a) with false by (symmetry; apply Nat.eqb_neq; lia). ring.
    - rewrite IH by lia. unfold delta. replace (Nat.eqb k a) with false by (symmetry; apply Nat.eqb_neq; lia). ring. }
  apply G. lia.
Qed.

(* ---- moments ---- *)
Section Moments.
  Variables (name ord : string) (S : stencil).
  Hypothesis HS : predefined_stencils name ord = Ok S.
  Hypothesis HW : has_weights S = true.
  Variables (mu gamma rho : R) (v : list R).
  Notation D := (dimD S).

  Lemma ch_equilibrium_form : exists ws S', get_weights S = Ok ws /\ S = vzero D :: S' /\ length ws = length S /\
    exists w0 ws', ws = w0 :: ws' /\
    let rest := map (fun wd => ch_term D mu gamma rho v (Q2R (fst wd)) (snd wd)) (combine ws' S') in
    ch_equilibrium S mu gamma rho v = Ok (rho - rsum rest :: rest).
  Proof.
    destruct (iso_facts name ord S HS HW) as (ws & Hw & _). destruct (predefined_first name ord S HS) as [S' E]. pose proof (get_weights_length _ _ Hw) as HL.
    exists ws, S'. split; [exact Hw|]. split; [exact E|]. split; [exact HL|].
    destruct ws as [|w0 ws']; [rewrite E in HL; discriminate|]. exists w0, ws'. split; [reflexivity|].
    unfold ch_equilibrium. rewrite Hw. cbn [rbind].
    replace (combine (w0 :: ws') S) with (combine (w0 :: ws') (vzero D :: S')) by (rewrite <- E; reflexivity). reflexivity.
  Qed.
  (* functional on the weights *)
  Definition term_value (c : vec) : R := ch_term D mu gamma rho v 1 c.
  Lemma ch_fsum ws f g : get_weights S = Ok ws -> ch_equilibrium S mu gamma rho v = Ok f ->
    fsum f S g = g (vzero D) * rho + fsum (map Q2R ws) S (fun c => term_value c * (g c - g (vzero D))).
  Proof.
    intros Hw Hf. destruct ch_equilibrium_form as (ws1 & S' & Hw1 & E & HL & w0 & ws' & Ew & Hf1). rewrite Hw in Hw1. injection Hw1 as <-.
    cbv zeta in Hf1. rewrite Hf1 in Hf. injection Hf as <-. subst ws.
    assert (T1 : forall w c, ch_term D mu gamma rho v w c = w * term_value c) by (intros; unfold term_value, ch_term; ring).
    assert (Ef : forall f h, fsum f S h = fsum f (vzero D :: S') h) by (intros; rewrite <- E; reflexivity). rewrite !Ef.
    set (z := vzero D). generalize dependent term_value. generalize D. clear. intros D tv Ht.
    assert (G : fsum (map (fun wd => ch_term D mu gamma rho v (Q2R (fst wd)) (snd wd)) (combine ws' S')) S' g - g z * rsum (map (fun wd => ch_term D mu gamma rho v (Q2R (fst wd)) (snd wd)) (combine ws' S')) = fsum (map Q2R ws') S' (fun c => tv c * (g c - g z))).
    { revert S'. induction ws' as [|w ws IH]; intros [|c S']; try (cbn; ring). cbn [combine map]. rewrite !fsum_cons, rsum_cons, <- IH, Ht. cbn [fst snd]. ring. }
    cbn [map]. rewrite !fsum_cons, <- G. ring.
  Qed.
  Section Functional.
    Variable ws : list Q.
    Hypothesis Hw : get_weights S = Ok ws.
    Notation E := (fsum (map Q2R ws) S).
    Lemma term_fsum g : E (fun c => term_value c * g c) =
      3 * gamma * mu * E g + 3 * rho * rsum (map (fun i => nth i v 0 * E (fun c => comp c i * g c)) (seq 0 D))
      + 9 / 2 * rho * rsum (map (fun i => nth i v 0 * rsum (map (fun j => nth j v 0 * (E (fun c => comp c i * comp c j * g c) - 1 / 3 * delta i j * E g)) (seq 0 D))) (seq 0 D)).
    Proof.
      assert (P : forall c, term_value c * g c = 3 * gamma * mu * g c + 3 * rho * rsum (map (fun i => nth i v 0 * (comp c i * g c)) (seq 0 D))
        + 9 / 2 * rho * rsum (map (fun i => nth i v 0 * rsum (map (fun j => nth j v 0 * (comp c i * comp c j * g c + (-1 / 3) * delta i j * g c)) (seq 0 D))) (seq 0 D))).
      { intros c. unfold term_value, ch_term. fold (comp c). replace (rsum (map (fun i => nth i v 0 * (comp c i * g c)) (seq 0 D))) with (rsum (map (fun i => comp c i * nth i v 0) (seq 0 D)) * g c).
        2:{ rewrite <- rsum_scal_r. apply rsum_ext. intros; ring. }
        match goal with |- _ = _ + 9 / 2 * rho * ?A => replace A with (rsum (map (fun i => rsum (map (fun j => nth i v 0 * nth j v 0 * (IZR (nth i c 0%Z) * IZR (nth j c 0%Z) - 1 / 3 * (if Nat.eqb i j then 1 else 0))) (seq 0 D))) (seq 0 D)) * g c) end.
        - unfold comp. field.
        - rewrite <- rsum_scal_r. apply rsum_ext. intros i Hi. rewrite <- rsum_scal, <- rsum_scal_r. apply rsum_ext. intros j Hj. unfold comp, delta. field. }
      rewrite (fsum_ext _ S _ _ (fun c _ => P c)), !fsum_plus, !fsum_scal, !fsum_rsum. do 2 f_equal. apply rsum_ext. intros i Hi. f_equal. rewrite fsum_rsum. apply rsum_ext. intros j Hj. f_equal. rewrite fsum_plus, fsum_scal. field.
    Qed.
    Lemma E_iso l : (length l <= iso_order S)%nat -> (forall a, In a l -> (a < D)%nat) -> E (fun c => rprod c l) = Q2R (iso l).
    Proof. intros Hl Ha. destruct (iso_facts name ord S HS HW) as (ws' & Hw' & _ & _ & H). rewrite Hw in Hw'. injection Hw' as <-. now apply H. Qed.
    Lemma order3 : (3 <= iso_order S)%nat.
    Proof. unfold iso_order. destruct (Nat.eqb _ _); lia. Qed.
    Lemma E1 : E (fun _ => 1) = 1.
    Proof. rewrite (fsum_ext _ S _ (fun c => rprod c [])) by reflexivity. rewrite E_iso; [apply RMicromega.Q2R_1|cbn; lia|intros a []]. Qed.
    Lemma Ea a : (a < D)%nat -> E (fun c => comp c a) = 0.
    Proof. intros Ha. rewrite (fsum_ext _ S _ (fun c => rprod c [a])) by (intros; unfold rprod; cbn; ring). pose proof order3. rewrite E_iso; [apply RMicromega.Q2R_0|cbn; lia|intros x [<- | []]; exact Ha]. Qed.
    Lemma Eab a b : (a < D)%nat -> (b < D)%nat -> E (fun c => comp c a * comp c b) = delta a b / 3.
    Proof. intros Ha Hb. rewrite (fsum_ext _ S _ (fun c => rprod c [a; b])) by (intros; unfold rprod; cbn; ring). pose proof order3. rewrite E_iso; [|cbn; lia|intros x [<- | [<- | []]]; assumption]. cbn [iso]. rewrite Q2R_mult, Q2R_qdelta, Q2R_frac. lra. Qed.
    Lemma Eabc a b c : (a < D)%nat -> (b < D)%nat -> (c < D)%nat -> E (fun x => comp x a * comp x b * comp x c) = 0.
    Proof. intros Ha Hb Hc. rewrite (fsum_ext _ S _ (fun x => rprod x [a; b; c])) by (intros; unfold rprod; cbn; ring). pose proof order3. rewrite E_iso; [apply RMicromega.Q2R_0|cbn; lia|intros x [<- | [<- | [<- | []]]]; assumption]. Qed.
    Lemma Eabcd a b c d : sizeQ S <> 7%nat -> (a < D)%nat -> (b < D)%nat -> (c < D)%nat -> (d < D)%nat -> E (fun x => comp x a * comp x b * (comp x c * comp x d)) = (delta a b * delta c d + delta a c * delta b d + delta a d * delta b c) / 9.
    Proof.
      intros H7 Ha Hb Hc Hd. rewrite (fsum_ext _ S _ (fun x => rprod x [a; b; c; d])) by (intros; unfold rprod; cbn; ring).
      rewrite E_iso; [|unfold iso_order; rewrite (proj2 (Nat.eqb_neq _ _) H7); cbn; lia|intros x [<- | [<- | [<- | [<- | []]]]]; assumption].
      cbn [iso]. rewrite Q2R_mult, !Q2R_plus, !Q2R_mult, !Q2R_qdelta, Q2R_frac. lra.
    Qed.
    Variable f : list R.
    Hypothesis Hf : ch_equilibrium S mu gamma rho v = Ok f.
    Lemma ch_density : density f S = rho.
    Proof. unfold density. rewrite (ch_fsum ws f _ Hw Hf). rewrite (fsum_ext _ S _ (fun _ => 0 * 0)) by (intros; ring). rewrite fsum_scal. ring. Qed.
    Lemma ch_momentum a : (a < D)%nat -> momentum f S a = rho * nth a v 0.
    Proof.
      intros Ha. unfold momentum. rewrite (ch_fsum ws f _ Hw Hf), comp_vzero. rewrite (fsum_ext _ S _ (fun c => term_value c * comp c a)) by (intros; ring).
      rewrite term_fsum, (Ea a Ha). rewrite (rsum_ext _ (fun i => (nth i v 0 / 3) * delta i a)) by (intros i Hi; apply in_seq in Hi; rewrite Eab by (assumption || lia); field).
      rewrite (rsum_delta D a (fun i => nth i v 0 / 3) Ha). rewrite (rsum_ext _ (fun _ => 0) (seq 0 D)).
      - rewrite rsum_zero. field.
      - intros i Hi. apply in_seq in Hi. rewrite (rsum_ext _ (fun _ => 0)); [rewrite rsum_zero; ring|]. intros j Hj. apply in_seq in Hj. rewrite Eabc by (assumption || lia). ring.
    Qed.
    Lemma ch_second a b : sizeQ S <> 7%nat -> (a < D)%nat -> (b < D)%nat -> second_moment f S a b = rho * nth a v 0 * nth b v 0 + gamma * mu * delta a b.
    Proof.
      intros H7 Ha Hb. unfold second_moment. rewrite (ch_fsum ws f _ Hw Hf), !comp_vzero. rewrite (fsum_ext _ S _ (fun c => term_value c * (comp c a * comp c b))) by (intros; ring).
      rewrite term_fsum, (Eab a b Ha Hb). rewrite (rsum_ext _ (fun _ => 0)).
      2:{ intros i Hi. apply in_seq in Hi. rewrite (fsum_ext _ S _ (fun c => comp c i * comp c a * comp c b)) by (intros; ring). rewrite Eabc by (assumption || lia). ring. }
      rewrite rsum_zero. rewrite (rsum_ext _ (fun i => (nth i v 0 * nth b v 0 / 9) * delta i a + (nth i v 0 * nth a v 0 / 9) * delta i b)).
      2:{ intros i Hi. apply in_seq in Hi. rewrite (rsum_ext _ (fun j => (nth j v 0 / 9 * delta i a) * delta j b + (nth j v 0 / 9 * delta i b) * delta j a)).
          - rewrite rsum_plus, (rsum_delta D b (fun j => nth j v 0 / 9 * delta i a)), (rsum_delta D a (fun j => nth j v 0 / 9 * delta i b)) by assumption. field.
          - intros j Hj. apply in_seq in Hj. rewrite Eabcd by (assumption || lia). field. }
      rewrite rsum_plus, (rsum_delta D a (fun i => nth i v 0 * nth b v 0 / 9)), (rsum_delta D b (fun i => nth i v 0 * nth a v 0 / 9)) by assumption. field.
    Qed.
  End Functional.
End Moments.
