From Coq Require Import String List ZArith Bool Arith Reals Lra Lia.
From Verif Require Import StencilModel RealLib LinLib MomModel TransSpec TransModel TransProofs TransProofs2 EqModel EqSpec CumModel CumProofs CumProofs4 CollSpec CollModel CollProofs CollProofs2 CollProofs5 CollProofs6 CollProofs7 MacroModel MacroSpec.
Import ListNotations.
Local Open Scope R_scope.

(* ---- partial sums ---- *)
Section Subs.
  Variables (f : list R) (subs : list (list nat)).
  Let fq (q : nat) : R := nth q f 0.
  Definition aval (a : atom) : R := match a with Pdf q => fq q | Vel i => rsum (map fq (nth i subs [])) end.
  Definition lval (e : lin) : R := rsum (map (fun t => IZR (fst t) * aval (snd t)) e).
  Definition good_atom (a : atom) : Prop := match a with Pdf q => (q < length f)%nat | Vel i => (i < length subs)%nat end.
  Definition good (e : lin) : Prop := Forall (fun t => good_atom (snd t)) e.
  Lemma atom_value_good a : good_atom a -> atom_value f subs a = Some (aval a).
  Proof.
    destruct a as [q|i]; cbn; intros H.
    - unfold fq. now apply nth_error_nth'.
    - rewrite (nth_error_nth' subs [] H). reflexivity.
  Qed.
  Lemma lin_value_good e : good e -> lin_value f subs e = Some (lval e).
  Proof.
    induction 1 as [|t e Ht He IH]; [reflexivity|]. unfold lin_value in *. cbn [fold_right]. rewrite atom_value_good, IH by auto. cbn [obind].
    unfold lval. cbn [map]. rewrite rsum_cons. reflexivity.
  Qed.
  Lemma lval_app e e' : lval (e ++ e') = lval e + lval e'.
  Proof. unfold lval. now rewrite map_app, rsum_app. Qed.
  Lemma atom_eqb_eq a b : atom_eqb a b = true <-> a = b.
  Proof. destruct a, b; cbn; rewrite ?Nat.eqb_eq; split; intros H; congruence || discriminate. Qed.
  Lemma mem_nat_In q l : mem_nat q l = true <-> In q l.
  Proof. unfold mem_nat. rewrite existsb_exists. split; [intros (x & H & E); apply Nat.eqb_eq in E; now subst|intros H; exists q; now rewrite Nat.eqb_refl]. Qed.

  Lemma remove_one k q e : NoDup (map snd e) -> In (k, Pdf q) e -> lval e = IZR k * fq q + lval (remove_terms [q] e).
  Proof.
    induction e as [|[k' a] e IH]; intros Hn Hin; [destruct Hin|]. cbn [map snd] in Hn. inversion Hn as [|? ? Hni Hn']; subst.
    unfold lval. cbn [map]. rewrite rsum_cons. cbn [fst snd]. fold (lval e).
    destruct Hin as [E|Hin].
    - injection E as -> ->. cbn [aval]. cbn [remove_terms filter snd]. unfold mem_nat. cbn [existsb]. rewrite Nat.eqb_refl. cbn [orb negb].
      assert (EQ : remove_terms [q] e = e).
      { clear IH Hn Hn'. unfold remove_terms. induction e as [|[k1 a1] e IHe]; [reflexivity|]. cbn [filter snd]. cbn [map snd] in Hni. rewrite IHe by (intros H; apply Hni; now right).
        destruct a1 as [q1|i1]; [|reflexivity]. unfold mem_nat. cbn [existsb]. destruct (Nat.eqb_spec q1 q); [subst; exfalso; apply Hni; now left|reflexivity]. }
      unfold remove_terms, mem_nat in EQ. cbn [existsb] in EQ. change (filter _ e) with (filter (fun t : Z * atom => match snd t with Pdf q0 => negb ((q0 =? q)%nat || false) | Vel _ => true end) e).
      rewrite EQ. reflexivity.
    - rewrite IH by auto. cbn [remove_terms filter snd]. destruct a as [q1|i1].
      + unfold mem_nat at 1. cbn [existsb]. destruct (Nat.eqb_spec q1 q) as [->|Hd].
        * exfalso. apply Hni. now apply (in_map snd) in Hin.
        * cbn [orb negb]. unfold lval. cbn [map]. rewrite rsum_cons. cbn [fst snd]. unfold remove_terms. lra.
      + unfold lval. cbn [map]. rewrite rsum_cons. cbn [fst snd]. unfold remove_terms. lra.
  Qed.
  Lemma NoDup_filter_map {A B} (g : A -> B) p l : NoDup (map g l) -> NoDup (map g (filter p l)).
  Proof.
    induction l as [|a l IH]; cbn; intros H; [constructor|]. inversion H; subst. destruct (p a); cbn; auto. constructor; auto.
    intros Hi. apply in_map_iff in Hi as (x & E & Hx). apply filter_In in Hx as [Hx _]. apply H2. rewrite <- E. now apply in_map.
  Qed.
  Lemma remove_cons q r e : remove_terms (q :: r) e = remove_terms r (remove_terms [q] e).
  Proof.
    unfold remove_terms. induction e as [|[k a] e IH]; [reflexivity|]. cbn [filter snd]. rewrite IH. destruct a as [q1|i]; [|reflexivity].
    unfold mem_nat. cbn [existsb]. destruct (Nat.eqb q1 q); cbn [orb negb]; [reflexivity|]. cbn [filter snd]. reflexivity.
  Qed.
  Lemma remove_many k r : forall e, NoDup r -> NoDup (map snd e) -> (forall q, In q r -> In (k, Pdf q) e) ->
    lval e = IZR k * rsum (map fq r) + lval (remove_terms r e).
  Proof.
    induction r as [|q r IH]; intros e Hr He Hin.
    - cbn. assert (E : remove_terms [] e = e). { unfold remove_terms. clear. induction e as [|[k a] e IH]; [reflexivity|]. cbn [filter snd]. rewrite IH. now destruct a. } rewrite E. lra.
    - inversion Hr as [|? ? Hq Hr']; subst. rewrite (remove_one k q e He) by (apply Hin; now left). rewrite (remove_cons q r e). rewrite (IH (remove_terms [q] e)); auto.
      + cbn [map]. rewrite rsum_cons. lra.
      + now apply NoDup_filter_map.
      + intros q' Hq'. apply filter_In. split; [apply Hin; now right|]. cbn [snd]. unfold mem_nat. cbn [existsb]. destruct (Nat.eqb_spec q' q); [subst; contradiction|reflexivity].
  Qed.
  Lemma has_terms_In k r e : has_terms k r e = true -> forall q, In q r -> In (k, Pdf q) e.
  Proof.
    unfold has_terms. rewrite forallb_forall. intros H q Hq. specialize (H q Hq). apply existsb_exists in H as ([k' a] & Hin & E). cbn in E.
    apply andb_true_iff in E as [E1 E2]. apply Z.eqb_eq in E1. apply atom_eqb_eq in E2. now subst.
  Qed.
  Lemma subs_value e r i : good e -> NoDup (map snd e) -> nth_error subs i = Some r -> NoDup r -> ~ In (Vel i) (map snd e) ->
    lval (subs_velo e r i) = lval e /\ good (subs_velo e r i) /\ NoDup (map snd (subs_velo e r i)) /\
    (forall j, In (Vel j) (map snd (subs_velo e r i)) -> j = i \/ In (Vel j) (map snd e)).
  Proof.
    intros Hg Hn Hi Hr Hv. assert (Li : (i < length subs)%nat) by (apply nth_error_Some; congruence). assert (Ei : nth i subs [] = r) by now apply nth_error_nth.
    assert (SUM : forall k, has_terms k r e = true ->
      lval (remove_terms r e ++ [(k, Vel i)]) = lval e /\ good (remove_terms r e ++ [(k, Vel i)]) /\ NoDup (map snd (remove_terms r e ++ [(k, Vel i)])) /\
      (forall j, In (Vel j) (map snd (remove_terms r e ++ [(k, Vel i)])) -> j = i \/ In (Vel j) (map snd e))).
    { intros k Hk. pose proof (has_terms_In _ _ _ Hk) as HI. repeat split.
      - rewrite lval_app, (remove_many k r e Hr Hn HI). unfold lval at 2. cbn [map fst snd aval]. rewrite rsum_cons. rewrite Ei. cbn. lra.
      - apply Forall_app. split; [|constructor; auto]. unfold good in *. rewrite Forall_forall in *. intros t Ht. apply filter_In in Ht as [Ht _]. now apply Hg.
      - rewrite map_app. cbn. assert (Hn' : NoDup (map snd (remove_terms r e))) by (apply NoDup_filter_map; apply Hn).
        apply NoDup_Add with (a := Vel i) (l := map snd (remove_terms r e)); [rewrite <- (app_nil_r (map snd (remove_terms r e))) at 1; apply Add_app|]. split; auto.
        intros Hin. apply Hv. apply in_map_iff in Hin as (t & E & Ht). apply filter_In in Ht as [Ht _]. rewrite <- E. now apply in_map.
      - intros j Hj. rewrite map_app in Hj. apply in_app_or in Hj as [Hj|[Hj|[]]]; [right|left; cbn in Hj; congruence].
        apply in_map_iff in Hj as (t & E & Ht). apply filter_In in Ht as [Ht _]. rewrite <- E. now apply in_map. }
    assert (GEN : forall e', e' = (if has_terms 1 r e then remove_terms r e ++ [(1%Z, Vel i)] else if has_terms (-1) r e then remove_terms r e ++ [((-1)%Z, Vel i)] else e) ->
      lval e' = lval e /\ good e' /\ NoDup (map snd e') /\ (forall j, In (Vel j) (map snd e') -> j = i \/ In (Vel j) (map snd e))).
    { intros e' ->. destruct (has_terms 1 r e) eqn:E1; [now apply SUM|]. destruct (has_terms (-1) r e) eqn:E2; [now apply SUM|]. repeat split; auto. }
    destruct r as [|q [|q' r]]; [now apply GEN| |now apply GEN]. cbn [subs_velo].
    assert (EV : aval (Vel i) = fq q) by (cbn [aval]; rewrite Ei; cbn; lra).
    repeat split.
    - unfold lval. rewrite map_map. f_equal. apply map_ext. intros [k a]. cbn [fst snd]. destruct (atom_eqb a (Pdf q)) eqn:E; [|reflexivity]. apply atom_eqb_eq in E. subst. now rewrite EV.
    - unfold good in *. rewrite Forall_map. eapply Forall_impl; [|exact Hg]. intros [k a] H. cbn [snd] in *. destruct (atom_eqb a (Pdf q)); auto.
    - rewrite map_map. cbn [snd]. rewrite <- (map_map snd (fun a => if atom_eqb a (Pdf q) then Vel i else a)).
      clear SUM GEN Hg. induction (map snd e) as [|a l IH]; [constructor|]. cbn [map]. inversion Hn; subst.
      assert (Hv' : ~ In (Vel i) l) by (intros H; apply Hv; now right). constructor; [|now apply IH].
      intros Hin. apply in_map_iff in Hin as (b & E & Hb). destruct (atom_eqb a (Pdf q)) eqn:Ea, (atom_eqb b (Pdf q)) eqn:Eb.
      + apply atom_eqb_eq in Ea, Eb. subst. contradiction.
      + subst b. contradiction.
      + apply Hv. left. auto.
      + subst. contradiction.
    - intros j Hj. rewrite map_map in Hj. apply in_map_iff in Hj as ([k a] & E & Ht). cbn [snd] in E. destruct (atom_eqb a (Pdf q)); [left; congruence|right].
      subst a. now apply (in_map snd) in Ht.
  Qed.
End Subs.

Lemma enum_fst {A} (l : list A) : map fst (enum l) = seq 0 (length l).
Proof.
  unfold enum. generalize 0%nat. induction l as [|a l IH]; intros k; [reflexivity|]. cbn. now rewrite IH.
Qed.
Lemma plus_terms_NoDup S i : NoDup (plus_terms S i).
Proof. unfold plus_terms. cbn zeta. destruct (_ <=? 1)%nat; [constructor|]. apply NoDup_filter_map. rewrite enum_fst. apply seq_NoDup. Qed.
Lemma velo_rhs_NoDup S i : NoDup (velo_rhs S i). Proof. apply NoDup_filter, plus_terms_NoDup. Qed.
Lemma velo_NoDup S r : In r (velo_subexpressions S) -> NoDup r.
Proof. unfold velo_subexpressions. cbn zeta. destruct (existsb _ _); [intros []|]. intros H. apply in_map_iff in H as (i & <- & _). apply velo_rhs_NoDup. Qed.

Lemma enum_lt {A} (l : list A) q c : In (q, c) (enum l) -> (q < length l)%nat.
Proof. intros H. apply (in_map fst) in H. rewrite enum_fst in H. apply in_seq in H. cbn in H. lia. Qed.
Lemma lval_enum f subs (S : stencil) (k : vec -> Z) : length f = length S ->
  let e := filter (fun t => negb (Z.eqb (fst t) 0)) (map (fun qc => (k (snd qc), Pdf (fst qc))) (enum S)) in
  good f subs e /\ NoDup (map snd e) /\ (forall i, ~ In (Vel i) (map snd e)) /\ lval f subs e = rsum (map (fun fc => fst fc * IZR (k (snd fc))) (combine f S)).
Proof.
  intros L e. assert (Hin : forall t, In t e -> exists q c, t = (k c, Pdf q) /\ In (q, c) (enum S)).
  { intros t Ht. apply filter_In in Ht as [Ht _]. apply in_map_iff in Ht as ([q c] & <- & H). now exists q, c. }
  repeat split.
  - apply Forall_forall. intros t Ht. destruct (Hin t Ht) as (q & c & -> & H). cbn. rewrite L. now apply enum_lt in H.
  - unfold e. apply NoDup_filter_map. rewrite map_map. cbn [snd]. rewrite <- (map_map fst Pdf), enum_fst. apply FinFun.Injective_map_NoDup; [intros x y H; congruence|apply seq_NoDup].
  - intros i Hi. apply in_map_iff in Hi as (t & E & Ht). destruct (Hin t Ht) as (q & c & -> & _). discriminate E.
  - unfold e, lval. clear Hin e. revert L. unfold enum. 
    assert (G : forall (S : stencil) m, length f = (m + length S)%nat ->
      rsum (map (fun t => IZR (fst t) * aval f subs (snd t)) (filter (fun t => negb (Z.eqb (fst t) 0)) (map (fun qc => (k (snd qc), Pdf (fst qc))) (combine (seq m (length S)) S)))) =
      rsum (map (fun fc => fst fc * IZR (k (snd fc))) (combine (skipn m f) S))).
    { clear S. induction S as [|c S IH]; intros m L; [cbn; now rewrite combine_nil|]. cbn [length seq combine map].
      assert (Hm : (m < length f)%nat) by (cbn in L; lia).
      assert (E : skipn m f = nth m f 0 :: skipn (Datatypes.S m) f). { clear -Hm. revert f Hm. induction m; intros [|a f] H; try (cbn in H; lia); [reflexivity|]. cbn [skipn nth]. apply (IHm f). cbn in H. lia. }
      rewrite E. cbn [combine map filter fst snd]. rewrite rsum_cons. cbn [fst snd]. cbn [length] in L. rewrite <- (IH (Datatypes.S m)) by lia.
      destruct (Z.eqb_spec (k c) 0) as [->|_]; cbn [negb map]; [lra|]. rewrite rsum_cons. cbn [fst snd aval]. lra. }
    intros L. now apply (G S 0%nat).
Qed.
Lemma pdf_sum_value f subs (S : stencil) : length f = length S ->
  good f subs (pdf_sum_expr (length S)) /\ NoDup (map snd (pdf_sum_expr (length S))) /\ (forall i, ~ In (Vel i) (map snd (pdf_sum_expr (length S)))) /\ lval f subs (pdf_sum_expr (length S)) = rsum f.
Proof.
  intros L. destruct (lval_enum f subs S (fun _ => 1%Z) L) as (H1 & H2 & H3 & H4). cbn zeta in *. cbn [Z.eqb negb] in *.
  assert (E : filter (fun t : Z * atom => negb (fst t =? 0)%Z) (map (fun qc : nat * vec => (1%Z, Pdf (fst qc))) (enum S)) = pdf_sum_expr (length S)).
  { unfold pdf_sum_expr. rewrite <- (enum_fst S), map_map. clear. induction (enum S) as [|a l IH]; [reflexivity|]. cbn. now rewrite IH. }
  rewrite E in *. repeat split; auto. rewrite H4. rewrite <- (density_rsum S f L). unfold density, fsum. reflexivity.
Qed.
Lemma density_expr_value S f : length f = length S -> lin_value f (velo_subexpressions S) (density_expr S) = Some (rsum f).
Proof.
  intros L. unfold density_expr. cbn zeta. set (subs := velo_subexpressions S).
  assert (G : forall l m e, (forall j r, nth_error l j = Some r -> nth_error subs (m + j) = Some r) -> good f subs e -> NoDup (map snd e) ->
     (forall j, In (Vel j) (map snd e) -> (j < m)%nat) -> 
     let e' := fold_left (fun e ri => subs_velo e (snd ri) (fst ri)) (combine (seq m (length l)) l) e in lval f subs e' = lval f subs e /\ good f subs e').
  { induction l as [|r l IH]; intros m e Hl Hg Hn Hv; [split; auto|]. cbn [length seq combine fold_left fst snd].
    assert (Hr : nth_error subs m = Some r) by (rewrite <- (Nat.add_0_r m); now apply Hl).
    destruct (subs_value f subs e r m Hg Hn Hr) as (V1 & V2 & V3 & V4).
    - apply velo_NoDup with S. now apply nth_error_In in Hr.
    - intros H. apply Hv in H. lia.
    - destruct (IH (Datatypes.S m) (subs_velo e r m)) as [I1 I2]; auto.
      + intros j r' Hj. replace (Datatypes.S m + j)%nat with (m + Datatypes.S j)%nat by lia. now apply Hl.
      + intros j Hj. apply V4 in Hj as [->|Hj]; [lia|]. apply Hv in Hj. lia.
      + cbn zeta in *. rewrite I1. auto. }
  destruct (pdf_sum_value f subs S L) as (H1 & H2 & H3 & H4).
  destruct (G subs 0%nat (pdf_sum_expr (sizeQ S))) as [E1 E2]; auto.
  - intros j Hj. now apply H3 in Hj.
  - rewrite lin_value_good by exact E2. f_equal. etransitivity; [exact E1|exact H4].
Qed.
Lemma velocity_expr_value S f i : length f = length S -> lin_value f (velo_subexpressions S) (velocity_expr S i) = Some (momentum f S i).
Proof.
  intros L. destruct (lval_enum f (velo_subexpressions S) S (fun c => nth i c 0%Z) L) as (H1 & H2 & H3 & H4). cbn zeta in *. fold (momentum_expr S i) in *.
  change (rsum (map (fun fc : R * vec => fst fc * IZR (nth i (snd fc) 0%Z)) (combine f S))) with (momentum f S i) in H4.
  unfold velocity_expr. destruct (nth_error (velo_subexpressions S) i) as [r|] eqn:E.
  - destruct (subs_value f _ _ r i H1 H2 E) as (V1 & V2 & _); auto.
    + apply velo_NoDup with S. now apply nth_error_In in E.
    + rewrite lin_value_good by exact V2. f_equal. etransitivity; [exact V1|exact H4].
  - rewrite lin_value_good by exact H1. now f_equal.
Qed.
Lemma second_expr_value S f i j : length f = length S -> lin_value f (velo_subexpressions S) (second_moment_expr S i j) = Some (second_moment f S i j).
Proof.
  intros L. destruct (lval_enum f (velo_subexpressions S) S (fun c => (nth i c 0 * nth j c 0)%Z) L) as (H1 & H2 & H3 & H4). cbn zeta in *. fold (second_moment_expr S i j) in *.
  rewrite lin_value_good by exact H1. f_equal. etransitivity; [exact H4|]. unfold second_moment, fsum. f_equal. apply map_ext. intros [x c]. cbn [fst snd]. rewrite mult_IZR. reflexivity.
Qed.

(* ---- setter ---- *)
Lemma mix_one n g f : length g = n -> length f = n -> mix 1 g f = g.
Proof.
  intros Lg Lf. apply list_ext; [rewrite (mix_length n); auto|]. rewrite (mix_length n) by auto. intros i Hi. unfold mix.
  rewrite nth_radd, nth_rscal, nth_rsub by (rewrite ?rscal_length, ?rsub_length; lia). lra.
Qed.
Lemma set_state D n (S : stencil) ps w u fwd bwd g f : Forall (fun c => length c = D) S -> moment_transform n S ps w u fwd bwd -> length ps = n -> length w = n -> length u = D -> length f = n ->
  has_conserved_modes D ps ->
  exists f', collide fwd bwd (repeat 1 n) (equilibrium_values ps g) (rzero n) f = Ok f' /\ bwd (equilibrium_values ps g) = Ok f' /\ length f' = n /\
    density f' S + density w S = g (zero_exponents D) /\
    forall a, (a < D)%nat -> momentum f' S a + momentum w S a = g (unit_exponents D a) + nth a u 0 * g (zero_exponents D).
Proof.
  intros Hdim HT Lp Lw Lu Lf [Hz Hm].
  destruct (srt_collide n S ps w u fwd bwd HT Lp Lw 1 (equilibrium_values ps g) f) as (f' & E1 & E2 & E3); [now rewrite values_length|auto|].
  rewrite (mix_one n) in E3 by auto. exists f'. split; [auto|]. split; [auto|]. split; [auto|].
  destruct HT as (_ & HB & _). destruct (HB (equilibrium_values ps g)) as (f1 & F1 & F2 & F3); [now rewrite values_length|]. rewrite E1 in F1. injection F1 as <-.
  assert (V : forall e, In [(1, e)] ps -> central_moment (radd f' w) S u e = g e).
  { intros e He. apply In_nth_error in He as [i Hi]. pose proof (f_equal (fun l => nth i l 0) F3) as E. cbn beta in E.
    rewrite (nth_error_nth _ _ _ (map_nth_error (poly_moment (radd f' w) S u) _ _ Hi)), (nth_values _ _ _ _ Hi) in E.
    change [(1, e)] with (mono_poly e) in E. now rewrite poly_moment_mono, poly_value_mono in E. }
  pose proof (V _ Hz) as V0. change (zero_exponents D) with (zero_tuple D) in V0. rewrite central_zero in V0.
  assert (DD : density f' S + density w S = g (zero_tuple D)). { rewrite <- V0. unfold density. rewrite fsum_radd by congruence. reflexivity. }
  split; [exact DD|]. intros a Ha. pose proof (V _ (Hm a Ha)) as V1. change (unit_exponents D a) with (unit_tuple D a) in *. rewrite (central_unit D) in V1 by auto. rewrite V0 in V1.
  unfold momentum in *. rewrite fsum_radd in V1 by congruence. change (zero_exponents D) with (zero_tuple D). lra.
Qed.
Lemma shift_length D compr rho force : force_of_dim D force -> length (macroscopic_velocity_shift compr rho force D) = D.
Proof. intros H. unfold macroscopic_velocity_shift. destruct force as [[fm F]|]; [unfold default_velocity_shift; rewrite map_length; eapply H; eauto|apply rzero_length]. Qed.
Lemma nth_shift D compr rho force a : force_of_dim D force -> (a < D)%nat -> reference_density compr rho <> 0 ->
  reference_density compr rho * nth a (macroscopic_velocity_shift compr rho force D) 0 = half_force force a.
Proof.
  intros H Ha Hr. unfold macroscopic_velocity_shift, half_force. destruct force as [[fm F]|]; [|rewrite nth_rzero; lra]. unfold default_velocity_shift.
  rewrite (nth_indep _ 0 (0 / (2 * reference_density compr rho))) by (rewrite map_length, (H _ _ eq_refl); auto).
  rewrite (map_nth (fun x => x / (2 * reference_density compr rho)) F 0). field; auto.
Qed.
Lemma init_velocity_length D compr rho u force : length u = D -> force_of_dim D force -> length (init_velocity D compr rho u force) = D.
Proof. intros Hu H. unfold init_velocity. rewrite map_length, combine_length, shift_length, firstn_length by auto. lia. Qed.
Lemma init_velocity_nth D compr rho u force a : length u = D -> force_of_dim D force -> (a < D)%nat ->
  nth a (init_velocity D compr rho u force) 0 = nth a u 0 - nth a (macroscopic_velocity_shift compr rho force D) 0.
Proof. intros Hu H Ha. unfold init_velocity. rewrite firstn_all2 by lia. change (map _ (combine u ?s)) with (rsub u s). apply nth_rsub. rewrite shift_length; auto. Qed.

Definition one_if (b : bool) : R := if b then 1 else 0.
Lemma moment_setter_state D n (S : stencil) ps zc dev compr eqm w fwd bwd force rho u f :
  Forall (fun c => length c = D) S -> length S = n -> moment_transform n S ps w (rzero D) fwd bwd -> length ps = n -> storage_background D n S zc dev w ->
  has_conserved_modes D ps -> hydro_moments D compr dev eqm -> (dev = true -> zc = true) -> length f = n -> length u = D -> force_of_dim D force ->
  (compr = true -> rho <> 0) ->
  exists f', moment_setter D S ps compr eqm fwd bwd force rho u f = Ok f' /\ bwd (equilibrium_values ps (eqm rho (init_velocity D compr rho u force))) = Ok f' /\ length f' = n /\ has_state D S zc compr force f' rho u.
Proof.
  intros Hdim Hq HT Lp (Lw & Dw & Mw) Hmodes He Hdz Lf Lu HF Hr. unfold moment_setter. cbn zeta. rewrite Hq. set (v := init_velocity D compr rho u force).
  assert (Lv : length v = D) by now apply init_velocity_length. destruct (He rho v Lv) as [H0 H1].
  destruct (set_state D n S ps w (rzero D) fwd bwd (eqm rho v) f) as (f' & E1 & E2 & E3 & E4 & E5); auto; [apply rzero_length|].
  exists f'. split; [auto|]. split; [auto|]. split; [auto|]. split.
  - unfold physical_density. rewrite H0, Dw in E4. destruct zc, dev; cbn in *; first [lra|now specialize (Hdz eq_refl)].
  - intros a Ha. specialize (E5 a Ha). rewrite nth_rzero, Mw, H1 in E5 by auto. unfold v in E5. rewrite init_velocity_nth in E5 by auto.
    assert (HR : reference_density compr rho <> 0) by now apply reference_nonzero. pose proof (nth_shift D compr rho force a HF Ha HR) as N. unfold reference_density in N. lra.
Qed.
Lemma central_setter_state D n (S : stencil) ps zc dev compr eqc w fwd bwd force rho u f :
  Forall (fun c => length c = D) S -> length S = n -> (forall v, length v = D -> moment_transform n S ps w v (fwd v) (bwd v)) -> length ps = n -> storage_background D n S zc dev w ->
  has_conserved_modes D ps -> hydro_central_moments D compr dev eqc -> (dev = true -> zc = true) -> length f = n -> length u = D -> force_of_dim D force ->
  (compr = true -> rho <> 0) ->
  let v := init_velocity D compr rho u force in
  exists f', central_setter D S ps compr eqc fwd bwd force rho u f = Ok f' /\ bwd v (equilibrium_values ps (eqc rho v)) = Ok f' /\ length f' = n /\ has_state D S zc compr force f' rho u.
Proof.
  intros Hdim Hq HT Lp (Lw & Dw & Mw) Hmodes He Hdz Lf Lu HF Hr v. unfold central_setter. cbn zeta. rewrite Hq. fold v.
  assert (Lv : length v = D) by now apply init_velocity_length. destruct (He rho v Lv) as [H0 H1].
  destruct (set_state D n S ps w v (fwd v) (bwd v) (eqc rho v) f) as (f' & E1 & E2 & E3 & E4 & E5); auto.
  exists f'. split; [auto|]. split; [auto|]. split; [auto|]. split.
  - unfold physical_density. rewrite H0, Dw in E4. destruct zc, dev; cbn in *; first [lra|now specialize (Hdz eq_refl)].
  - intros a Ha. specialize (E5 a Ha). rewrite Mw, H1, H0 in E5 by auto. unfold v in E5. rewrite init_velocity_nth in E5 by auto.
    assert (HR : reference_density compr rho <> 0) by now apply reference_nonzero. pose proof (nth_shift D compr rho force a HF Ha HR) as N. unfold reference_density in N. lra.
Qed.
Lemma population_setter_is D n (S : stencil) ps zc dev compr eqm Minv force rho u f : let M := moment_matrix ps S (rzero D) in
  length S = n -> length ps = n -> is_inverse n M Minv -> length f = n -> zc && negb dev = false ->
  population_setter D S ps zc dev compr eqm M Minv force rho u f = moment_setter D S ps compr eqm (fun f => Ok (mv M f)) (fun m => Ok (mv Minv m)) force rho u f.
Proof.
  intros M Hq Lp HM Lf Hz. unfold population_setter, moment_setter. rewrite Hz. cbn zeta. pose proof HM as (W1 & W2 & H1 & H2).
  assert (LM : forall x, length (mv M x) = n) by (intros; rewrite mv_length; apply W1).
  unfold collide, relax. cbn [rbind]. f_equal. set (eqs := equilibrium_values ps _). assert (Le : length eqs = n) by (unfold eqs; now rewrite values_length). rewrite Hq.
  set (X := rmul (repeat 1 n) (rsub eqs (mv M f))). assert (LX : length X = n) by (unfold X; rewrite rmul_length, rsub_length, repeat_length, LM; lia).
  replace (radd (radd (mv M f) X) (rzero n)) with (radd (mv M f) X). 2:{ assert (E : n = length (radd (mv M f) X)) by (rewrite radd_length, LM; lia). rewrite E at 1. now rewrite radd_zero_r. }
  rewrite mv_radd by (rewrite LM; lia). now rewrite H2.
Qed.

Lemma cumulant_setter_state D n (S : stencil) ps zc dev w cexps cms P Pinv eqC fwd bwd force rho u f :
  Forall (fun c => length c = D) S -> length S = n -> length cms = n -> NoDup cms -> NoDup cexps -> Forall (fun p : poly => NoDup (map snd p)) ps -> mono_to_poly cexps ps = Ok P ->
  is_inverse (length cexps) P Pinv -> has_conserved_modes D ps -> In (zero_exponents D) cms -> (forall a, (a < D)%nat -> In (unit_exponents D a) cms) ->
  (forall v, length v = D -> moment_transform n S (map mono_poly cms) w v (fwd v) (bwd v)) -> storage_background D n S zc false w -> hydro_cumulants D eqC ->
  zc && dev = false -> length f = n -> length u = D -> force_of_dim D force -> 0 < rho ->
  let v := init_velocity D true rho u force in
  exists f', cumulant_setter D S ps zc dev true cexps cms P Pinv eqC fwd bwd force rho u f = Ok f' /\
    bwd v (cumulant_backward D v rho cexps Pinv (equilibrium_values ps (eqC rho v)) cms) = Ok f' /\ length f' = n /\ has_state D S zc true force f' rho u.
Proof.
  intros Hdim Hq Lc Hc1 Hexps Hpnd HP HPinv [Mz Mu] Cz Cu HT (Lw & Dw & Mw) He Hz Lf Lu HF Hr v. unfold cumulant_setter. rewrite Hz. cbn zeta. fold v.
  assert (Lv : length v = D) by now apply init_velocity_length. destruct (HT v Lv) as (T1 & T2 & _). rewrite T1 by auto. cbn [rbind].
  set (m := length cexps) in *.
  assert (Lp : length ps = m). { destruct (mono_to_poly_spec cexps ps P (fun _ => 0) Hexps Hpnd HP) as [[L _] _]. destruct HPinv as ([L' _] & _). congruence. }
  set (C := cumulant_forward D v rho cexps P _). assert (LC : length C = m) by (unfold C, cumulant_forward; rewrite mv_length; apply HPinv).
  set (Cp := equilibrium_values ps (eqC rho v)) in *. assert (LCp : length Cp = m) by (unfold Cp; now rewrite values_length).
  assert (ER : relax (repeat 1 m) Cp C = Cp).
  { unfold relax. rewrite rmul_repeat by (rewrite rsub_length; lia). change (mix 1 Cp C = Cp). now apply (mix_one m). }
  rewrite ER. clear ER. set (c := lookup cexps (mv Pinv Cp)).
  assert (PV : forall e, In [(1, e)] ps -> c e = eqC rho v e).
  { intros e Hin. apply In_nth_error in Hin as [i Hi]. destruct HPinv as (W1 & W2 & H1 & H2). assert (LP : length (mv Pinv Cp) = m) by (rewrite mv_length; apply W2).
    destruct (mono_to_poly_spec cexps ps P c Hexps Hpnd HP) as [_ E]. change (map c cexps) with (map (lookup cexps (mv Pinv Cp)) cexps) in E. rewrite (map_lookup cexps (mv Pinv Cp) Hexps LP), (H1 Cp LCp) in E.
    apply (f_equal (fun l => nth i l 0)) in E. unfold Cp in E. rewrite (nth_values _ _ _ _ Hi) in E. change (map (fun p => _) ps) with (equilibrium_values ps c) in E. rewrite (nth_values _ _ _ _ Hi) in E. change [(1, e)] with (mono_poly e) in E. rewrite !poly_value_mono in E. congruence. }
  destruct (He rho v Lv Hr) as [Q0 Q1]. assert (LD : (length v <= D)%nat) by lia.
  unfold cumulant_backward. fold c. destruct (T2 (map (central_moment_from_cumulants D v rho c) cms)) as (f' & E1 & E2 & E3); [now rewrite map_length|].
  exists f'. split; [exact E1|]. split; [exact E1|]. split; [exact E2|].
  assert (X : forall e, In e cms -> central_moment (radd f' w) S v e = central_moment_from_cumulants D v rho c e).
  { intros e Hin. apply In_nth_error in Hin as [i Hi]. rewrite map_map in E3. apply (f_equal (fun l => nth i l 0)) in E3.
    rewrite (nth_error_nth _ _ _ (map_nth_error (fun x => poly_moment (radd f' w) S v (mono_poly x)) _ _ Hi)), (nth_error_nth _ _ _ (map_nth_error (central_moment_from_cumulants D v rho c) _ _ Hi)), poly_moment_mono in E3. exact E3. }
  assert (Hr' : rho <> 0) by lra.
  assert (EX : exp (c (zero_tuple D) / rho) = rho). { change (zero_tuple D) with (zero_exponents D). rewrite (PV _ Mz), Q0. replace (rho * ln rho / rho) with (ln rho) by (field; auto). now apply exp_ln. }
  assert (D' : density (radd f' w) S = rho). { rewrite <- (central_zero _ S v D). etransitivity; [exact (X _ Cz)|]. change (zero_exponents D) with (zero_tuple D). rewrite moment_zero, EX by auto. reflexivity. }
  assert (D'' : density f' S + density w S = rho). { rewrite <- D'. unfold density. rewrite fsum_radd by congruence. reflexivity. }
  split; [unfold physical_density; rewrite Dw in D''; destruct zc; cbn in *; lra|].
  intros a Ha. specialize (X _ (Cu a Ha)). change (unit_exponents D a) with (unit_tuple D a) in X. rewrite (central_unit D), moment_unit, EX, D' in X by auto.
  change (unit_tuple D a) with (unit_exponents D a) in X. rewrite (PV _ (Mu a Ha)), (Q1 a Ha) in X. replace (rho * (rho * nth a v 0 / rho - nth a v 0)) with 0 in X by (field; auto).
  specialize (Mw a Ha). unfold momentum in *. rewrite fsum_radd, Mw in X by congruence. unfold v in X. rewrite init_velocity_nth in X by auto.
  pose proof (nth_shift D true rho force a HF Ha Hr') as N. cbn [reference_density] in N. lra.
Qed.

(* ---- getter ---- *)
Lemma getter_density zc S f : length f = length S -> output_density zc f = physical_density zc S f.
Proof. intros L. unfold output_density, pdf_density, physical_density. rewrite (density_rsum S f L). destruct zc; lra. Qed.
Lemma getter_deviation zc S f : length f = length S -> output_density_deviation zc f = physical_density zc S f - 1.
Proof. intros L. unfold output_density_deviation, physical_density. rewrite (density_rsum S f L). destruct zc; lra. Qed.
Lemma getter_velocity D S zc compr force f : length f = length S -> force_of_dim D force -> reference_density compr (physical_density zc S f) <> 0 ->
  length (output_velocity D S zc compr force f) = D /\
  forall a, (a < D)%nat -> nth a (output_velocity D S zc compr force f) 0 = (momentum f S a + half_force force a) / reference_density compr (physical_density zc S f).
Proof.
  intros L HF Hr. rewrite <- (getter_density zc S f L) in *. unfold output_density in *. unfold output_velocity. cbn zeta. set (rho := pdf_density zc f) in *.
  assert (LS := shift_length D compr rho force HF). split; [rewrite map_length, combine_length, map_length, seq_length, LS; lia|].
  intros a Ha. change (map _ (combine ?x ?s)) with (radd x s). rewrite nth_radd by (rewrite map_length, seq_length; auto). rewrite nth_map_seq by auto.
  pose proof (nth_shift D compr rho force a HF Ha Hr) as N. rewrite <- N, momentum_pdf. field. auto.
Qed.
Lemma getter_momentum D S force f a : force_of_dim D force -> (a < D)%nat -> nth a (output_momentum_density D S force f) 0 = momentum f S a + half_force force a.
Proof.
  intros HF Ha. unfold output_momentum_density. change (map _ (combine ?x ?s)) with (radd x s).
  assert (LS : length (match force with None => rzero D | Some (_, F) => map (fun x => x / 2) F end) = D) by (destruct force as [[fm F]|]; [rewrite map_length; eapply HF; eauto|apply rzero_length]).
  rewrite nth_radd by (rewrite map_length, seq_length; auto). rewrite nth_map_seq, momentum_pdf by auto. f_equal. unfold half_force. destruct force as [[fm F]|]; [|apply nth_rzero].
  rewrite (nth_indep _ 0 (0 / 2)) by congruence. now rewrite (map_nth (fun x => x / 2)).
Qed.
Lemma getter_second D S ws zc f i j : length f = length S -> isotropic_weights D S ws -> (i < D)%nat -> (j < D)%nat ->
  output_second_moment zc (1 / 3) S f i j = second_moment f S i j + (if zc then second_moment ws S i j else 0).
Proof.
  intros L (Lw & _ & _ & H2 & _) Hi Hj. unfold output_second_moment. rewrite H2 by auto. unfold delta. f_equal. destruct zc; cbn [andb]; [|reflexivity].
  destruct (Nat.eqb i j); lra.
Qed.
Lemma round_trip D S zc compr force f rho u : length f = length S -> length u = D -> force_of_dim D force -> (compr = true -> rho <> 0) -> has_state D S zc compr force f rho u ->
  output_density zc f = rho /\ output_density_deviation zc f = rho - 1 /\ output_velocity D S zc compr force f = u /\
  output_momentum_density D S force f = rscal (if compr then rho else 1) u.
Proof.
  intros L Lu HF Hr [H0 H1]. assert (HR : reference_density compr rho <> 0) by now apply reference_nonzero.
  destruct (getter_velocity D S zc compr force f L HF) as [LV V]; [now rewrite H0|].
  split; [now rewrite (getter_density zc S f L)|]. split; [now rewrite (getter_deviation zc S f L), H0|]. split.
  - apply list_ext; [congruence|]. intros a Ha. rewrite V by lia. rewrite H1, H0 by lia. unfold reference_density in *. field. auto.
  - apply list_ext.
    + unfold output_momentum_density. rewrite map_length, combine_length, map_length, seq_length, rscal_length. destruct force as [[fm F]|]; [rewrite map_length, (HF _ _ eq_refl)|rewrite rzero_length]; lia.
    + intros a Ha. assert (Ha' : (a < D)%nat). { unfold output_momentum_density in Ha. rewrite map_length, combine_length, map_length, seq_length in Ha. lia. }
      rewrite (getter_momentum D) by auto. rewrite nth_rscal. now apply H1.
Qed.

(* ---- the shared velocity sums ---- *)
Lemma plus_terms_one (S : stencil) i q : In q (plus_terms S i) -> nth i (nth q S []) 0%Z = 1%Z.
Proof.
  unfold plus_terms. cbn zeta. destruct (_ <=? 1)%nat; [intros []|]. intros H. apply in_map_iff in H. destruct H as ([k c] & <- & H).
  apply filter_In in H. destruct H as [H E]. cbn [snd fst] in *. apply Z.eqb_eq in E. unfold enum in H.
  apply (In_nth _ _ (0%nat, [])) in H. destruct H as (n & Hn & H). rewrite combine_length, seq_length, Nat.min_id in Hn.
  rewrite combine_nth in H by (now rewrite seq_length). injection H as H1 H2. rewrite seq_nth in H1 by exact Hn. cbn in H1. subst k. subst c. exact E.
Qed.
Lemma shared_sums (S : stencil) i r : nth_error (velo_subexpressions S) i = Some r ->
  NoDup r /\ (forall q, In q r -> nth i (nth q S []) 0%Z = 1%Z) /\
  forall j r' q, nth_error (velo_subexpressions S) j = Some r' -> i <> j -> In q r -> ~ In q r'.
Proof.
  assert (E : forall i r, nth_error (velo_subexpressions S) i = Some r -> r = velo_rhs S i).
  { clear. intros i r. unfold velo_subexpressions. cbn zeta. destruct (existsb _ _); [destruct i; discriminate|]. intros H.
    rewrite nth_error_map in H. destruct (nth_error (seq 0 (dimD S)) i) as [k|] eqn:E; [|discriminate]. injection H as <-.
    assert (Hi : (i < dimD S)%nat). { rewrite <- (seq_length (dimD S) 0). apply nth_error_Some. congruence. }
    apply (nth_error_nth _ _ 0%nat) in E. rewrite seq_nth in E by exact Hi. cbn in E. now subst. }
  intros H. apply E in H. subst r. split; [apply velo_rhs_NoDup|]. split.
  - intros q Hq. apply filter_In in Hq. now apply plus_terms_one.
  - assert (D : forall i j q, (i < j)%nat -> In q (velo_rhs S i) -> ~ In q (velo_rhs S j)).
    { clear. intros i j q L H1 H2. apply filter_In in H1, H2. destruct H1 as [H1 _], H2 as [_ H2]. apply negb_true_iff in H2.
      assert (existsb (fun j0 => mem_nat q (plus_terms S j0)) (seq 0 j) = true); [|congruence]. apply existsb_exists. exists i. split; [apply in_seq; lia|].
      apply existsb_exists. exists q. split; [exact H1|apply Nat.eqb_refl]. }
    intros j r' q Hj Hij Hq Hq'. apply E in Hj. subst r'. destruct (Nat.lt_gt_cases i j) as [[L|L] _]; [exact Hij|eapply D; eauto..].
Qed.
