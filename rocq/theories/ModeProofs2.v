From Coq Require Import String List ZArith QArith Qreals Reals Lra Lia Bool Arith Permutation.
From Verif Require Import StencilModel StencilProofs RealLib LinLib LinQ TransSpec MomModel EqModel ModeModel ModeSpec ModeProofs.
Import ListNotations.
Local Open Scope R_scope.

Definition the_weights (S : stencil) (weights : option (list Q)) : list Q := match weights with None => repeat 1%Q (sizeQ S) | Some w => w end.
Lemma pairwise_nth w S ps : pairwise w S ps -> orthogonal w S ps.
Proof.
  intros H. induction H as [|p ps Hp Hps IH]; intros i j Hi Hj Hij; [cbn in Hi; lia|].
  rewrite Forall_forall in Hp. destruct i as [|i], j as [|j]; cbn [nth]; cbn [length] in *.
  - lia.
  - apply Hp. apply nth_In. lia.
  - rewrite inner_comm. apply Hp, nth_In. lia.
  - apply IH; lia.
Qed.
Lemma gs_split ms S weights out : gram_schmidt ms S weights = Ok out ->
  length (the_weights S weights) = sizeQ S /\ ms <> [] /\ gs_outer (the_weights S weights) S [] ms = Ok out.
Proof.
  unfold gram_schmidt. fold (the_weights S weights). destruct (Nat.eqb_spec (length (the_weights S weights)) (sizeQ S)) as [E|E]; cbn [negb]; [|discriminate].
  destruct ms; [discriminate|]. intros H. split; [auto|]. split; [congruence|exact H].
Qed.
Lemma gram_schmidt_sound ms S weights out : gram_schmidt ms S weights = Ok out ->
  length out = length ms /\ orthogonal (the_weights S weights) S out /\
  (forall k, same_span (firstn k out) (firstn k ms)) /\
  (forall k, (k < length ms)%nat -> exists c, length c = k /\ forall x, ev (nth k out []) x = ev (nth k ms []) x - lin c (firstn k out) x).
Proof.
  intros H. apply gs_split in H. destruct H as (_ & _ & H). destruct (gs_outer_ok _ _ _ [] out (Forall_nil _) (FOP_nil _) H) as (new & E & HT & HP & _).
  cbn [map app] in E, HT. subst out. pose proof (triangular_length _ _ _ HT) as L. split; [exact L|]. split; [now apply pairwise_nth|]. split.
  - intros k. pose proof (triangular_span new ms [] [] HT ltac:(constructor) ltac:(constructor) k) as [H1 H2]. cbn [app] in H1, H2.
    rewrite Forall_forall in H1, H2. split; intros p Hp; [apply (H1 p Hp)|apply (H2 p Hp)].
  - assert (G : forall new ms P, triangular P new ms -> forall k, (k < length ms)%nat ->
       exists c, length c = length (P ++ firstn k new) /\ forall x, ev (nth k new []) x = ev (nth k ms []) x - lin c (P ++ firstn k new) x).
    { clear. induction new as [|q new IH]; intros [|m ms] P HT k Hk; try contradiction; [cbn in Hk; lia|]. destruct HT as [H1 H2].
      destruct k as [|k]; cbn [nth firstn]; [rewrite app_nil_r; exact H1|]. cbn in Hk. specialize (IH ms _ H2 k ltac:(lia)). rewrite <- app_assoc in IH. exact IH. }
    intros k Hk. destruct (G new ms [] HT k Hk) as (c & Lc & Hc). exists c. cbn [app] in *. rewrite firstn_length in Lc. split; [lia|exact Hc].
Qed.
Lemma removelast_firstn_len {A} (l : list A) : removelast l = firstn (pred (length l)) l.
Proof. apply removelast_firstn_len. Qed.
Lemma triangular_removelast P new ms : triangular P new ms -> triangular P (removelast new) (removelast ms).
Proof.
  intros H. destruct ms as [|m0 ms0] eqn:Em.
  - destruct new; [exact I|contradiction].
  - rewrite <- Em in *. destruct (exists_last (l := ms)) as (ms1 & m & E); [subst; discriminate|]. pose proof (triangular_length _ _ _ H) as L.
    destruct (exists_last (l := new)) as (n1 & q & E'); [intros ->; rewrite E in L; rewrite app_length in L; cbn in L; lia|].
    rewrite E, E' in *. rewrite !removelast_last. rewrite !app_length in L. cbn in L. apply triangular_snoc in H; [tauto|lia].
Qed.
Lemma pairwise_removelast w S ps : pairwise w S ps -> pairwise w S (removelast ps).
Proof.
  intros H. destruct ps as [|p ps]; [constructor|]. destruct (exists_last (l := p :: ps)) as (a & b & E); [discriminate|]. rewrite E in *. rewrite removelast_last. now apply fop_snoc in H.
Qed.
Lemma gram_schmidt_accepts ms S weights : length (the_weights S weights) = sizeQ S -> ms <> [] ->
  Forall (fun a => 0 < Q2R a) (the_weights S weights) ->
  ((exists out, gram_schmidt ms S weights = Ok out) <-> independent_on S (removelast ms)) /\
  (~ independent_on S (removelast ms) -> gram_schmidt ms S weights = Err ValueError).
Proof.
  intros Lw Hne Hw. set (w := the_weights S weights) in *.
  assert (E : gram_schmidt ms S weights = gs_outer w S [] ms).
  { unfold gram_schmidt. fold (the_weights S weights). fold w. rewrite Lw, Nat.eqb_refl. cbn [negb]. destruct ms; [congruence|reflexivity]. }
  rewrite E.
  assert (Fwd : forall out, gs_outer w S [] ms = Ok out -> independent_on S (removelast ms)).
  { intros out H. destruct (gs_outer_ok _ _ _ [] out (Forall_nil _) (FOP_nil _) H) as (new & E' & HT & HP & HN). cbn [map app] in *. subst out.
    apply (ortho_independent w S _ (removelast new)); [now apply triangular_removelast|now apply pairwise_removelast|]. now apply HN. }
  assert (Bwd : forall e, gs_outer w S [] ms = Err e -> e = ValueError /\ ~ independent_on S (removelast ms)).
  { intros e H. destruct (gs_outer_err w S ms [] [] [] e (Forall_nil _) (FOP_nil _) eq_refl I H) as (-> & new & ms1 & q & m & HT & L & Hz & rest & Hm & Hr).
    split; [reflexivity|]. intros HI. cbn [app] in Hm.
    rewrite (inner_pos w S q Lw Hw) in Hz. apply triangular_snoc in HT; [|exact L]. cbn [app] in HT. destruct HT as [HT (c & Lc & Hc)].
    pose proof (triangular_span new ms1 [] [] HT ltac:(constructor) ltac:(constructor) (length ms1)) as [Hsp _]. cbn [app] in Hsp.
    rewrite firstn_all in Hsp. rewrite <- L, firstn_all in Hsp.
    destruct (spanf_lin c new ms1 Lc Hsp) as (t & Lt & Ht).
    assert (Er : removelast ms = ms1 ++ m :: removelast rest).
    { rewrite Hm, removelast_app by discriminate. destruct rest; [congruence|reflexivity]. }
    rewrite Er in HI. specialize (HI (rscal (-1) t ++ 1 :: rzero (length (removelast rest)))).
    assert (F : Forall (fun a => a = 0) (rscal (-1) t ++ 1 :: rzero (length (removelast rest)))).
    { apply HI. - rewrite !app_length, rscal_length. cbn [length]. rewrite rzero_length. lia.
      - intros d Hd. rewrite lin_app by (rewrite rscal_length; exact Lt). rewrite lin_cons, lin_scal, lin_zero, <- Ht. specialize (Hc (vecR d)). specialize (Hz d Hd). lra. }
    apply Forall_app in F. destruct F as [_ F]. inversion F; subst. lra. }
  split; [split|].
  - intros (out & H). eapply Fwd; eauto.
  - intros HI. destruct (gs_outer w S [] ms) as [out|e] eqn:G; [eauto|]. destruct (Bwd e eq_refl). contradiction.
  - intros HI. destruct (gs_outer w S [] ms) as [out|e] eqn:G; [exfalso; apply HI; eauto|]. now destruct (Bwd e eq_refl) as [-> _].
Qed.
Lemma gram_schmidt_errors ms S w :
  (length w <> sizeQ S -> gram_schmidt ms S (Some w) = Err AssertionError) /\
  (length w = sizeQ S -> gram_schmidt [] S (Some w) = Err IndexError) /\ gram_schmidt [] S None = Err IndexError.
Proof.
  unfold gram_schmidt. split; [|split].
  - intros H. apply Nat.eqb_neq in H. now rewrite H.
  - intros H. now rewrite H, Nat.eqb_refl.
  - now rewrite repeat_length, Nat.eqb_refl.
Qed.
Lemma repeat_pos n : Forall (fun a => 0 < Q2R a) (repeat 1%Q n).
Proof. induction n; constructor; auto. rewrite RMicromega.Q2R_1. lra. Qed.

(* ---- expanding expressions ---- *)
Fixpoint denote (e : expr) (x : list R) : R :=
  match e with
  | Num q => Q2R q
  | Sym i => nth i x 1
  | Plus a b => denote a x + denote b x
  | Times a b => denote a x * denote b x
  | Power a n => denote a x ^ n
  end.
Fixpoint symbols_ok (e : expr) : Prop :=
  match e with Num _ => True | Sym i => (i < 3)%nat | Plus a b | Times a b => symbols_ok a /\ symbols_ok b | Power a _ => symbols_ok a end.
Definition three (p : qpoly) : Prop := Forall (fun t => length (snd t) = 3%nat) p.
Lemma three_insert t p : length (snd t) = 3%nat -> three p -> three (insert_term t p).
Proof.
  intros Ht. induction p as [|t' p IH]; intros H; cbn [insert_term]; cbv zeta; [destruct (Qeq_bool _ _); repeat constructor; auto|].
  inversion H; subst. repeat (match goal with |- context [if ?b then _ else _] => destruct b end); auto; try (constructor; auto). now apply IH.
Qed.
Lemma three_add p q : three p -> three q -> three (qp_add p q).
Proof. intros Hp Hq. induction Hp; cbn; auto. apply three_insert; auto. Qed.
Lemma three_canon p : three p -> three (qp_canon p). Proof. intros H. apply three_add; [exact H|constructor]. Qed.
Lemma three_mul p q : three p -> three q -> three (qp_mul p q).
Proof.
  intros Hp Hq. apply three_canon. apply Forall_flat_map. eapply Forall_impl; [|exact Hp]. intros t Ht. apply Forall_map.
  eapply Forall_impl; [|exact Hq]. intros t' Ht'. cbn [snd]. unfold tuple_add. rewrite map_length, combine_length, Ht, Ht'. reflexivity.
Qed.
Lemma three_expand e : three (expand e).
Proof.
  induction e; cbn [expand].
  - apply three_canon. repeat constructor. - repeat constructor.
  - now apply three_add. - now apply three_mul.
  - induction n as [|n IH]; cbn [qp_pow]; [repeat constructor|now apply three_mul].
Qed.
Lemma rmono_add a b x : length a = length b -> rmono x (tuple_add a b) = rmono x a * rmono x b.
Proof.
  unfold tuple_add. revert b x; induction a as [|n a IH]; intros [|m b] [|y x] H; try discriminate; cbn [combine map rmono]; try lra.
  rewrite IH by (cbn in H; lia). cbn [fst snd]. rewrite pow_add. ring.
Qed.
Lemma ev_mul p q x : three p -> three q -> ev (qp_mul p q) x = ev p x * ev q x.
Proof.
  intros Hp Hq. unfold qp_mul. rewrite ev_canon. induction Hp as [|t p Ht Hp IH]; [cbn [flat_map]; rewrite ev_nil; lra|].
  cbn [flat_map]. rewrite ev_app, IH, ev_cons. rewrite Rmult_plus_distr_r. f_equal.
  clear IH. induction Hq as [|t' q Ht' Hq IH]; [cbn [map]; rewrite ev_nil; lra|]. cbn [map]. rewrite !ev_cons, IH. cbn [fst snd].
  rewrite Qred_R, Q2R_mult, rmono_add by congruence. ring.
Qed.
Lemma ev_expand e x : symbols_ok e -> ev (expand e) x = denote e x.
Proof.
  induction e as [q|i|a IHa b IHb|a IHa b IHb|a IHa n]; cbn [symbols_ok expand denote]; intros H.
  - rewrite ev_canon, ev_cons, ev_nil. cbn [fst snd]. destruct x as [|a [|b [|c [|d x]]]]; cbn [rmono pow]; lra.
  - rewrite ev_cons, ev_nil. cbn [fst snd]. rewrite RMicromega.Q2R_1. destruct i as [|[|[|i]]]; [| | |lia]; destruct x as [|a [|b [|c x]]]; cbn [unit_tuple seq map Nat.eqb rmono pow nth]; try (destruct x); cbn [unit_tuple seq map Nat.eqb rmono pow nth]; lra.
  - rewrite ev_add, IHa, IHb by tauto. reflexivity.
  - rewrite ev_mul, IHa, IHb by (tauto || apply three_expand). reflexivity.
  - induction n as [|n IH]; cbn [qp_pow pow].
    + rewrite ev_cons, ev_nil. cbn [fst snd]. rewrite RMicromega.Q2R_1. destruct x as [|y [|z [|c [|d x]]]]; cbn [rmono pow]; lra.
    + rewrite ev_mul, IH, IHa; auto; [apply three_expand|]. clear. induction n as [|n IH]; cbn [qp_pow]; [repeat constructor|]. apply three_mul; auto. apply three_expand.
Qed.

(* ---- bases ---- *)
Lemma poly_moment_dot f S p : Forall (fun c => length c = dimD S) S -> length f = length S ->
  poly_moment f S (rzero (dimD S)) (toR p) = dot (map (fun c => ev p (vecR c)) S) f.
Proof.
  intros HD. unfold poly_moment, dot. generalize dependent f. set (D := dimD S) in *. clearbody D.
  induction S as [|c S IH]; intros [|a f] L; try discriminate; [reflexivity|]. inversion HD; subst.
  cbn [combine map]. rewrite !rsum_cons. cbn [fst snd]. rewrite IH by (cbn in *; auto; lia). f_equal.
  rewrite rsub_zero_r' by (unfold vecR; now rewrite map_length). ring.
Qed.
Lemma qmatrix_R S ps : q2r (qmoment_matrix ps S) = map (fun p => map (fun c => ev p (vecR c)) S) ps.
Proof. unfold q2r, qmoment_matrix. rewrite map_map. apply map_ext. intros p. apply row_represents. Qed.
Lemma basis_of_inverse S ps B : Forall (fun c => length c = dimD S) S ->
  qinverse_check (length S) (qmoment_matrix ps S) B = true -> moment_basis S ps.
Proof.
  intros HD H. apply qinverse_check_R in H. destruct H as ([HA1 HA2] & HB & H1 & H2).
  rewrite qmatrix_R in *. rewrite map_length in HA1. split; [exact HA1|]. intros m Lm.
  assert (E : forall f, length f = length S -> map (fun p => poly_moment f S (rzero (dimD S)) (toR p)) ps = mv (map (fun p => map (fun c => ev p (vecR c)) S) ps) f).
  { intros f Lf. unfold mv. rewrite map_map. apply map_ext. intros p. now apply poly_moment_dot. }
  exists (mv (q2r B) m). split.
  - split; [rewrite mv_length; apply HB|]. rewrite E by (rewrite mv_length; apply HB). now apply H1.
  - intros f [Lf Hf]. rewrite E in Hf by exact Lf. rewrite <- Hf. now apply H2.
Qed.
(* reordering the directions *)
Fixpoint lookup (S : stencil) (f : list R) (d : vec) : R :=
  match S, f with c :: T, a :: f => if vec_eq_dec c d then a else lookup T f d | _, _ => 0 end.
Lemma lookup_map S f : NoDup S -> length f = length S -> map (lookup S f) S = f.
Proof.
  revert f; induction S as [|c S IH]; intros [|a f] HN L; try discriminate; [reflexivity|]. inversion HN; subst. cbn [map lookup].
  destruct (vec_eq_dec c c); [|congruence]. f_equal. apply (eq_trans (y := map (lookup S f) S)); [|apply IH; auto; cbn in L; lia]. apply map_ext_in. intros d Hd.
  destruct (vec_eq_dec c d); [congruence|reflexivity].
Qed.
Lemma poly_moment_map g S u p : poly_moment (map g S) S u p = rsum (map (fun c => g c * peval p (rsub (vecR c) u)) S).
Proof. unfold poly_moment. induction S as [|c S IH]; [reflexivity|]. cbn [map combine]. rewrite !rsum_cons, IH. reflexivity. Qed.
Lemma basis_perm S S' ps : NoDup S -> Permutation S S' -> dimD S' = dimD S -> moment_basis S ps -> moment_basis S' ps.
Proof.
  intros HN HP HD [L H]. pose proof (Permutation_NoDup HP HN) as HN'. pose proof (Permutation_length HP) as LL. split; [lia|].
  intros m Lm. rewrite HD. rewrite <- LL in *. destruct (H m Lm) as (f & [Lf Hf] & U).
  assert (T : forall S1 S2 g p, Permutation S1 S2 -> poly_moment (map g S1) S1 (rzero (dimD S)) p = poly_moment (map g S2) S2 (rzero (dimD S)) p).
  { intros. rewrite !poly_moment_map. apply rsum_perm, Permutation_map. assumption. }
  exists (map (lookup S f) S'). split.
  - split; [now rewrite map_length|]. rewrite <- Hf. apply map_ext. intros p. rewrite <- (T S S') by exact HP. now rewrite lookup_map.
  - intros f' [Lf' Hf']. specialize (U (map (lookup S' f') S)). rewrite U.
    + transitivity (map (lookup S' f') S'); [|apply lookup_map; auto; lia]. apply map_ext_in. intros d Hd.
      assert (G : forall T h, NoDup T -> In d T -> lookup T (map h T) d = h d).
      { clear. induction T as [|c T IH]; intros h HN Hd; [destruct Hd|]. destruct Hd as [->|Hd]; inversion HN; subst; cbn [map lookup].
        - destruct (vec_eq_dec d d); congruence.
        - destruct (vec_eq_dec c d); [congruence|]. now apply IH. }
      rewrite (G S); auto. apply Permutation_in with S'; auto using Permutation_sym.
    + split; [now rewrite map_length|]. rewrite <- Hf'. apply map_ext. intros p. rewrite (T S S') by exact HP. rewrite lookup_map; auto; lia.
Qed.
(* pairwise orthogonality by computation, independent of the order of the directions *)
Definition orth_check (w : vec -> Q) (S : stencil) (ps : list qpoly) : bool :=
  let rows := qmoment_matrix ps S in let ws := map w S in
  forallb (fun i => forallb (fun j => Nat.eqb i j || Qeq_bool (qdot3 ws (nth i rows []) (nth j rows [])) 0) (seq 0 (length ps))) (seq 0 (length ps)).
Lemma inner_map w S p q : inner (map w S) S p q = rsum (map (fun c => Q2R (w c) * ev p (vecR c) * ev q (vecR c)) S).
Proof. unfold inner. induction S as [|c S IH]; [reflexivity|]. cbn [map combine]. rewrite !rsum_cons, IH. reflexivity. Qed.
Lemma orth_check_sound w S S' ps : Permutation S S' -> orth_check w S ps = true -> orthogonal (map w S') S' ps.
Proof.
  intros HP H i j Hi Hj Hij. rewrite inner_map. unfold orth_check in H. rewrite forallb_forall in H. specialize (H i). rewrite forallb_forall in H.
  specialize (H ltac:(apply in_seq; lia) j ltac:(apply in_seq; lia)). apply orb_true_iff in H. destruct H as [H|H]; [apply Nat.eqb_eq in H; lia|].
  apply Qeq_bool_R in H. unfold qmoment_matrix in H. rewrite !(nth_map_list (qmoment_row S) ps _ [] []) in H by auto.
  rewrite (qdot3_inner _ S _ _ _ _ (row_represents S _) (row_represents S _)), inner_map in H. rewrite <- H. apply rsum_perm, Permutation_map, Permutation_sym, HP.
Qed.
