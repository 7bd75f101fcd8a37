From Coq Require Import String List ZArith QArith Qreals Reals Lra Lia Bool Arith.
From Verif Require Import StencilModel RealLib LinLib LinQ TransSpec MomModel EqModel ModeModel ModeSpec.
Import ListNotations.
Local Open Scope R_scope.

Notation ev p x := (peval (toR p) x).

Lemma tuple_eqb_eq a b : tuple_eqb a b = true <-> a = b.
Proof. unfold tuple_eqb. destruct (list_eq_dec Nat.eq_dec a b); split; congruence. Qed.
Lemma Qred_R q : Q2R (Qred q) = Q2R q.
Proof. apply Qeq_eqR, Qred_correct. Qed.
Lemma Qeq_bool_R q : Qeq_bool q 0 = true <-> Q2R q = 0.
Proof.
  rewrite Qeq_bool_iff. split; intros H.
  - apply Qeq_eqR in H. rewrite H. apply RMicromega.Q2R_0.
  - apply eqR_Qeq. rewrite H. symmetry. apply RMicromega.Q2R_0.
Qed.
Lemma Qeq_bool_R_false q : Qeq_bool q 0 = false <-> Q2R q <> 0.
Proof. rewrite <- Qeq_bool_R. destruct (Qeq_bool q 0); split; congruence. Qed.
Lemma ev_nil x : ev [] x = 0. Proof. reflexivity. Qed.
Lemma ev_cons t p x : ev (t :: p) x = Q2R (fst t) * rmono x (snd t) + ev p x.
Proof. reflexivity. Qed.
Lemma ev_app p q x : ev (p ++ q) x = ev p x + ev q x.
Proof. unfold toR, peval. rewrite !map_app. apply rsum_app. Qed.
Lemma ev_insert t p x : ev (insert_term t p) x = Q2R (fst t) * rmono x (snd t) + ev p x.
Proof.
  induction p as [|t' p IH]; cbn [insert_term].
  - destruct (Qeq_bool (fst t) 0) eqn:E; [|apply ev_cons]. apply Qeq_bool_R in E. rewrite E, ev_nil. lra.
  - destruct (tuple_eqb (snd t) (snd t')) eqn:E.
    + apply tuple_eqb_eq in E. rewrite E. cbv zeta. destruct (Qeq_bool (Qred (fst t + fst t')) 0) eqn:E0.
      * apply Qeq_bool_R in E0. rewrite Qred_R, Q2R_plus in E0. rewrite ev_cons. replace (Q2R (fst t)) with (- Q2R (fst t')) by lra. lra.
      * rewrite !ev_cons. cbn [fst snd]. rewrite Qred_R, Q2R_plus. lra.
    + destruct (lex_ltb (snd t') (snd t)).
      * destruct (Qeq_bool (fst t) 0) eqn:E0; [|apply ev_cons]. apply Qeq_bool_R in E0. rewrite E0. lra.
      * rewrite !ev_cons, IH. lra.
Qed.
Lemma ev_add p q x : ev (qp_add p q) x = ev p x + ev q x.
Proof. induction p as [|t p IH]; [cbn [qp_add fold_right]; rewrite ev_nil; lra|]. change (qp_add (t :: p) q) with (insert_term t (qp_add p q)). rewrite ev_insert, ev_cons, IH. lra. Qed.
Lemma ev_canon p x : ev (qp_canon p) x = ev p x.
Proof. unfold qp_canon. rewrite ev_add, ev_nil. lra. Qed.
Lemma ev_scal a p x : ev (qp_scal a p) x = Q2R a * ev p x.
Proof.
  unfold qp_scal. rewrite ev_canon. induction p as [|t p IH]; [cbn [map]; rewrite ev_nil; lra|].
  cbn [map]. rewrite !ev_cons, IH. cbn [fst snd]. rewrite Qred_R, Q2R_mult. lra.
Qed.

(* ---- vectors represent polynomials ---- *)
Definition represents (S : stencil) (v : list Q) (p : qpoly) : Prop := map Q2R v = map (fun c => ev p (vecR c)) S.
Lemma pow_Q a n : Q2R (qpow a n) = Q2R a ^ n.
Proof. induction n as [|n IH]; [apply RMicromega.Q2R_1|]. cbn [pow qpow]. now rewrite <- IH, <- Q2R_mult. Qed.
Lemma Q2R_inject z : Q2R (inject_Z z) = IZR z.
Proof. unfold Q2R, inject_Z. cbn. lra. Qed.
Lemma qmono_R c e : Q2R (qmono (vecQ c) e) = rmono (vecR c) e.
Proof.
  revert e; induction c as [|a c IH]; intros [|n e]; try apply RMicromega.Q2R_1.
  cbn [vecQ map qmono vecR rmono]. rewrite Q2R_mult, pow_Q, Q2R_inject. unfold vecQ in IH. rewrite IH. reflexivity.
Qed.
Lemma qsum_R l : Q2R (qsum l) = rsum (map Q2R l).
Proof. induction l as [|a l IH]; [apply RMicromega.Q2R_0|]. cbn [qsum fold_right map]. rewrite rsum_cons, Q2R_plus. unfold qsum in IH. now rewrite IH. Qed.
Lemma qeval_R p c : Q2R (qeval p (vecQ c)) = ev p (vecR c).
Proof.
  unfold qeval, peval, toR. rewrite qsum_R, !map_map. apply rsum_ext. intros t _. cbn [fst snd]. rewrite Q2R_mult, qmono_R. reflexivity.
Qed.
Lemma row_represents S p : represents S (qmoment_row S p) p.
Proof. unfold represents, qmoment_row. rewrite map_map. apply map_ext. intros c. rewrite Qred_R. apply qeval_R. Qed.
Lemma represents_length S v p : represents S v p -> length v = length S.
Proof. intros H. apply (f_equal (@length R)) in H. now rewrite !map_length in H. Qed.
Lemma represents_sub S v p u m o : represents S v p -> represents S u m ->
  represents S (qsubv u (map (Qmult o) v)) (qp_add m (qp_scal (- o) p)).
Proof.
  unfold represents. revert v u; induction S as [|c S IH]; intros [|a v] [|b u] Hv Hu; try discriminate; [reflexivity|].
  cbn [map] in Hv, Hu. injection Hv as H1 H2. injection Hu as H3 H4. unfold qsubv in *. cbn [map combine]. f_equal; [|now apply IH].
  cbn [fst snd]. rewrite Qred_R, Q2R_minus, Q2R_mult, ev_add, ev_scal, Q2R_opp, <- H1, <- H3. lra.
Qed.
Lemma qdot3_inner w S v p u m : represents S v p -> represents S u m -> Q2R (qdot3 w v u) = inner w S p m.
Proof.
  unfold represents, qdot3, inner. rewrite qsum_R, map_map. revert w v u; induction S as [|c S IH]; intros [|a w] [|b v] [|d u] Hv Hu; try discriminate; try reflexivity.
  cbn [map] in Hv, Hu. injection Hv as H1 H2. injection Hu as H3 H4. cbn [combine map]. rewrite !rsum_cons, (IH _ _ _ H2 H4). cbn [fst snd].
  rewrite !Q2R_mult, H1, H3. reflexivity.
Qed.

(* ---- inner product ---- *)
Lemma inner_comm w S p q : inner w S p q = inner w S q p.
Proof. unfold inner. apply rsum_ext. intros; lra. Qed.
Lemma inner_ext w S p p' q : (forall x, ev p x = ev p' x) -> inner w S p q = inner w S p' q.
Proof. intros H. unfold inner. apply rsum_ext. intros wc _. now rewrite H. Qed.
Lemma inner_lin w S m m' c ps q : length c = length ps -> (forall x, ev m' x = ev m x - lin c ps x) ->
  inner w S m' q = inner w S m q - rsum (map (fun cp => fst cp * inner w S (snd cp) q) (combine c ps)).
Proof.
  intros _ H. unfold inner at 1. rewrite (rsum_ext _ (fun wc => Q2R (fst wc) * ev m (vecR (snd wc)) * ev q (vecR (snd wc)) - rsum (map (fun cp => Q2R (fst wc) * ev q (vecR (snd wc)) * (fst cp * ev (snd cp) (vecR (snd wc)))) (combine c ps)))).
  2:{ intros wc _. rewrite H, rsum_scal. unfold lin. ring. }
  rewrite rsum_minus. f_equal. rewrite rsum_swap. apply rsum_ext. intros cp _. unfold inner. rewrite <- rsum_scal. apply rsum_ext. intros wc _. ring.
Qed.
Lemma inner_pos w S p : length w = length S -> Forall (fun a => 0 < Q2R a) w ->
  (inner w S p p = 0 <-> forall c, In c S -> ev p (vecR c) = 0).
Proof.
  intros Hl Hw. unfold inner. split.
  - intros H c Hc. assert (P : exists a, In (a, c) (combine w S)).
    { clear H. revert w Hl Hw; induction S as [|d S IH]; intros [|a w] Hl Hw; try discriminate; [destruct Hc|].
      inversion Hw; subst. destruct Hc as [->|Hc]; [exists a; now left|]. destruct (IH Hc w) as (b & Hb); auto. exists b. now right. }
    destruct P as (a & Ha). assert (0 < Q2R a) by (rewrite Forall_forall in Hw; apply Hw; eapply in_combine_l; eauto).
    pose proof (rsum_zero_inv (fun wc => Q2R (fst wc) * ev p (vecR (snd wc)) * ev p (vecR (snd wc))) (combine w S)) as Z.
    assert (Z' : Q2R a * ev p (vecR c) * ev p (vecR c) = 0).
    { refine (Z _ H (a, c) Ha). intros [b d] Hb. cbn [fst snd].
      apply in_combine_l in Hb. rewrite Forall_forall in Hw. specialize (Hw b Hb). pose proof (Rle_0_sqr (ev p (vecR d))) as Hsq. unfold Rsqr in Hsq. nra. }
    destruct (Req_dec (ev p (vecR c)) 0) as [E|E]; [exact E|]. exfalso.
    apply Rmult_integral in Z'. destruct Z' as [Z'|Z']; [|now apply E]. apply Rmult_integral in Z'. destruct Z' as [Z'|Z']; [lra|now apply E].
  - intros H. rewrite (rsum_ext _ (fun _ => 0)); [apply rsum_zero|]. intros [a c] Hc. cbn [fst snd]. rewrite (H c) by (eapply in_combine_r; eauto). ring.
Qed.

(* ---- the inner loop ---- *)
Definition pairwise (w : list Q) (S : stencil) (ps : list qpoly) : Prop := ForallOrdPairs (fun p q => inner w S p q = 0) ps.
Lemma lin_cons a c p ps x : lin (a :: c) (p :: ps) x = a * ev p x + lin c ps x.
Proof. reflexivity. Qed.
Lemma lin_nil x : lin [] [] x = 0. Proof. reflexivity. Qed.
Lemma gs_inner_ok w S prev : Forall (fun vp => represents S (fst vp) (snd vp)) prev -> pairwise w S (map snd prev) ->
  forall cur m cur' m', represents S cur m -> gs_inner w prev cur m = Ok (cur', m') ->
  represents S cur' m' /\ Forall (fun vp => inner w S (snd vp) (snd vp) <> 0) prev /\
  (exists c, length c = length prev /\ forall x, ev m' x = ev m x - lin c (map snd prev) x) /\
  Forall (fun vp => inner w S m' (snd vp) = 0) prev.
Proof.
  induction prev as [|[v p] prev IH]; intros HR HP cur m cur' m' Hc E.
  - cbn in E. injection E as <- <-. split; [exact Hc|]. split; [constructor|]. split; [|constructor].
    exists []. split; [reflexivity|]. intros x. cbn [map]. rewrite lin_nil. lra.
  - cbn [gs_inner] in E. cbv zeta in E. inversion HR as [|? ? H1 H2]; subst. cbn [fst snd] in H1. inversion HP as [|? ? P1 P2]; subst.
    destruct (Qeq_bool (qdot3 w v v) 0) eqn:E0; [discriminate|]. apply Qeq_bool_R_false in E0. rewrite (qdot3_inner w S v p v p H1 H1) in E0.
    set (o := Qred (qdot3 w cur v / qdot3 w v v)) in *.
    assert (Ho : Q2R o = inner w S m p / inner w S p p).
    { unfold o. rewrite Qred_R, Q2R_div. - rewrite (qdot3_inner w S cur m v p), (qdot3_inner w S v p v p); auto.
      - intros H. apply Qeq_eqR in H. rewrite (qdot3_inner w S v p v p), RMicromega.Q2R_0 in H; auto. }
    destruct (IH H2 P2 _ _ _ _ (represents_sub S v p cur m o H1 Hc) E) as (R1 & R2 & (c & Lc & Hx) & R3).
    split; [exact R1|]. split; [constructor; auto|].
    assert (Hx' : forall x, ev m' x = ev m x - lin (Q2R o :: c) (p :: map snd prev) x).
    { intros x. rewrite Hx, ev_add, ev_scal, Q2R_opp, lin_cons. lra. }
    split. { exists (Q2R o :: c). split; [cbn; now rewrite Lc|exact Hx']. }
    constructor; [|exact R3]. cbn [fst snd].
    rewrite (inner_lin w S m m' (Q2R o :: c) (p :: map snd prev) p); [|cbn; now rewrite map_length, Lc|exact Hx'].
    cbn [combine map]. rewrite rsum_cons. cbn [fst snd].
    rewrite (rsum_ext _ (fun _ => 0)).
    2:{ intros [a q] Ha. cbn [fst snd]. apply in_combine_r in Ha. rewrite Forall_forall in P1. rewrite inner_comm, (P1 q Ha). ring. }
    rewrite rsum_zero, Ho. field. exact E0.
Qed.
Lemma gs_inner_err w prev : forall cur m e, gs_inner w prev cur m = Err e ->
  e = ValueError /\ exists v p, In (v, p) prev /\ Q2R (qdot3 w v v) = 0.
Proof.
  induction prev as [|[v p] prev IH]; intros cur m e E; [discriminate|]. cbn [gs_inner] in E. cbv zeta in E.
  destruct (Qeq_bool (qdot3 w v v) 0) eqn:E0.
  - injection E as <-. split; [reflexivity|]. exists v, p. split; [now left|]. now apply Qeq_bool_R.
  - destruct (IH _ _ _ E) as (He & v' & p' & Hin & Hz). split; [exact He|]. exists v', p'. split; [now right|exact Hz].
Qed.

(* ---- the outer loop ---- *)
(* new_k = ms_k - combination of prev and the earlier new ones *)
Fixpoint triangular (prev new ms : list qpoly) : Prop :=
  match new, ms with
  | [], [] => True
  | q :: new, m :: ms => (exists c, length c = length prev /\ forall x, ev q x = ev m x - lin c prev x) /\ triangular (prev ++ [q]) new ms
  | _, _ => False
  end.
Lemma fop_app {A} (P : A -> A -> Prop) l a : ForallOrdPairs P l -> Forall (fun b => P b a) l -> ForallOrdPairs P (l ++ [a]).
Proof.
  induction 1 as [|b l Hb Hl IH]; intros H; cbn; [constructor; constructor|]. inversion H; subst. constructor; [|now apply IH].
  apply Forall_app. split; [exact Hb|]. now constructor.
Qed.
Lemma gs_outer_ok w S ms : forall prev out, Forall (fun vp => represents S (fst vp) (snd vp)) prev -> pairwise w S (map snd prev) ->
  gs_outer w S prev ms = Ok out ->
  exists new, out = map snd prev ++ new /\ triangular (map snd prev) new ms /\ pairwise w S out /\
    (ms <> [] -> Forall (fun p => inner w S p p <> 0) (map snd prev ++ removelast new)).
Proof.
  induction ms as [|m ms IH]; intros prev out HR HP E.
  - cbn in E. injection E as <-. exists []. rewrite app_nil_r. repeat split; auto. congruence.
  - cbn [gs_outer] in E. destruct (gs_inner w prev (qmoment_row S m) m) as [[v q]|e] eqn:E1; [|discriminate]. cbn [rbind] in E.
    destruct (gs_inner_ok w S prev HR HP _ _ _ _ (row_represents S m) E1) as (R1 & R2 & R3 & R4).
    destruct (IH (prev ++ [(v, q)]) out) as (new & H1 & H2 & H3 & H4).
    + apply Forall_app. split; auto.
    + rewrite map_app. apply fop_app; auto. apply Forall_map. eapply Forall_impl; [|exact R4]. intros [v' p'] H. cbn [snd] in *. now rewrite inner_comm.
    + exact E.
    + rewrite map_app in H1, H2, H4. cbn [map snd] in H1, H2, H4. rewrite <- app_assoc in H1. exists (q :: new). split; [exact H1|].
      split. { cbn [triangular]. split; [|exact H2]. destruct R3 as (c & Lc & Hc). exists c. rewrite map_length. auto. }
      split; [exact H3|]. intros _. destruct ms as [|m' ms].
      * destruct new; [|contradiction H2]. cbn [removelast]. rewrite app_nil_r. apply Forall_map. exact R2.
      * destruct new as [|q' new]; [contradiction H2|]. specialize (H4 ltac:(discriminate)). rewrite <- app_assoc in H4. exact H4.
Qed.
Lemma triangular_length prev new ms : triangular prev new ms -> length new = length ms.
Proof. revert prev ms; induction new as [|q new IH]; intros prev [|m ms] H; try contradiction; [reflexivity|]. cbn. f_equal. eapply IH. apply H. Qed.

(* ---- spans ---- *)
Definition spanf (p : list R -> R) (ps : list qpoly) : Prop := exists c, length c = length ps /\ forall x, p x = lin c ps x.
Lemma lin_add c c' ps x : length c = length ps -> length c' = length ps -> lin (radd c c') ps x = lin c ps x + lin c' ps x.
Proof.
  revert c c'; induction ps as [|p ps IH]; intros [|a c] [|b c'] H H'; try discriminate; [unfold lin; cbn; lra|].
  rewrite radd_cons, !lin_cons, IH by (cbn in *; lia). ring.
Qed.
Lemma lin_scal a c ps x : lin (rscal a c) ps x = a * lin c ps x.
Proof.
  revert c; induction ps as [|p ps IH]; intros [|b c]; cbn [rscal map]; try (unfold lin; rewrite ?combine_nil; cbn; lra).
  unfold rscal in IH. rewrite !lin_cons, IH. ring.
Qed.
Lemma lin_zero n ps x : lin (rzero n) ps x = 0.
Proof. revert ps; induction n as [|n IH]; intros [|p ps]; try reflexivity. change (rzero (Datatypes.S n)) with (0 :: rzero n). rewrite lin_cons, IH. lra. Qed.
Lemma lin_app c c' ps ps' x : length c = length ps -> lin (c ++ c') (ps ++ ps') x = lin c ps x + lin c' ps' x.
Proof. revert ps; induction c as [|a c IH]; intros [|p ps] H; try discriminate; cbn [app]; [rewrite lin_nil; lra|]. rewrite !lin_cons, IH by (cbn in H; lia). ring. Qed.
Lemma spanf_zero ps : spanf (fun _ => 0) ps.
Proof. exists (rzero (length ps)). split; [apply rzero_length|]. intros x. symmetry. apply lin_zero. Qed.
Lemma spanf_add f g ps : spanf f ps -> spanf g ps -> spanf (fun x => f x + g x) ps.
Proof. intros (c & L & H) (c' & L' & H'). exists (radd c c'). split; [rewrite radd_length; lia|]. intros x. rewrite lin_add, H, H' by auto. reflexivity. Qed.
Lemma spanf_scal a f ps : spanf f ps -> spanf (fun x => a * f x) ps.
Proof. intros (c & L & H). exists (rscal a c). split; [rewrite rscal_length; lia|]. intros x. rewrite lin_scal, H by auto. reflexivity. Qed.
Lemma spanf_ext f g ps : (forall x, f x = g x) -> spanf f ps -> spanf g ps.
Proof. intros H (c & L & H'). exists c. split; auto. intros x. rewrite <- H. apply H'. Qed.
Lemma spanf_mono f ps qs : spanf f ps -> spanf f (ps ++ qs).
Proof.
  intros (c & L & H). exists (c ++ rzero (length qs)). split; [rewrite !app_length, rzero_length; lia|].
  intros x. rewrite lin_app, lin_zero, H by auto. lra.
Qed.
Lemma spanf_last p ps : spanf (fun x => ev p x) (ps ++ [p]).
Proof.
  exists (rzero (length ps) ++ [1]). split; [rewrite !app_length, rzero_length; reflexivity|]. intros x.
  rewrite lin_app by apply rzero_length. rewrite lin_zero, lin_cons, lin_nil. lra.
Qed.
Lemma spanf_lin c ps qs : length c = length ps -> Forall (fun p => spanf (fun x => ev p x) qs) ps -> spanf (fun x => lin c ps x) qs.
Proof.
  revert c; induction ps as [|p ps IH]; intros [|a c] L H; try discriminate.
  - apply (spanf_ext (fun _ => 0)); [intros; reflexivity|apply spanf_zero].
  - inversion H; subst. apply (spanf_ext (fun x => a * ev p x + lin c ps x)); [intros; reflexivity|].
    apply spanf_add; [apply spanf_scal; assumption|apply IH; auto].
Qed.
(* nested spans of a triangular family *)
Lemma triangular_span new : forall ms P Q, triangular P new ms ->
  Forall (fun p => spanf (fun x => ev p x) Q) P -> Forall (fun p => spanf (fun x => ev p x) P) Q ->
  forall k, Forall (fun p => spanf (fun x => ev p x) (Q ++ firstn k ms)) (P ++ firstn k new) /\
            Forall (fun p => spanf (fun x => ev p x) (P ++ firstn k new)) (Q ++ firstn k ms).
Proof.
  induction new as [|q new IH]; intros [|m ms] P Q HT HP HQ k; try contradiction.
  - rewrite !firstn_nil, !app_nil_r. auto.
  - destruct k as [|k]; [rewrite !firstn_O, !app_nil_r; auto|]. cbn [firstn]. destruct HT as [(c & Lc & Hc) HT].
    pose proof (fun H1 H2 => IH ms (P ++ [q]) (Q ++ [m]) HT H1 H2 k) as IH'. rewrite <- !app_assoc in IH'. cbn [app] in IH'. apply IH'.
    + apply Forall_app. split; [eapply Forall_impl; [|exact HP]; intros; now apply spanf_mono|]. constructor; [|constructor].
      apply (spanf_ext (fun x => ev m x + (-1) * lin c P x)); [intros x; rewrite Hc; lra|].
      apply spanf_add; [apply spanf_last|]. apply spanf_scal, spanf_mono, spanf_lin; auto.
    + apply Forall_app. split; [eapply Forall_impl; [|exact HQ]; intros; now apply spanf_mono|]. constructor; [|constructor].
      apply (spanf_ext (fun x => ev q x + lin c P x)); [intros x; rewrite Hc; lra|].
      apply spanf_add; [apply spanf_last|]. apply spanf_mono. exists c. auto.
Qed.

(* ---- independence ---- *)
Lemma lin_inner w S c ps q : rsum (map (fun wc => Q2R (fst wc) * lin c ps (vecR (snd wc)) * ev q (vecR (snd wc))) (combine w S)) =
  rsum (map (fun cp => fst cp * inner w S (snd cp) q) (combine c ps)).
Proof.
  unfold lin. rewrite (rsum_ext _ (fun wc => rsum (map (fun cp => Q2R (fst wc) * ev q (vecR (snd wc)) * (fst cp * ev (snd cp) (vecR (snd wc)))) (combine c ps)))).
  2:{ intros wc _. rewrite rsum_scal. ring. }
  rewrite rsum_swap. apply rsum_ext. intros cp _. unfold inner. rewrite <- rsum_scal. apply rsum_ext. intros wc _. ring.
Qed.
Lemma triangular_snoc new : forall ms P q m, length new = length ms -> triangular P (new ++ [q]) (ms ++ [m]) ->
  triangular P new ms /\ exists c, length c = length (P ++ new) /\ forall x, ev q x = ev m x - lin c (P ++ new) x.
Proof.
  induction new as [|a new IH]; intros [|b ms] P q m L H; try discriminate; cbn [app] in H.
  - destruct H as [H _]. rewrite app_nil_r. split; [exact I|exact H].
  - destruct H as [H1 H2]. apply IH in H2; [|cbn in L; lia]. rewrite <- app_assoc in H2. cbn [app] in H2. destruct H2 as [H2 H3]. split; [split; assumption|exact H3].
Qed.
Lemma fop_snoc {A} (P : A -> A -> Prop) l a : ForallOrdPairs P (l ++ [a]) -> ForallOrdPairs P l /\ Forall (fun b => P b a) l.
Proof.
  induction l as [|b l IH]; cbn; intros H; [split; constructor|]. inversion H; subst. destruct (IH H3) as [H4 H5].
  apply Forall_app in H2. destruct H2 as [H6 H7]. inversion H7; subst. split; constructor; auto.
Qed.
Lemma ortho_independent w S ms : forall new, triangular [] new ms -> pairwise w S new ->
  Forall (fun p => inner w S p p <> 0) new -> independent_on S ms.
Proof.
  induction ms as [|m ms IH] using rev_ind; intros new HT HP HN c Lc H0.
  - destruct c; [constructor|discriminate].
  - pose proof (triangular_length _ _ _ HT) as Ln. rewrite app_length in Ln. cbn in Ln.
    destruct (exists_last (l := new)) as (qs & q & ->); [intros ->; cbn in Ln; lia|]. rewrite app_length in Ln. cbn in Ln.
    assert (Lq : length qs = length ms) by lia. clear Ln. apply triangular_snoc in HT; [|exact Lq]. destruct HT as [HT (k & Lk & Hk)]. cbn [app] in Lk, Hk.
    apply fop_snoc in HP. destruct HP as [HP Hq]. apply Forall_app in HN. destruct HN as [HN HNq]. inversion HNq as [|? ? Hqq _]; subst.
    rewrite app_length in Lc. cbn in Lc. destruct (exists_last (l := c)) as (c0 & a & ->); [intros ->; cbn in Lc; lia|]. rewrite app_length in Lc. cbn in Lc.
    assert (L0 : length c0 = length ms) by lia. clear Lc.
    (* lin c0 ms is in the span of qs *)
    pose proof (triangular_span qs ms [] [] HT ltac:(constructor) ltac:(constructor) (length ms)) as [_ Hsp]. cbn [app] in Hsp.
    rewrite firstn_all in Hsp. rewrite <- Lq, firstn_all in Hsp.
    destruct (spanf_lin c0 ms qs L0 Hsp) as (t & Lt & Ht).
    assert (Hz : forall d, In d S -> a * ev q (vecR d) + lin (radd t (rscal a k)) qs (vecR d) = 0).
    { intros d Hd. specialize (H0 d Hd). rewrite lin_app, lin_cons, lin_nil, Ht in H0 by exact L0.
      rewrite lin_add, lin_scal by (rewrite ?rscal_length; lia). specialize (Hk (vecR d)). nra. }
    assert (Ha : a = 0).
    { assert (Hs : a * inner w S q q = 0).
      { assert (Hsum : rsum (map (fun wc => Q2R (fst wc) * (a * ev q (vecR (snd wc)) + lin (radd t (rscal a k)) qs (vecR (snd wc))) * ev q (vecR (snd wc))) (combine w S)) = 0).
        { rewrite (rsum_ext _ (fun _ => 0)); [apply rsum_zero|]. intros [b d] Hb. cbn [fst snd]. rewrite Hz by (eapply in_combine_r; eauto). ring. }
        rewrite (rsum_ext _ (fun wc => a * (Q2R (fst wc) * ev q (vecR (snd wc)) * ev q (vecR (snd wc))) + Q2R (fst wc) * lin (radd t (rscal a k)) qs (vecR (snd wc)) * ev q (vecR (snd wc)))) in Hsum by (intros; ring).
        rewrite rsum_plus, rsum_scal, lin_inner in Hsum. fold (inner w S q q) in Hsum.
        rewrite (rsum_ext _ (fun _ => 0)) in Hsum. { rewrite rsum_zero in Hsum. lra. }
        intros [b p] Hb. cbn [fst snd]. apply in_combine_r in Hb. rewrite Forall_forall in Hq. rewrite (Hq p Hb). ring. }
      apply Rmult_integral in Hs. tauto. }
    subst a. apply Forall_app. split; [|repeat constructor]. apply (IH qs HT HP HN c0 L0). intros d Hd. specialize (H0 d Hd).
    rewrite lin_app, lin_cons, lin_nil in H0 by exact L0. lra.
Qed.
Lemma gs_outer_err w S ms : forall done prev P e, Forall (fun vp => represents S (fst vp) (snd vp)) prev -> pairwise w S (map snd prev) ->
  map snd prev = P -> triangular [] P done -> gs_outer w S prev ms = Err e ->
  e = ValueError /\ exists new ms1 q m,
    triangular [] (new ++ [q]) (ms1 ++ [m]) /\ length new = length ms1 /\ inner w S q q = 0 /\ exists rest, done ++ ms = ms1 ++ m :: rest /\ rest <> [].
Proof.
  induction ms as [|m ms IH]; intros done prev P e HR HP <- HT E; [discriminate|].
  cbn [gs_outer] in E. destruct (gs_inner w prev (qmoment_row S m) m) as [[v q]|e'] eqn:E1; cbn [rbind] in E.
  - destruct (gs_inner_ok w S prev HR HP _ _ _ _ (row_represents S m) E1) as (R1 & R2 & R3 & R4).
    destruct (IH (done ++ [m]) (prev ++ [(v, q)]) (map snd prev ++ [q]) e) as (He & new & ms1 & q' & m' & H1 & H2 & H3 & rest & H4 & H5).
    + apply Forall_app. split; auto.
    + rewrite map_app. apply fop_app; auto. apply Forall_map. eapply Forall_impl; [|exact R4]. intros [v' p'] H. cbn [snd] in *. now rewrite inner_comm.
    + rewrite map_app. reflexivity.
    + assert (G : forall P0 P done, triangular P0 P done -> (exists c, length c = length (P0 ++ P) /\ forall x, ev q x = ev m x - lin c (P0 ++ P) x) -> triangular P0 (P ++ [q]) (done ++ [m])).
      { clear. intros P0 P; revert P0; induction P as [|a P IH]; intros P0 [|b done] H Hc; try contradiction; cbn [app] in *.
        - rewrite app_nil_r in Hc. split; [exact Hc|exact I].
        - destruct H as [H1 H2]. split; [exact H1|]. apply IH; [exact H2|]. rewrite <- app_assoc. exact Hc. }
      apply G; [exact HT|]. cbn [app]. destruct R3 as (c & Lc & Hc). exists c. rewrite map_length. auto.
    + exact E.
    + split; [exact He|]. exists new, ms1, q', m'. repeat split; auto. exists rest. rewrite <- app_assoc in H4. split; auto.
  - injection E as ->. destruct (gs_inner_err _ _ _ _ _ E1) as (He & v & p & Hin & Hz). split; [exact He|].
    assert (Hr : represents S v p) by (rewrite Forall_forall in HR; apply (HR (v, p)); auto).
    rewrite (qdot3_inner w S v p v p Hr Hr) in Hz.
    assert (Hp : In p (map snd prev)) by (apply in_map_iff; exists (v, p); auto).
    apply in_split in Hp. destruct Hp as (n1 & n2 & En). rewrite En in HT.
    pose proof (triangular_length _ _ _ HT) as Ln.
    assert (exists m1 mm m2, done = m1 ++ mm :: m2 /\ length m1 = length n1) as (m1 & mm & m2 & -> & Lm).
    { rewrite app_length in Ln. cbn in Ln. exists (firstn (length n1) done). destruct (skipn (length n1) done) as [|mm m2] eqn:Es.
      - apply (f_equal (@length _)) in Es. rewrite skipn_length in Es. cbn in Es. lia.
      - exists mm, m2. split; [now rewrite <- Es, firstn_skipn|]. rewrite firstn_length. lia. }
    exists n1, m1, p, mm.
    assert (G : forall a b c d P0, length a = length c -> triangular P0 (a ++ p :: b) (c ++ mm :: d) -> triangular P0 (a ++ [p]) (c ++ [mm])).
    { clear. induction a as [|q a IH]; intros b [|x c] d P0 L H; try discriminate; cbn [app] in *; destruct H as [H1 H2].
      - split; [exact H1|exact I]. - split; [exact H1|]. eapply IH; [|exact H2]. cbn in L; lia. }
    split; [eapply G; [|exact HT]; lia|]. split; [lia|]. split; [exact Hz|]. exists (m2 ++ m :: ms). rewrite <- app_assoc. split; [reflexivity|]. destruct m2; discriminate.
Qed.
