(* Moment matrices, chimera transforms, de-aliasing. *)
From Coq Require Import List ZArith Bool Arith Reals Lra Lia Permutation.
From Verif Require Import StencilModel StencilProofs RealLib LinLib TransSpec TransModel MomModel.
Import ListNotations.
Local Open Scope R_scope.

Lemma tuple_eqb_eq a b : tuple_eqb a b = true <-> a = b.
Proof. unfold tuple_eqb. destruct (list_eq_dec Nat.eq_dec a b); split; congruence. Qed.
Lemma tuple_eqb_refl a : tuple_eqb a a = true.
Proof. now apply tuple_eqb_eq. Qed.

(* ---- moment matrices ---- *)
Lemma dot_map_stencil (g : vec -> R) (S : stencil) f :
  dot (map g S) f = rsum (map (fun fc => fst fc * g (snd fc)) (combine f S)).
Proof.
  revert f; induction S as [|c S IH]; intros [|a f]; try reflexivity.
  cbn [map combine]. rewrite dot_cons, rsum_cons, IH. cbn [fst snd]. lra.
Qed.
Lemma mv_moment_matrix ps S u f : mv (moment_matrix ps S u) f = map (poly_moment f S u) ps.
Proof.
  unfold mv, moment_matrix. rewrite map_map. apply map_ext. intros p.
  rewrite (dot_map_stencil (fun c => peval p (rsub (vecR c) u))). reflexivity.
Qed.
Lemma mv_monomial_matrix es S u f : mv (monomial_matrix es S u) f = map (central_moment f S u) es.
Proof.
  unfold mv, monomial_matrix. rewrite map_map. apply map_ext. intros e.
  rewrite (dot_map_stencil (fun c => rmono (rsub (vecR c) u) e)). reflexivity.
Qed.
Lemma poly_moment_terms f S u p :
  poly_moment f S u p = rsum (map (fun t => fst t * central_moment f S u (snd t)) p).
Proof.
  unfold poly_moment, central_moment, peval.
  rewrite (rsum_ext _ (fun fc => rsum (map (fun t => fst t * (fst fc * rmono (rsub (vecR (snd fc)) u) (snd t))) p))).
  2:{ intros fc _. rewrite <- rsum_scal. apply rsum_ext. intros; ring. }
  rewrite rsum_swap. apply rsum_ext. intros t _. apply rsum_scal.
Qed.
Lemma mono_poly_matrix es S u : moment_matrix (map mono_poly es) S u = monomial_matrix es S u.
Proof.
  unfold moment_matrix, monomial_matrix. rewrite map_map. apply map_ext; intros e. apply map_ext; intros c.
  unfold peval, mono_poly; cbn. lra.
Qed.
Lemma discrete_moment_eq f p S u : discrete_moment f p S u = poly_moment f S u p.
Proof. unfold discrete_moment, poly_moment. apply rsum_ext. intros; lra. Qed.
Lemma monomial_matrix_wf es S u : mat_wf (length es) (length S) (monomial_matrix es S u).
Proof. split; [apply map_length|]. unfold monomial_matrix. apply Forall_map, Forall_forall. intros e _. apply map_length. Qed.
Lemma moment_matrix_wf ps S u : mat_wf (length ps) (length S) (moment_matrix ps S u).
Proof. split; [apply map_length|]. unfold moment_matrix. apply Forall_map, Forall_forall. intros e _. apply map_length. Qed.

Lemma combine_radd f w (S : stencil) (g : vec -> R) : length f = length w ->
  rsum (map (fun fc => fst fc * g (snd fc)) (combine (radd f w) S)) =
  rsum (map (fun fc => fst fc * g (snd fc)) (combine f S)) + rsum (map (fun fc => fst fc * g (snd fc)) (combine w S)).
Proof. intros H. rewrite <- !dot_map_stencil. now apply dot_radd_r. Qed.
Lemma poly_moment_radd f w S u p : length f = length w ->
  poly_moment (radd f w) S u p = poly_moment f S u p + poly_moment w S u p.
Proof. intros H. unfold poly_moment. apply (combine_radd f w S (fun c => peval p (rsub (vecR c) u))), H. Qed.
Lemma map_poly_moment_radd f w S u ps : length f = length w ->
  map (poly_moment (radd f w) S u) ps = radd (map (poly_moment f S u) ps) (map (poly_moment w S u) ps).
Proof. intros H. induction ps as [|p ps IH]; [reflexivity|]. cbn [map]. rewrite radd_cons, IH, poly_moment_radd by auto. reflexivity. Qed.

(* ---- partial sums ---- *)
Definition prefix_b (fixed c : vec) : bool := vec_eqb (firstn (length fixed) c) fixed.
Definition tail_moment (f : list R) (S : stencil) (us : list R) (fixed : vec) (e : list nat) : R :=
  rsum (map (fun fc => if prefix_b fixed (snd fc) then fst fc * rmono (rsub (vecR (skipn (length fixed) (snd fc))) us) e else 0)
            (combine f S)).

Lemma tail_moment_nil f S us fixed : stencil_wf (length fixed) S ->
  tail_moment f S us fixed [] = match index_of fixed S with Some i => nth i f 0 | None => 0 end.
Proof.
  intros [Hnd Hlen]. unfold tail_moment.
  assert (E : forall fc, In fc (combine f S) ->
    (if prefix_b fixed (snd fc) then fst fc * rmono (rsub (vecR (skipn (length fixed) (snd fc))) us) [] else 0) =
    (if vec_eqb fixed (snd fc) then fst fc else 0)).
  { intros [a c] Hin. cbn [fst snd]. apply in_combine_r in Hin. rewrite Forall_forall in Hlen. specialize (Hlen c Hin).
    unfold prefix_b. rewrite <- Hlen, firstn_all.
    replace (rmono _ []) with 1 by (now destruct (rsub (vecR (skipn (length c) c)) us)).
    destruct (vec_eqb c fixed) eqn:E1, (vec_eqb fixed c) eqn:E2; try lra.
    - apply vec_eqb_eq in E1. subst. rewrite vec_eqb_refl in E2. discriminate.
    - apply vec_eqb_eq in E2. subst. rewrite vec_eqb_refl in E1. discriminate. }
  rewrite (rsum_ext _ _ _ E). clear E Hlen.
  revert f; induction S as [|c S IH]; intros f; cbn [index_of].
  - rewrite combine_nil. reflexivity.
  - inversion Hnd as [|? ? Hni Hnd']; subst. destruct f as [|a f].
    + cbn. destruct (vec_eqb fixed c); [reflexivity|]. now destruct (index_of fixed S).
    + cbn [combine map]. rewrite rsum_cons. cbn [fst snd]. destruct (vec_eqb fixed c) eqn:E1.
      * apply vec_eqb_eq in E1. subst c. cbn [nth].
        rewrite (rsum_ext _ (fun _ => 0)); [rewrite rsum_zero; lra|]. intros [b c] Hin. apply in_combine_r in Hin. cbn [fst snd].
        destruct (vec_eqb fixed c) eqn:E2; [|reflexivity]. apply vec_eqb_eq in E2. subst. contradiction.
      * rewrite IH by auto. destruct (index_of fixed S); cbn; lra.
Qed.

Lemma prefix_app fixed d c : prefix_b (fixed ++ [d]) c = true <->
  prefix_b fixed c = true /\ exists r, skipn (length fixed) c = d :: r.
Proof.
  unfold prefix_b. rewrite !vec_eqb_eq, app_length. cbn [length].
  revert c; induction fixed as [|x fixed IH]; intros c; cbn [length app firstn skipn plus].
  - destruct c as [|y c]; cbn; split.
    + discriminate.
    + intros [_ [r H]]; discriminate.
    + intros [= ->]. split; eauto.
    + intros [_ [r [= -> ->]]]. reflexivity.
  - destruct c as [|y c]; cbn; split; try discriminate.
    + intros [[=] _].
    + intros [= -> H]. apply IH in H. destruct H as [-> H]. split; auto.
    + intros [[= -> H] H']. f_equal. apply IH. auto.
Qed.

Lemma skipn_S_app (c : vec) n d r : skipn n c = d :: r -> skipn (n + 1) c = r.
Proof.
  revert c; induction n as [|n IH]; intros c; cbn [plus skipn].
  - intros ->. reflexivity.
  - destruct c as [|y c]; [discriminate|]. apply IH.
Qed.

Lemma rmono_cons u us x r n e : rmono (rsub (vecR (x :: r)) (u :: us)) (n :: e) = (IZR x - u) ^ n * rmono (rsub (vecR r) us) e.
Proof. reflexivity. Qed.

Lemma collect_central_eq S f e : forall us fixed, first_neighbours S ->
  stencil_wf (length fixed + length e) S -> length us = length e ->
  collect_central S f us fixed e = tail_moment f S us fixed e.
Proof.
  induction e as [|n e IH]; intros us fixed Hn Hwf Hu.
  - cbn [collect_central]. symmetry. apply tail_moment_nil. rewrite Nat.add_0_r in Hwf. exact Hwf.
  - destruct us as [|u us]; [discriminate|]. cbn [collect_central hd tl].
    cbn [map]. rewrite !rsum_cons, rsum_nil.
    assert (Hstep : forall d, collect_central S f us (fixed ++ [d]) e = tail_moment f S us (fixed ++ [d]) e).
    { intros d. apply IH; auto. rewrite app_length. cbn [length] in *. replace (length fixed + 1 + length e)%nat with (length fixed + Datatypes.S (length e))%nat by lia. exact Hwf. }
    rewrite !Hstep. unfold tail_moment.
    rewrite <- !rsum_scal_r, Rplus_0_r, <- !rsum_plus.
    apply rsum_ext. intros [a c] Hin. cbn [fst snd]. apply in_combine_r in Hin.
    destruct Hwf as [_ Hlen]. rewrite Forall_forall in Hlen. specialize (Hlen c Hin). cbn [length] in Hlen.
    unfold first_neighbours in Hn. rewrite Forall_forall in Hn. specialize (Hn c Hin). rewrite Forall_forall in Hn.
    destruct (skipn (length fixed) c) as [|x r] eqn:Esk.
    { exfalso. pose proof (skipn_length (length fixed) c) as L. rewrite Esk in L. cbn in L. lia. }
    assert (Hx : In x [-1;0;1]%Z). { apply Hn. rewrite <- (firstn_skipn (length fixed) c), Esk. apply in_or_app. right; left; auto. }
    rewrite !app_length. cbn [length]. rewrite (skipn_S_app c _ x r Esk), rmono_cons.
    assert (P : forall d, prefix_b (fixed ++ [d]) c = (prefix_b fixed c && Z.eqb x d)%bool).
    { intros d. apply eq_true_iff_eq. rewrite prefix_app, andb_true_iff, Z.eqb_eq, Esk. split; intros [H1 H2]; split; auto.
      - destruct H2 as [r' [= -> _]]. reflexivity.
      - subst. eauto. }
    rewrite !P. destruct (prefix_b fixed c); cbn [andb]; [|lra].
    destruct Hx as [<-|[<-|[<-|[]]]]; cbn [Z.eqb Pos.eqb]; ring.
Qed.

Lemma tail_moment_top f S us e : tail_moment f S us [] e = central_moment f S us e.
Proof. unfold tail_moment, central_moment. apply rsum_ext. intros [a c] _. reflexivity. Qed.

Lemma collect_raw_central S f e : forall fixed, collect_raw S f fixed e = collect_central S f (rzero (length e)) fixed e.
Proof.
  induction e as [|n e IH]; intros fixed; [reflexivity|].
  cbn [collect_raw collect_central length rzero repeat tl hd]. apply rsum_ext. intros d _. rewrite IH. unfold rzero. f_equal. f_equal. lra.
Qed.

Theorem collect_central_moment S f u e D : first_neighbours S -> stencil_wf D S -> length e = D -> length u = D ->
  collect_central S f u [] e = central_moment f S u e.
Proof. intros. rewrite collect_central_eq by (cbn; congruence). apply tail_moment_top. Qed.
Theorem collect_raw_moment S f e D : first_neighbours S -> stencil_wf D S -> length e = D ->
  collect_raw S f [] e = central_moment f S (rzero D) e.
Proof. intros Hn Hw <-. rewrite collect_raw_central. eapply collect_central_moment; eauto. now rewrite rzero_length. Qed.

Lemma map_collect_raw S f D es : first_neighbours S -> stencil_wf D S -> Forall (fun e => length e = D) es ->
  map (collect_raw S f []) es = map (central_moment f S (rzero D)) es.
Proof. intros Hn Hw He. apply map_ext_in. intros e Hin. rewrite Forall_forall in He. apply collect_raw_moment; auto. Qed.
Lemma map_collect_central S f u D es : first_neighbours S -> stencil_wf D S -> length u = D -> Forall (fun e => length e = D) es ->
  map (collect_central S f u []) es = map (central_moment f S u) es.
Proof. intros Hn Hw Hu He. apply map_ext_in. intros e Hin. rewrite Forall_forall in He. eapply collect_central_moment; eauto. Qed.

(* ---- monomials to polynomials ---- *)
Lemma tuple_index_nth e l i : tuple_index e l = Some i -> nth_error l i = Some e.
Proof.
  revert i; induction l as [|a l IH]; intros i; cbn [tuple_index]; [discriminate|].
  destruct (tuple_eqb e a) eqn:E.
  - intros [= <-]. apply tuple_eqb_eq in E. now subst.
  - destruct (tuple_index e l) as [j|] eqn:Ej; [|discriminate]. intros [= <-]. cbn. auto.
Qed.
Lemma tuple_index_In e l : In e l -> exists i, tuple_index e l = Some i.
Proof.
  induction l as [|a l IH]; intros [].
  - subst. cbn. rewrite tuple_eqb_refl. eauto.
  - destruct (IH H) as [i Hi]. cbn. destruct (tuple_eqb e a); [eauto|]. rewrite Hi. cbn. eauto.
Qed.
Lemma tuple_index_lt e l i : tuple_index e l = Some i -> (i < length l)%nat.
Proof. intros H. apply tuple_index_nth in H. apply nth_error_Some. congruence. Qed.
Lemma tuple_index_of_nth l i e : NoDup l -> nth_error l i = Some e -> tuple_index e l = Some i.
Proof.
  intros Hnd H. destruct (tuple_index_In e l) as [j Hj]. { eapply nth_error_In; eauto. }
  rewrite Hj. f_equal. apply tuple_index_nth in Hj. eapply NoDup_nth_error; eauto; [|congruence].
  apply nth_error_Some. congruence.
Qed.

Lemma set_nth_length i a l : length (set_nth i a l) = length l.
Proof.
  unfold set_nth. rewrite app_length, firstn_length.
  pose proof (skipn_length i l) as L. destruct (skipn i l); cbn [length] in *; lia.
Qed.
Lemma set_nth_cons_S i a b l : set_nth (S i) a (b :: l) = b :: set_nth i a l.
Proof. reflexivity. Qed.
Lemma nth_set_nth_same i a l : (i < length l)%nat -> nth i (set_nth i a l) 0 = a.
Proof. revert i; induction l as [|b l IH]; intros [|i] H; cbn [length] in H; try lia; [reflexivity|]. rewrite set_nth_cons_S. cbn. apply IH. lia. Qed.
Lemma nth_set_nth_other i j a l : i <> j -> nth j (set_nth i a l) 0 = nth j l 0.
Proof.
  revert i j; induction l as [|b l IH]; intros [|i] [|j] H; try reflexivity; try congruence.
  rewrite set_nth_cons_S. cbn. apply IH. congruence.
Qed.
Lemma dot_set_nth i a row v : length row = length v -> (i < length v)%nat ->
  dot (set_nth i a row) v = dot row v + (a - nth i row 0) * nth i v 0.
Proof.
  revert i v; induction row as [|b row IH]; intros [|i] [|x v] Hl Hi; cbn [length] in *; try lia.
  - change (set_nth 0 a (b :: row)) with (a :: row). rewrite !dot_cons. cbn. lra.
  - rewrite set_nth_cons_S, !dot_cons, IH by lia. cbn. lra.
Qed.

Lemma nth_map_tuple (g : list nat -> R) l i e : nth_error l i = Some e -> nth i (map g l) 0 = g e.
Proof. revert i; induction l as [|a l IH]; intros [|i]; cbn; try discriminate; [congruence|apply IH]. Qed.

Lemma mono_to_poly_row_spec monos p row (g : list nat -> R) : NoDup monos -> NoDup (map snd p) ->
  mono_to_poly_row monos p = Ok row ->
  length row = length monos /\ dot row (map g monos) = rsum (map (fun t => fst t * g (snd t)) p).
Proof.
  intros Hnm Hnp. unfold mono_to_poly_row.
  assert (G : forall p row0 row, NoDup (map snd p) -> length row0 = length monos ->
     (forall e i, In e (map snd p) -> tuple_index e monos = Some i -> nth i row0 0 = 0) ->
     fold_left (fun acc t => rbind acc (fun row =>
       match tuple_index (snd t) monos with Some i => Ok (set_nth i (fst t) row) | None => Err ValueError end)) p (Ok row0) = Ok row ->
     length row = length monos /\ dot row (map g monos) = dot row0 (map g monos) + rsum (map (fun t => fst t * g (snd t)) p)).
  { clear p row Hnp. induction p as [|[c e] p IH]; intros row0 row Hnd Hl Hz H; cbn [fold_left] in H.
    - injection H as <-. split; auto. cbn. lra.
    - cbn [rbind snd fst] in H. destruct (tuple_index e monos) as [i|] eqn:Ei.
      2:{ exfalso. clear -H. induction p as [|t p IH]; cbn in H; [discriminate|auto]. }
      cbn [map] in Hnd. inversion Hnd as [|? ? Hni Hnd']; subst. cbn [snd] in Hni.
      apply IH in H; auto.
      + destruct H as [Hlen Hdot]. split; auto. rewrite Hdot, dot_set_nth.
        * rewrite (Hz e i) by (cbn; auto). rewrite (nth_map_tuple g monos i e) by (now apply tuple_index_nth).
          cbn [map fst snd]. rewrite rsum_cons. lra.
        * now rewrite map_length.
        * rewrite map_length. eapply tuple_index_lt; eauto.
      + now rewrite set_nth_length.
      + intros e' j He' Hj. destruct (Nat.eq_dec i j) as [->|Hij].
        * exfalso. apply tuple_index_nth in Ei, Hj. assert (e = e') by congruence. subst. contradiction.
        * rewrite nth_set_nth_other by auto. apply (Hz e'); auto. cbn. auto. }
  intros H. apply G in H; auto.
  - destruct H as [H1 H2]. split; auto. rewrite H2. rewrite dot_zero_l. lra.
  - now rewrite rzero_length.
  - intros. apply nth_rzero.
Qed.

Lemma mono_to_poly_spec monos ps P (g : list nat -> R) : NoDup monos -> Forall (fun p => NoDup (map snd p)) ps ->
  mono_to_poly monos ps = Ok P ->
  mat_wf (length ps) (length monos) P /\ mv P (map g monos) = map (fun p => rsum (map (fun t => fst t * g (snd t)) p)) ps.
Proof.
  intros Hnm. unfold mono_to_poly. revert P; induction ps as [|p ps IH]; intros P Hps H; cbn in H.
  - injection H as <-. split; [split; [reflexivity|constructor]|reflexivity].
  - inversion Hps as [|? ? Hp Hps']; subst.
    destruct (mono_to_poly_row monos p) as [row|] eqn:Er; [|discriminate]. cbn in H.
    destruct (mapM (mono_to_poly_row monos) ps) as [P'|] eqn:EP; [|discriminate]. cbn in H. injection H as <-.
    destruct (IH P' Hps' eq_refl) as [[Hl Hf] Hmv]. destruct (mono_to_poly_row_spec _ _ _ g Hnm Hp Er) as [Hrl Hrd].
    split; [split; [cbn; congruence|constructor; auto]|]. cbn [mv map]. rewrite Hrd. f_equal. exact Hmv.
Qed.

Lemma mono_to_poly_row_ok monos p : incl (map snd p) monos -> exists row, mono_to_poly_row monos p = Ok row.
Proof.
  unfold mono_to_poly_row. generalize (rzero (length monos)).
  induction p as [|[c e] p IH]; intros row0 H; cbn [fold_left]; [eauto|]. cbn [rbind snd fst].
  destruct (tuple_index_In e monos) as [i ->]; [apply H; cbn; auto|]. apply IH. intros x Hx. apply H. cbn. auto.
Qed.
Lemma mono_to_poly_ok monos ps : Forall (fun p => incl (map snd p) monos) ps -> exists P, mono_to_poly monos ps = Ok P.
Proof.
  unfold mono_to_poly. induction ps as [|p ps IH]; intros H; cbn; [eauto|]. inversion H; subst.
  destruct (mono_to_poly_row_ok monos p) as [row ->]; auto. destruct IH as [P ->]; auto. cbn. eauto.
Qed.

Lemma mono_to_poly_moments monos ps P f S u : NoDup monos -> Forall (fun p => NoDup (map snd p)) ps ->
  mono_to_poly monos ps = Ok P ->
  mv P (map (central_moment f S u) monos) = map (poly_moment f S u) ps.
Proof.
  intros H1 H2 H3. destruct (mono_to_poly_spec _ _ _ (central_moment f S u) H1 H2 H3) as [_ ->].
  apply map_ext. intros p. symmetry. apply poly_moment_terms.
Qed.

(* ---- aliases ---- *)
Lemma rmono_zmonomial c e : rmono (vecR c) e = IZR (zmonomial c e).
Proof.
  revert e; induction c as [|x c IH]; intros [|n e]; try reflexivity.
  cbn [vecR map rmono zmonomial]. rewrite mult_IZR, <- pow_IZR. unfold vecR in IH. now rewrite IH.
Qed.
Lemma rsub_vecR_zero c : rsub (vecR c) (rzero (length c)) = vecR c.
Proof. apply rsub_zero_r'. apply map_length. Qed.
Lemma first_with_row_spec S row l m : first_with_row S row l = Some m -> zrow S m = row /\ In m l.
Proof.
  induction l as [|a l IH]; cbn; [discriminate|]. destruct (vec_eqb (zrow S a) row) eqn:E.
  - intros [= <-]. apply vec_eqb_eq in E. auto.
  - intros H. destruct (IH H). auto.
Qed.
Lemma unalias_row S monos m : zrow S (unalias S monos m) = zrow S m.
Proof.
  unfold unalias. destruct (tuple_in m monos); [|reflexivity].
  destruct (first_with_row S (zrow S m) monos) eqn:E; [|reflexivity]. now apply first_with_row_spec in E.
Qed.
Lemma unalias_In S monos m : In m monos -> In (unalias S monos m) monos.
Proof.
  unfold unalias. intros H. destruct (tuple_in m monos); [|auto].
  destruct (first_with_row S (zrow S m) monos) eqn:E; [|auto]. now apply first_with_row_spec in E.
Qed.
(* two listed monomials with the same row are replaced by the same monomial *)
Lemma unalias_same S monos m m' : In m monos -> In m' monos -> zrow S m = zrow S m' -> unalias S monos m = unalias S monos m'.
Proof.
  intros H H' E. unfold unalias, tuple_in.
  rewrite (proj2 (existsb_exists _ _)) by (exists m; split; [auto|apply tuple_eqb_refl]).
  rewrite (proj2 (existsb_exists _ _)) by (exists m'; split; [auto|apply tuple_eqb_refl]).
  rewrite E. destruct (first_with_row S (zrow S m') monos) eqn:E1; [reflexivity|].
  exfalso. clear -E1 H'. induction monos as [|a l IH]; [destruct H'|]. cbn in E1.
  destruct (vec_eqb (zrow S a) (zrow S m')) eqn:E2; [discriminate|].
  destruct H' as [->|H']; [now rewrite vec_eqb_refl in E2|auto].
Qed.
Lemma zrow_moment (f : list R) S e e' : zrow S e = zrow S e' -> forall c, In c S -> rmono (vecR c) e = rmono (vecR c) e'.
Proof.
  intros E c Hc. rewrite !rmono_zmonomial. f_equal. unfold zrow in E.
  clear f. induction S as [|a S IH]; [destruct Hc|]. cbn in E. injection E as E1 E2. destruct Hc as [<-|Hc]; auto.
Qed.
Lemma central_moment_zrow D f S e e' : stencil_wf D S -> zrow S e = zrow S e' ->
  central_moment f S (rzero D) e = central_moment f S (rzero D) e'.
Proof.
  intros [_ Hl] E. unfold central_moment. apply rsum_ext. intros [a c] Hin. apply in_combine_r in Hin. cbn [fst snd].
  rewrite Forall_forall in Hl. rewrite <- (Hl c Hin), rsub_vecR_zero. f_equal. now apply (zrow_moment f S).
Qed.
Lemma merge_term_sum (g : list nat -> R) t p :
  rsum (map (fun t => fst t * g (snd t)) (merge_term t p)) = fst t * g (snd t) + rsum (map (fun t => fst t * g (snd t)) p).
Proof.
  induction p as [|t' p IH]; cbn [merge_term]; [reflexivity|].
  destruct (tuple_eqb (snd t) (snd t')) eqn:E; cbn [map fst snd]; rewrite !rsum_cons.
  - apply tuple_eqb_eq in E. rewrite E. lra.
  - rewrite IH. lra.
Qed.
Lemma sympy_add_sum (g : list nat -> R) p :
  rsum (map (fun t => fst t * g (snd t)) (sympy_add p)) = rsum (map (fun t => fst t * g (snd t)) p).
Proof.
  unfold sympy_add. transitivity (rsum (map (fun t => fst t * g (snd t)) (fold_right merge_term [] p))).
  - induction (fold_right merge_term [] p) as [|t l IH]; [reflexivity|]. cbn [filter]. unfold nonzero_term at 1.
    destruct (Req_EM_T (fst t) 0) as [E|E]; cbn [map]; rewrite ?rsum_cons, IH; [rewrite E; lra|reflexivity].
  - induction p as [|t p IH]; [reflexivity|]. cbn [fold_right]. rewrite merge_term_sum, IH. reflexivity.
Qed.
Lemma merge_term_snd t p : forall e, In e (map snd (merge_term t p)) <-> e = snd t \/ In e (map snd p).
Proof.
  induction p as [|t' p IH]; intros e; cbn [merge_term].
  - cbn. intuition.
  - destruct (tuple_eqb (snd t) (snd t')) eqn:E; cbn [map In fst snd].
    + apply tuple_eqb_eq in E. rewrite E. intuition.
    + rewrite IH. intuition.
Qed.
Lemma merge_term_NoDup t p : NoDup (map snd p) -> NoDup (map snd (merge_term t p)).
Proof.
  induction p as [|t' p IH]; intros H; cbn [merge_term].
  - cbn. constructor; [auto|constructor].
  - cbn [map] in H. inversion H as [|? ? H1 H2]; subst. destruct (tuple_eqb (snd t) (snd t')) eqn:E; cbn [map fst snd].
    + constructor; auto.
    + constructor; [|auto]. rewrite merge_term_snd. intros [E'|E']; [|auto]. rewrite E', tuple_eqb_refl in E. discriminate.
Qed.
Lemma NoDup_map_filter {A B} (h : A -> B) q l : NoDup (map h l) -> NoDup (map h (filter q l)).
Proof.
  induction l as [|a l IH]; intros H; [constructor|]. cbn [map] in H. inversion H as [|? ? H1 H2]; subst. cbn [filter].
  destruct (q a); [|auto]. cbn. constructor; auto. intros Hin. apply H1. rewrite in_map_iff in *.
  destruct Hin as (x & E & Hx). exists x. split; auto. now apply filter_In in Hx.
Qed.
Lemma sympy_add_NoDup p : NoDup (map snd (sympy_add p)).
Proof.
  unfold sympy_add. apply NoDup_map_filter. induction p as [|t p IH]; [constructor|]. cbn. now apply merge_term_NoDup.
Qed.
Lemma sympy_add_incl p : incl (map snd (sympy_add p)) (map snd p).
Proof.
  unfold sympy_add. intros e H. rewrite in_map_iff in H. destruct H as (t & <- & H). apply filter_In in H. destruct H as [H _].
  assert (In (snd t) (map snd (fold_right merge_term [] p))) by (now apply in_map).
  clear H. revert H0. induction p as [|t' p IH]; [auto|]. cbn [fold_right]. rewrite merge_term_snd. cbn. intros [->|H]; auto.
Qed.
Lemma non_aliased_moment_value D S monos f p : stencil_wf D S ->
  poly_moment f S (rzero D) (non_aliased_polynomial S monos p) = poly_moment f S (rzero D) p.
Proof.
  intros Hw. rewrite !poly_moment_terms. unfold non_aliased_polynomial. rewrite sympy_add_sum, map_map.
  apply rsum_ext. intros t _. cbn [fst snd]. f_equal. apply central_moment_zrow; auto. apply unalias_row.
Qed.
Lemma non_aliased_matrix D S monos ps : stencil_wf D S ->
  moment_matrix (non_aliased_polynomial_raw_moments S monos ps) S (rzero D) = moment_matrix ps S (rzero D).
Proof.
  intros Hw. unfold moment_matrix, non_aliased_polynomial_raw_moments. rewrite map_map. apply map_ext. intros p.
  apply map_ext_in. intros c Hc. unfold peval, non_aliased_polynomial.
  rewrite (sympy_add_sum (fun e => rmono (rsub (vecR c) (rzero D)) e)), map_map.
  apply rsum_ext. intros t _. cbn [fst snd]. f_equal.
  destruct Hw as [_ Hl]. rewrite Forall_forall in Hl. rewrite <- (Hl c Hc), rsub_vecR_zero.
  apply (zrow_moment [] S); auto. apply unalias_row.
Qed.
