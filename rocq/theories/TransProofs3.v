(* The transforms compute moments in the lab frame / moving frame and undo each other. *)
From Coq Require Import String List ZArith QArith Qreals Bool Arith Reals Lra Lia.
From Verif Require Import StencilModel StencilProofs RealLib LinLib LinQ TransSpec TransModel MomModel TransProofs TransProofs2.
Import ListNotations.
Local Open Scope R_scope.

Lemma map_len_eq {A B} (h : A -> B) l n : length l = n -> length (map h l) = n.
Proof. now rewrite map_length. Qed.

(* ---- raw moments ---- *)
Section Raw.
  Variables (D n : nat) (S : stencil) (ps : list poly).
  Hypothesis Hwf : stencil_wf D S.
  Hypothesis Hq : length S = n.

  Lemma matrix_forward_moments shift f :
    matrix_forward (moment_matrix ps S (rzero D)) shift f = radd (map (poly_moment f S (rzero D)) ps) shift.
  Proof. unfold matrix_forward. now rewrite mv_moment_matrix. Qed.
  Lemma matrix_roundtrip M Minv shift f : is_inverse n M Minv -> length shift = n -> length f = n ->
    matrix_backward Minv shift (matrix_forward M shift f) = f.
  Proof.
    intros (HM & HMi & H1 & H2) Hs Hf. unfold matrix_backward, matrix_forward.
    rewrite rsub_radd_cancel by (rewrite mv_length; destruct HM; congruence). auto.
  Qed.
  Lemma matrix_roundtrip' M Minv shift m : is_inverse n M Minv -> length shift = n -> length m = n ->
    matrix_forward M shift (matrix_backward Minv shift m) = m.
  Proof.
    intros (HM & HMi & H1 & H2) Hs Hm. unfold matrix_backward, matrix_forward.
    rewrite H1 by (rewrite rsub_length; lia). apply radd_rsub_cancel. congruence.
  Qed.

  Variables (exps : list (list nat)) (P : mat).
  Hypothesis Hn : first_neighbours S.
  Hypothesis Hexp : Forall (fun e => length e = D) exps.
  Hypothesis Hnd : NoDup exps.
  Hypothesis Hps : Forall (fun p => NoDup (map snd p)) ps.
  Hypothesis HP : mono_to_poly exps ps = Ok P.

  Lemma chimera_forward_moments shift f :
    chimera_forward S exps P shift f = radd (map (poly_moment f S (rzero D)) ps) shift.
  Proof.
    unfold chimera_forward. rewrite (map_collect_raw S f D) by auto.
    rewrite (mono_to_poly_moments exps ps P f S (rzero D)) by auto. reflexivity.
  Qed.
  Lemma chimera_forward_monomial_moments shift f :
    chimera_forward_monomials S exps shift f = radd (map (central_moment f S (rzero D)) exps) shift.
  Proof. unfold chimera_forward_monomials. now rewrite (map_collect_raw S f D) by auto. Qed.
  (* the moment matrix of the polynomials is P times that of the monomials *)
  Lemma factor_matrix f : mv (moment_matrix ps S (rzero D)) f = mv P (mv (monomial_matrix exps S (rzero D)) f).
  Proof. rewrite mv_moment_matrix, mv_monomial_matrix. symmetry. now apply mono_to_poly_moments. Qed.
  Lemma chimera_roundtrip Minv Pinv shift f : is_inverse n (monomial_matrix exps S (rzero D)) Minv -> is_inverse n P Pinv ->
    length shift = n -> length f = n -> chimera_backward Minv Pinv shift (chimera_forward S exps P shift f) = f.
  Proof.
    intros (HM & HMi & H1 & H2) (HPw & HPi & H3 & H4) Hs Hf. unfold chimera_backward.
    rewrite chimera_forward_moments, rsub_radd_cancel, <- mv_moment_matrix, factor_matrix.
    2:{ rewrite map_length. destruct (mono_to_poly_spec _ _ _ (fun _ => 0) Hnd Hps HP) as [[HL _] _]. destruct HPw as [HPl _]. congruence. }
    rewrite H4 by (rewrite mv_length; apply HM). now apply H2.
  Qed.
  Lemma chimera_roundtrip' Minv Pinv shift m : is_inverse n (monomial_matrix exps S (rzero D)) Minv -> is_inverse n P Pinv ->
    length shift = n -> length m = n -> chimera_forward S exps P shift (chimera_backward Minv Pinv shift m) = m.
  Proof.
    intros (HM & HMi & H1 & H2) (HPw & HPi & H3 & H4) Hs Hm.
    rewrite chimera_forward_moments, <- mv_moment_matrix, factor_matrix. unfold chimera_backward.
    rewrite H1 by (rewrite mv_length; apply HPi). rewrite H3 by (rewrite rsub_length; lia). apply radd_rsub_cancel. congruence.
  Qed.
  (* both backward transforms give the same populations *)
  Lemma chimera_backward_matrix Minv Pinv PMinv shift m :
    is_inverse n (monomial_matrix exps S (rzero D)) Minv -> is_inverse n P Pinv -> is_inverse n (moment_matrix ps S (rzero D)) PMinv ->
    length shift = n -> length m = n ->
    chimera_backward Minv Pinv shift m = matrix_backward PMinv shift m.
  Proof.
    intros HM HPi HPM Hs Hm.
    rewrite <- (matrix_roundtrip _ _ shift (chimera_backward Minv Pinv shift m) HPM Hs).
    2:{ unfold chimera_backward. rewrite mv_length. apply HM. }
    f_equal. rewrite matrix_forward_moments, <- (chimera_forward_moments shift).
    now apply chimera_roundtrip'.
  Qed.

  (* ---- central moments ---- *)
  Variable (u : list R).
  Hypothesis Hu : length u = D.
  Lemma poly_shift_action Mpinv f : is_inverse n (moment_matrix ps S (rzero D)) Mpinv -> length f = n ->
    mv (shift_matrix n (moment_matrix ps S u) Mpinv) (map (poly_moment f S (rzero D)) ps) = map (poly_moment f S u) ps.
  Proof.
    intros (HM & HMi & H1 & H2) Hf. unfold shift_matrix. rewrite mv_mm by apply HMi.
    rewrite <- mv_moment_matrix, H2 by auto. apply mv_moment_matrix.
  Qed.
  Lemma central_matrix_moments Mpinv shift f : is_inverse n (moment_matrix ps S (rzero D)) Mpinv -> length f = n ->
    central_matrix_forward n (shift_matrix n (moment_matrix ps S u) Mpinv) (moment_matrix ps S (rzero D)) shift f =
    radd (map (poly_moment f S u) ps) shift.
  Proof.
    intros HM Hf. unfold central_matrix_forward. rewrite mv_mm.
    - rewrite mv_moment_matrix, poly_shift_action by auto. reflexivity.
    - rewrite <- Hq. apply moment_matrix_wf.
  Qed.
  Lemma fast_forward_moments shift f : fast_forward S u exps P shift f = radd (map (poly_moment f S u) ps) shift.
  Proof.
    unfold fast_forward. rewrite (map_collect_central S f u D) by auto. now rewrite (mono_to_poly_moments exps ps P).
  Qed.
  Lemma shift_forward_moments Minv w f : is_inverse n (monomial_matrix exps S (rzero D)) Minv -> length f = n -> length w = n ->
    shift_forward S exps P (shift_matrix n (monomial_matrix exps S u) Minv) (map (central_moment w S (rzero D)) exps) f =
    map (poly_moment (radd f w) S u) ps.
  Proof.
    intros HM Hf Hw. unfold shift_forward. rewrite chimera_forward_monomial_moments.
    rewrite <- !mv_monomial_matrix, <- mv_radd, mv_monomial_matrix by congruence.
    fold (Nmat n S exps Minv u). rewrite (Nmat_action D n S exps Minv HM u (radd f w)) by (rewrite radd_length; lia).
    now apply mono_to_poly_moments.
  Qed.
  Lemma binomial_forward_moments w f : down_closed exps -> length f = n -> length w = n ->
    binomial_forward S u exps P (map (central_moment w S (rzero D)) exps) f = Ok (map (poly_moment (radd f w) S u) ps).
  Proof.
    intros Hd Hf Hw. unfold binomial_forward. rewrite chimera_forward_monomial_moments.
    rewrite <- !mv_monomial_matrix, <- mv_radd, mv_monomial_matrix by congruence.
    rewrite (binomial_chimera_moments D) by (rewrite ?map_length, ?rzero_length; auto).
    cbn [rbind]. f_equal. replace (rsub (rzero D) (map Ropp u)) with u by (rewrite <- Hu, rsub_zero_opp; reflexivity).
    now apply mono_to_poly_moments.
  Qed.

  Lemma central_matrix_roundtrip M Minv N Ninv shift f : is_inverse n M Minv -> is_inverse n N Ninv ->
    length shift = n -> length f = n ->
    central_matrix_backward n Minv Ninv shift (central_matrix_forward n N M shift f) = f.
  Proof.
    intros HM HN. pose proof (is_inverse_mm n N Ninv M Minv HN HM) as H. intros Hs Hf.
    apply (matrix_roundtrip (mm n N M) (mm n Minv Ninv)); auto.
  Qed.
  Lemma fast_roundtrip Minv Ninv Pinv shift f : is_inverse n (monomial_matrix exps S (rzero D)) Minv -> is_inverse n P Pinv ->
    is_inverse n (shift_matrix n (monomial_matrix exps S u) Minv) Ninv ->
    length shift = n -> length f = n -> fast_backward n Minv Ninv Pinv shift (fast_forward S u exps P shift f) = f.
  Proof.
    intros HM HPi HN Hs Hf. unfold fast_backward.
    destruct (mono_to_poly_spec _ _ _ (fun _ => 0) Hnd Hps HP) as [[HL _] _].
    rewrite fast_forward_moments, rsub_radd_cancel. 2:{ rewrite map_length. destruct HPi as [[H _] _]. congruence. }
    rewrite <- (mono_to_poly_moments exps ps P f S u) by auto.
    destruct HPi as (_ & _ & _ & HP4). rewrite HP4.
    2:{ rewrite map_length. apply (exps_len D n S exps Minv HM). }
    rewrite mv_mm by apply HN. rewrite <- (Nmat_action D n S exps Minv HM u f) by auto. unfold Nmat.
    destruct HN as (_ & _ & _ & HN4). rewrite HN4. 2:{ rewrite map_length. apply (exps_len D n S exps Minv HM). }
    rewrite <- mv_monomial_matrix. destruct HM as (_ & _ & _ & HM4). now apply HM4.
  Qed.
  Lemma shift_roundtrip Minv N Ninv Pinv rshift f : is_inverse n (monomial_matrix exps S (rzero D)) Minv -> is_inverse n P Pinv ->
    is_inverse n N Ninv -> length rshift = n -> length f = n ->
    shift_backward Minv Ninv Pinv rshift (shift_forward S exps P N rshift f) = f.
  Proof.
    intros HM HPi HN Hs Hf. unfold shift_backward, shift_forward.
    pose proof (exps_len D n S exps Minv HM) as Le.
    assert (Lc : length (chimera_forward_monomials S exps rshift f) = n).
    { unfold chimera_forward_monomials. rewrite radd_length, map_length. lia. }
    destruct HPi as (_ & _ & _ & HP4). rewrite HP4 by (rewrite mv_length; apply HN).
    destruct HN as (_ & _ & _ & HN4). rewrite HN4 by auto.
    unfold chimera_backward_monomials. rewrite chimera_forward_monomial_moments, rsub_radd_cancel by (rewrite map_length; congruence).
    rewrite <- mv_monomial_matrix. destruct HM as (_ & _ & _ & HM4). now apply HM4.
  Qed.
  Lemma binomial_roundtrip Minv Pinv rshift f : is_inverse n (monomial_matrix exps S (rzero D)) Minv -> is_inverse n P Pinv ->
    down_closed exps -> length rshift = n -> length f = n ->
    rbind (binomial_forward S u exps P rshift f) (binomial_backward u exps Minv Pinv rshift) = Ok f.
  Proof.
    intros HM HPi Hd Hs Hf. pose proof (exps_len D n S exps Minv HM) as Le.
    set (m := chimera_forward_monomials S exps rshift f).
    assert (Lc : length m = length exps).
    { unfold m, chimera_forward_monomials. rewrite radd_length, map_length. lia. }
    unfold binomial_forward, binomial_backward. fold m.
    pose proof (binomial_chimera_comp D u (map Ropp u) exps m Hu (map_len_eq _ _ _ Hu) Hnd Lc Hexp Hd) as HC.
    rewrite radd_opp, Hu, (binomial_chimera_id D) in HC by auto.
    destruct (binomial_chimera (map Ropp u) exps m) as [k|] eqn:Ek; [|discriminate]. cbn [rbind] in *.
    destruct HPi as (_ & _ & _ & HP4). rewrite HP4.
    2:{ unfold binomial_chimera in Ek. apply mapM_Ok_length in Ek. congruence. }
    rewrite HC. cbn [rbind]. f_equal. unfold chimera_backward_monomials, m.
    rewrite chimera_forward_monomial_moments, rsub_radd_cancel by (rewrite map_length; congruence).
    rewrite <- mv_monomial_matrix. destruct HM as (_ & _ & _ & HM4). now apply HM4.
  Qed.
End Raw.

Lemma reduced_matrix_moments D n S ps redps red Pm u Mpinv Minv Ninv f :
  stencil_wf D S -> length S = n -> length u = D -> NoDup red -> Forall (fun e => length e = D) red ->
  Forall (fun p => NoDup (map snd p)) redps ->
  (forall f, map (poly_moment f S (rzero D)) redps = map (poly_moment f S (rzero D)) ps) ->
  mono_to_poly red redps = Ok Pm ->
  is_inverse n (moment_matrix ps S (rzero D)) Mpinv -> is_inverse n (monomial_matrix red S (rzero D)) Minv ->
  is_inverse n (shift_matrix n (monomial_matrix red S u) Minv) Ninv -> length f = n ->
  mv (reduced_mono_to_poly n (shift_matrix n (moment_matrix ps S u) Mpinv) Pm Ninv) (map (central_moment f S u) red) =
  map (poly_moment f S u) ps.
Proof.
  intros Hwf Hq Hu Hnd Hexp Hps Hred HP HMp HM HN Hf. unfold reduced_mono_to_poly.
  rewrite mv_mm by apply HN.
  rewrite <- (Nmat_action D n S red Minv HM u f) by auto. unfold Nmat.
  pose proof (exps_len D n S red Minv HM) as Le.
  destruct HN as (_ & _ & _ & HN4). rewrite HN4. 2:{ now rewrite map_length. }
  rewrite mv_mm.
  - rewrite (mono_to_poly_moments red redps Pm f S (rzero D)) by auto. rewrite Hred.
    now apply (poly_shift_action D n S ps).
  - destruct (mono_to_poly_spec _ _ _ (fun _ => 0) Hnd Hps HP) as [[_ H] _]. rewrite <- Le. exact H.
Qed.

(* ---- regrouping of the backward equations ---- *)
Lemma ueval_uscal s x : forall us, ueval us (uscal s x) = s * ueval us x.
Proof. induction x as [r|a IHa b IHb c IHc]; intros us; cbn [uscal ueval]; [reflexivity|]. rewrite IHa, IHb, IHc. ring. Qed.
Lemma ueval_uaddc r x : forall us, ueval us (uaddc r x) = r + ueval us x.
Proof. induction x as [r'|a IHa b IHb c IHc]; intros us; cbn [uaddc ueval]; [reflexivity|]. rewrite IHc. ring. Qed.
Lemma ueval_uadd x : forall y us, ueval us (uadd x y) = ueval us x + ueval us y.
Proof.
  induction x as [r|a IHa b IHb c IHc]; intros y us.
  - destruct y; cbn [uadd]; rewrite ueval_uaddc; reflexivity.
  - destruct y as [r'|a' b' c']; cbn [uadd].
    + rewrite ueval_uaddc. cbn [ueval]. ring.
    + cbn [ueval]. rewrite IHa, IHb, IHc. ring.
Qed.
Lemma ueval_ulin s x t y us : ueval us (ulin s x t y) = s * ueval us x + t * ueval us y.
Proof. unfold ulin. now rewrite ueval_uadd, !ueval_uscal. Qed.
Lemma split_backward_eq n : forall us ds x, Forall (fun d => In d [-1;0;1]%Z) ds -> split_backward n us ds x = ueval us x.
Proof.
  induction n as [|n IH]; intros us ds x Hd; [destruct x; reflexivity|].
  destruct x as [r|a b c]; [reflexivity|].
  assert (Hhd : In (hd 0%Z ds) [-1;0;1]%Z). { destruct ds; [cbn; auto|]. inversion Hd; subst; auto. }
  assert (Htl : Forall (fun d => In d [-1;0;1]%Z) (tl ds)). { destruct ds; [constructor|]. inversion Hd; subst; auto. }
  cbn [split_backward]. set (d := hd 0%Z ds) in *. set (u := hd 0 us).
  destruct Hhd as [<-|[<-|[<-|[]]]]; unfold proxy_coeffs, grouping_factors, common_factor, factor0; cbn [Z.eqb Pos.eqb];
    rewrite !IH by auto; rewrite ?ueval_uscal, ?ueval_ulin, ?ueval_uscal; cbn [ueval]; fold u; field.
Qed.

(* ---- executable conditions ---- *)
Fixpoint below (e : list nat) : list (list nat) :=
  match e with [] => [[]] | n :: e => flat_map (fun a => map (cons a) (below e)) (seq 0 (n + 1)) end.
Lemma in_below e r : Forall2 le r e -> In r (below e).
Proof.
  induction 1 as [|a b r e H1 H2 IH]; cbn; [auto|]. apply in_flat_map. exists a. split; [apply in_seq; lia|]. now apply in_map.
Qed.
Definition down_closed_b (exps : list (list nat)) : bool := forallb (fun e => forallb (fun r => tuple_in r exps) (below e)) exps.
Lemma tuple_in_In e l : tuple_in e l = true -> In e l.
Proof. unfold tuple_in. rewrite existsb_exists. intros (x & Hx & E). apply tuple_eqb_eq in E. now subst. Qed.
Lemma down_closed_b_ok exps : down_closed_b exps = true -> down_closed exps.
Proof.
  unfold down_closed_b. rewrite forallb_forall. intros H e r He _ Hr. specialize (H e He). rewrite forallb_forall in H.
  apply tuple_in_In, H, in_below, Hr.
Qed.
Definition qmonomial_matrix (es : list (list nat)) (S : stencil) : list (list Q) := map (fun e => map inject_Z (zrow S e)) es.
Lemma qmonomial_matrix_R D es S : stencil_wf D S -> monomial_matrix es S (rzero D) = q2r (qmonomial_matrix es S).
Proof.
  intros [_ Hl]. unfold monomial_matrix, q2r, qmonomial_matrix, zrow. rewrite map_map. apply map_ext. intros e.
  rewrite !map_map. apply map_ext_in. intros c Hc. rewrite Forall_forall in Hl. rewrite <- (Hl c Hc), rsub_vecR_zero, rmono_zmonomial.
  unfold Q2R, inject_Z; cbn. lra.
Qed.
Fixpoint nodup_tuples_b (l : list (list nat)) : bool := match l with [] => true | a :: l => negb (tuple_in a l) && nodup_tuples_b l end.
Lemma nodup_tuples_b_ok l : nodup_tuples_b l = true -> NoDup l.
Proof.
  induction l as [|a l IH]; cbn; [constructor|]. rewrite andb_true_iff, negb_true_iff. intros [H1 H2]. constructor; auto.
  intros Hin. unfold tuple_in in H1. rewrite (proj2 (existsb_exists _ _)) in H1; [discriminate|]. exists a. split; auto. apply tuple_eqb_refl.
Qed.
Definition stencil_wf_b (D : nat) (S : stencil) : bool := negb (has_dup S) && forallb (fun c => Nat.eqb (length c) D) S.
Lemma stencil_wf_b_ok D S : stencil_wf_b D S = true -> stencil_wf D S.
Proof.
  unfold stencil_wf_b. rewrite andb_true_iff, negb_true_iff, forallb_forall. intros [H1 H2]. split; [now apply has_dup_NoDup|].
  apply Forall_forall. intros c Hc. apply Nat.eqb_eq; auto.
Qed.
Definition first_neighbours_b (S : stencil) : bool := forallb (forallb (fun x => (-1 <=? x)%Z && (x <=? 1)%Z)) S.
Lemma first_neighbours_b_ok S : first_neighbours_b S = true -> first_neighbours S.
Proof.
  unfold first_neighbours_b, first_neighbours. rewrite forallb_forall, Forall_forall. intros H c Hc. specialize (H c Hc).
  rewrite forallb_forall in H. apply Forall_forall. intros x Hx. specialize (H x Hx). apply andb_true_iff in H.
  rewrite !Z.leb_le in H. cbn. lia.
Qed.
