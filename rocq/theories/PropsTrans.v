(* C14 raw moment transforms, C15 central moment transforms. *)
From Coq Require Import String List ZArith QArith Qreals Bool Arith Reals Lra Lia.
From Verif Require Import StencilModel StencilProofs RealLib LinLib LinQ TransSpec TransModel MomModel MomProofs TransProofs TransProofs2 TransProofs3.
Import ListNotations.
Local Open Scope R_scope.

(* a stencil with n directions of dimension D, the monomials exps, expanded polynomials ps made of these monomials
   and the matrix P that combines the polynomials from the monomials *)
Record moment_setup (D n : nat) (S : stencil) (exps : list (list nat)) (ps : list poly) (P : mat) : Prop := {
  ms_stencil : stencil_wf D S;
  ms_q : length S = n;
  ms_first : first_neighbours S;
  ms_dim : Forall (fun e => length e = D) exps;
  ms_exps : NoDup exps;
  ms_polys : Forall (fun p => NoDup (map snd p)) ps;
  ms_P : mono_to_poly exps ps = Ok P }.

(* the matrix transform computes the moments sum_q f_q p(c_q), plus the moments of the background *)
Theorem C14_matrix_computes_moments : forall D S ps shift f,
  matrix_forward (moment_matrix ps S (rzero D)) shift f = radd (map (poly_moment f S (rzero D)) ps) shift.
Proof. intros. apply matrix_forward_moments. Qed.
Print Assumptions C14_matrix_computes_moments.

Theorem C14_matrix_round_trip : forall n M Minv shift, is_inverse n M Minv -> length shift = n ->
  (forall f, length f = n -> matrix_backward Minv shift (matrix_forward M shift f) = f) /\
  (forall m, length m = n -> matrix_forward M shift (matrix_backward Minv shift m) = m).
Proof. intros n M Minv shift H Hs. split; intros x Hx; [now apply (matrix_roundtrip n)|now apply (matrix_roundtrip' n (repeat [] n) (repeat_length _ _))]. Qed.
Print Assumptions C14_matrix_round_trip.

(* zero-centred storage: populations are stored relative to a background w, the moments are those of f + w *)
Theorem C14_background : forall D n S exps ps P w f, moment_setup D n S exps ps P -> length f = n -> length w = n ->
  matrix_forward (moment_matrix ps S (rzero D)) (map (poly_moment w S (rzero D)) ps) f = map (poly_moment (radd f w) S (rzero D)) ps /\
  chimera_forward S exps P (map (poly_moment w S (rzero D)) ps) f = map (poly_moment (radd f w) S (rzero D)) ps.
Proof.
  intros D n S exps ps P w f [] Hf Hw. rewrite map_poly_moment_radd by congruence.
  split; [apply matrix_forward_moments|]. now apply chimera_forward_moments.
Qed.
Print Assumptions C14_background.

(* one monomial: the nested partial sums give sum_q f_q c_q^e *)
Theorem C14_partial_sums : forall D S f e, stencil_wf D S -> first_neighbours S -> length e = D ->
  collect_raw S f [] e = central_moment f S (rzero D) e.
Proof. intros. now apply collect_raw_moment. Qed.
Print Assumptions C14_partial_sums.

(* the fast transform is the multiplication with the moment matrix *)
Theorem C14_chimera_is_moment_matrix : forall D n S exps ps P shift f, moment_setup D n S exps ps P ->
  chimera_forward S exps P shift f = matrix_forward (moment_matrix ps S (rzero D)) shift f.
Proof. intros D n S exps ps P shift f []. rewrite matrix_forward_moments. now apply chimera_forward_moments. Qed.
Print Assumptions C14_chimera_is_moment_matrix.

Theorem C14_chimera_round_trip : forall D n S exps ps P Minv Pinv shift, moment_setup D n S exps ps P ->
  is_inverse n (monomial_matrix exps S (rzero D)) Minv -> is_inverse n P Pinv -> length shift = n ->
  (forall f, length f = n -> chimera_backward Minv Pinv shift (chimera_forward S exps P shift f) = f) /\
  (forall m, length m = n -> chimera_forward S exps P shift (chimera_backward Minv Pinv shift m) = m) /\
  (forall PMinv m, is_inverse n (moment_matrix ps S (rzero D)) PMinv -> length m = n ->
     chimera_backward Minv Pinv shift m = matrix_backward PMinv shift m).
Proof.
  intros D n S exps ps P Minv Pinv shift [] HM HP Hs. split; [|split]; intros.
  - eapply (chimera_roundtrip D n S ps); eauto.
  - eapply (chimera_roundtrip' D n S ps); eauto.
  - eapply (chimera_backward_matrix D n S ps); eauto.
Qed.
Print Assumptions C14_chimera_round_trip.

(* monomial transforms (used by the central moment transforms) *)
Theorem C14_monomial_round_trip : forall D n S exps ps P Minv shift f, moment_setup D n S exps ps P ->
  is_inverse n (monomial_matrix exps S (rzero D)) Minv -> length shift = n -> length f = n ->
  chimera_forward_monomials S exps shift f = radd (map (central_moment f S (rzero D)) exps) shift /\
  chimera_backward_monomials Minv shift (chimera_forward_monomials S exps shift f) = f.
Proof.
  intros D n S exps ps P Minv shift f [] HM Hs Hf.
  assert (E : chimera_forward_monomials S exps shift f = radd (map (central_moment f S (rzero D)) exps) shift).
  { now apply chimera_forward_monomial_moments. }
  split; [exact E|]. rewrite E. unfold chimera_backward_monomials. rewrite <- mv_monomial_matrix.
  apply (matrix_roundtrip n _ _ shift f HM); auto.
Qed.
Print Assumptions C14_monomial_round_trip.

(* the polynomialisation matrix exists as soon as all monomials are listed, and fails with a ValueError otherwise *)
Theorem C14_polynomialisation : forall exps ps, NoDup exps -> Forall (fun p => NoDup (map snd p)) ps ->
  (Forall (fun p => incl (map snd p) exps) ps ->
   exists P, mono_to_poly exps ps = Ok P /\ forall f S u, mv P (map (central_moment f S u) exps) = map (poly_moment f S u) ps) /\
  (forall P, mono_to_poly exps ps = Ok P -> Forall (fun p => incl (map snd p) exps) ps).
Proof.
  intros exps ps H1 H2. split.
  - intros H3. destruct (mono_to_poly_ok exps ps H3) as [P HP]. exists P. split; [exact HP|]. intros. now apply mono_to_poly_moments.
  - clear H1 H2. unfold mono_to_poly. induction ps as [|p ps IH]; intros P H; [constructor|]. cbn in H.
    destruct (mono_to_poly_row exps p) as [row|] eqn:Er; [|discriminate]. cbn in H.
    destruct (mapM (mono_to_poly_row exps) ps) as [P'|] eqn:EP; [|discriminate]. constructor; [|eapply IH; eauto].
    clear -Er. unfold mono_to_poly_row in Er. revert Er. generalize (rzero (length exps)).
    induction p as [|[c e] p IH]; intros row0 H; [intros x []|]. cbn [fold_left rbind snd fst] in H.
    destruct (tuple_index e exps) as [i|] eqn:Ei.
    + intros x [<-|Hx]; [|eapply IH; eauto]. cbn. apply tuple_index_nth in Ei. eapply nth_error_In; eauto.
    + exfalso. clear -H. induction p as [|t p IH]; cbn in H; [discriminate|auto].
Qed.
Print Assumptions C14_polynomialisation.

(* de-aliasing replaces monomials by listed ones with the same values on the stencil: no entry of the moment matrix
   changes, terms stay distinct, and aliases of each other are merged into one representative *)
Theorem C14_dealiasing : forall D S monos ps, stencil_wf D S ->
  moment_matrix (non_aliased_polynomial_raw_moments S monos ps) S (rzero D) = moment_matrix ps S (rzero D) /\
  Forall (fun p => NoDup (map snd p)) (non_aliased_polynomial_raw_moments S monos ps) /\
  (forall m m', In m monos -> In m' monos ->
     In (unalias S monos m) monos /\
     ((forall c, In c S -> rmono (vecR c) m = rmono (vecR c) m') -> unalias S monos m = unalias S monos m')).
Proof.
  intros D S monos ps Hw. split; [now apply non_aliased_matrix|]. split.
  - apply Forall_forall. intros p Hp. unfold non_aliased_polynomial_raw_moments in Hp. apply in_map_iff in Hp.
    destruct Hp as (q & <- & _). apply sympy_add_NoDup.
  - intros m m' Hm Hm'. split; [now apply unalias_In|]. intros H. apply unalias_same; auto.
    unfold zrow. apply map_ext_in. intros c Hc. specialize (H c Hc). rewrite !rmono_zmonomial in H. now apply eq_IZR.
Qed.
Print Assumptions C14_dealiasing.

(* the partial sums only visit velocity components -1, 0, 1: populations of faster directions are dropped *)
Theorem C14_multispeed_refuted : exists S f, predefined_stencils "D2V17" "walberla" = Ok S /\ stencil_wf 2 S /\ length f = length S /\
  collect_raw S f [] [0; 0]%nat <> central_moment f S (rzero 2) [0; 0]%nat.
Proof.
  destruct (predefined_stencils "D2V17" "walberla") as [S|] eqn:E; [|vm_compute in E; discriminate].
  exists S, (repeat 1 (length S)). vm_compute in E. injection E as <-.
  split; [reflexivity|]. split; [apply stencil_wf_b_ok; vm_compute; reflexivity|]. split; [rewrite repeat_length; reflexivity|].
  unfold collect_raw, central_moment. cbn. lra.
Qed.
Print Assumptions C14_multispeed_refuted.

(* ---- C15 ---- *)

(* all four transforms compute sum_q (f_q + w_q) p(c_q - u), w the background (zero if populations are stored absolutely) *)
Theorem C15_transforms_compute_central_moments : forall D n S exps ps P u w f Mpinv Minv,
  moment_setup D n S exps ps P -> length u = D -> length w = n -> length f = n ->
  is_inverse n (moment_matrix ps S (rzero D)) Mpinv -> is_inverse n (monomial_matrix exps S (rzero D)) Minv ->
  let moments := map (poly_moment (radd f w) S u) ps in
  let background := map (poly_moment w S u) ps in
  let raw_background := map (central_moment w S (rzero D)) exps in
  central_matrix_forward n (shift_matrix n (moment_matrix ps S u) Mpinv) (moment_matrix ps S (rzero D)) background f = moments /\
  fast_forward S u exps P background f = moments /\
  shift_forward S exps P (shift_matrix n (monomial_matrix exps S u) Minv) raw_background f = moments /\
  (down_closed exps -> binomial_forward S u exps P raw_background f = Ok moments).
Proof.
  intros D n S exps ps P u w f Mpinv Minv [] Hu Hw Hf HMp HM. cbv zeta. repeat split.
  - rewrite (central_matrix_moments D n) by auto. symmetry. apply map_poly_moment_radd. congruence.
  - rewrite (fast_forward_moments D S ps) by auto. symmetry. apply map_poly_moment_radd. congruence.
  - now apply (shift_forward_moments D n S ps).
  - intros Hd. now apply (binomial_forward_moments D n S ps).
Qed.
Print Assumptions C15_transforms_compute_central_moments.

Theorem C15_round_trips : forall D n S exps ps P u Minv Pinv Ninv shift f,
  moment_setup D n S exps ps P -> length u = D -> length shift = n -> length f = n ->
  is_inverse n (monomial_matrix exps S (rzero D)) Minv -> is_inverse n P Pinv ->
  is_inverse n (shift_matrix n (monomial_matrix exps S u) Minv) Ninv ->
  (forall Mpinv Npinv, is_inverse n (moment_matrix ps S (rzero D)) Mpinv ->
     is_inverse n (shift_matrix n (moment_matrix ps S u) Mpinv) Npinv ->
     central_matrix_backward n Mpinv Npinv shift
       (central_matrix_forward n (shift_matrix n (moment_matrix ps S u) Mpinv) (moment_matrix ps S (rzero D)) shift f) = f) /\
  fast_backward n Minv Ninv Pinv shift (fast_forward S u exps P shift f) = f /\
  shift_backward Minv Ninv Pinv shift (shift_forward S exps P (shift_matrix n (monomial_matrix exps S u) Minv) shift f) = f /\
  (down_closed exps -> rbind (binomial_forward S u exps P shift f) (binomial_backward u exps Minv Pinv shift) = Ok f).
Proof.
  intros D n S exps ps P u Minv Pinv Ninv shift f [] Hu Hs Hf HM HP HN. repeat split.
  - intros Mpinv Npinv HMp HNp. now apply central_matrix_roundtrip.
  - eapply (fast_roundtrip D n S ps); eauto.
  - eapply (shift_roundtrip D n S); eauto.
  - intros Hd. eapply (binomial_roundtrip D n S); eauto.
Qed.
Print Assumptions C15_round_trips.

(* the binomial formula, for any order and any cloud of weighted points x_q (lattice velocities or not):
   it turns the moments sum_q f_q x_q^e into sum_q f_q (x_q + v)^e *)
Theorem C15_binomial_formula : forall (cloud : list (R * list R)) D vs e (env : list nat -> res R),
  Forall (fun fx => length (snd fx) = D) cloud -> length vs = D -> length e = D ->
  (forall r, Forall2 le r e -> env r = Ok (rsum (map (fun fx => fst fx * rmono (snd fx) r) cloud))) ->
  binomial_derive vs env [] e = Ok (rsum (map (fun fx => fst fx * rmono (radd (snd fx) vs) e) cloud)).
Proof.
  intros cloud D vs e env Hc Hv He Henv.
  rewrite (binomial_derive_ok vs env e [] (fun r => rsum (map (fun fx => fst fx * rmono (snd fx) r) cloud))) by (auto; congruence).
  f_equal. rewrite (bshift_sum vs e (fun fx r => fst fx * rmono (snd fx) r)). apply rsum_ext. intros fx Hfx.
  rewrite Forall_forall in Hc. specialize (Hc fx Hfx).
  rewrite (bshift_scal vs (fst fx) e (rmono (snd fx))), bshift_mono by congruence. reflexivity.
Qed.
Print Assumptions C15_binomial_formula.

(* hence central moments do not change when points and frame are moved together *)
Theorem C15_frame_independent : forall (cloud : list (R * list R)) D (u s : list R) e,
  Forall (fun fx => length (snd fx) = D) cloud -> length u = D -> length s = D ->
  rsum (map (fun fx => fst fx * rmono (rsub (radd (snd fx) s) (radd u s)) e) cloud) =
  rsum (map (fun fx => fst fx * rmono (rsub (snd fx) u) e) cloud).
Proof.
  intros cloud D u s e Hc Hu Hs. apply rsum_ext. intros [a x] Hin. rewrite Forall_forall in Hc. specialize (Hc _ Hin). cbn [fst snd] in *.
  f_equal. f_equal. revert u s D Hc Hu Hs. clear. induction x as [|b x IH]; intros [|c u] [|d s] D Hx Hu Hs; try (cbn in *; congruence); try reflexivity.
  rewrite !radd_cons, !rsub_cons. f_equal; [lra|]. destruct D; [discriminate|]. apply (IH u s D); cbn in *; lia.
Qed.
Print Assumptions C15_frame_independent.

(* shifting by v and then by u is shifting by u + v; shifting by u undoes shifting by -u, for any values of the moments *)
Theorem C15_shifts_compose : forall D exps vals u v, length u = D -> length v = D -> NoDup exps ->
  length vals = length exps -> Forall (fun e => length e = D) exps -> down_closed exps ->
  rbind (binomial_chimera v exps vals) (binomial_chimera u exps) = binomial_chimera (radd u v) exps vals /\
  rbind (binomial_chimera (map Ropp u) exps vals) (binomial_chimera u exps) = Ok vals.
Proof.
  intros D exps vals u v Hu Hv Hnd Hl He Hd. split; [now apply (binomial_chimera_comp D)|].
  rewrite (binomial_chimera_comp D) by (rewrite ?map_length; auto). rewrite radd_opp, Hu. now apply binomial_chimera_id.
Qed.
Print Assumptions C15_shifts_compose.

(* the shift matrix is the binomial formula: entry (i,j) is prod_a binom(e_i,e_j)_a (-u_a)^(e_i-e_j)_a; both assertions of
   set_up_shift_matrix hold for monomials sorted by order, and the matrix for -u is its inverse *)
Theorem C15_shift_matrix : forall D n S exps Minv u,
  stencil_wf D S -> length S = n -> Forall (fun e => length e = D) exps -> NoDup exps -> down_closed exps -> length u = D ->
  is_inverse n (monomial_matrix exps S (rzero D)) Minv ->
  let N v := shift_matrix n (monomial_matrix exps S v) Minv in
  (forall vals, length vals = n -> binomial_chimera (map Ropp u) exps vals = Ok (mv (N u) vals)) /\
  is_inverse n (N u) (N (map Ropp u)) /\
  (forall i j ei ej, nth_error exps i = Some ei -> nth_error exps j = Some ej ->
     nth j (nth i (N u) []) 0 = multi_choose (map Ropp u) ei ej) /\
  ((forall i j ei ej, nth_error exps i = Some ei -> nth_error exps j = Some ej -> (i <= j)%nat -> (nsum ei <= nsum ej)%nat) ->
   is_lower (N u) /\ diagonal_sum (N u) = INR n).
Proof.
  intros D n S exps Minv u Hw Hq He Hnd Hd Hu HM. cbv zeta.
  pose proof (exps_len D n S exps Minv HM) as Le.
  assert (Hent : forall i j ei ej, nth_error exps i = Some ei -> nth_error exps j = Some ej ->
     nth j (nth i (shift_matrix n (monomial_matrix exps S u) Minv) []) 0 = multi_choose (map Ropp u) ei ej).
  { intros. now apply (Nmat_entry D n S exps Minv Hw Hq He HM). }
  destruct (Nmat_wf D n S exps Minv Hq HM u) as [Hr Hc]. unfold Nmat in Hr, Hc.
  repeat split; try (apply (Nmat_inverse D n S exps Minv); auto; fail).
  - intros vals Hv. now apply (Nmat_binomial D n S exps Minv).
  - exact Hent.
  - intros i j Hij. destruct (Nat.lt_ge_cases j n) as [Hj|Hj].
    + destruct (nth_error exps i) as [ei|] eqn:Ei; [|apply nth_error_None in Ei; lia].
      destruct (nth_error exps j) as [ej|] eqn:Ej; [|apply nth_error_None in Ej; lia].
      rewrite (Hent i j ei ej Ei Ej). pose proof He as He'. rewrite Forall_forall in He'.
      pose proof (He' ei (nth_error_In _ _ Ei)) as Lei. pose proof (He' ej (nth_error_In _ _ Ej)) as Lej.
      apply multi_choose_above; rewrite ?map_length; try congruence.
      intros Hle. destruct (Forall2_le_nsum _ _ Hle) as [H1 H2].
      specialize (H i j ei ej Ei Ej ltac:(lia)). assert (ej = ei) by (apply H2; lia). subst.
      assert (i = j). { eapply NoDup_nth_error; eauto; [lia|congruence]. } lia.
    + destruct (Nat.lt_ge_cases i n) as [Hi|Hi].
      * apply nth_overflow. rewrite Forall_forall in Hc. rewrite Hc; [auto|]. apply nth_In. lia.
      * rewrite (nth_overflow (shift_matrix _ _ _)) by lia. now destruct j.
  - unfold diagonal_sum. rewrite Hr, (rsum_ext _ (fun _ => 1)).
    + rewrite rsum_const, seq_length. lra.
    + intros i Hi. apply in_seq in Hi. destruct (nth_error exps i) as [ei|] eqn:Ei; [|apply nth_error_None in Ei; lia].
      rewrite (Hent i i ei ei Ei Ei). apply multi_choose_diag.
Qed.
Print Assumptions C15_shift_matrix.

(* de-aliased polynomial central moments: the reduced matrix computes the original polynomials from the reduced monomials *)
Theorem C15_reduced_polynomialisation : forall D n S ps monos red Pm u Mpinv Minv Ninv f,
  stencil_wf D S -> length S = n -> length u = D -> NoDup red -> Forall (fun e => length e = D) red ->
  mono_to_poly red (non_aliased_polynomial_raw_moments S monos ps) = Ok Pm ->
  is_inverse n (moment_matrix ps S (rzero D)) Mpinv -> is_inverse n (monomial_matrix red S (rzero D)) Minv ->
  is_inverse n (shift_matrix n (monomial_matrix red S u) Minv) Ninv -> length f = n ->
  mv (reduced_mono_to_poly n (shift_matrix n (moment_matrix ps S u) Mpinv) Pm Ninv) (map (central_moment f S u) red) =
  map (poly_moment f S u) ps.
Proof.
  intros D n S ps monos red Pm u Mpinv Minv Ninv f Hw Hq Hu Hnd He HP HMp HM HN Hf.
  eapply (reduced_matrix_moments D n S ps (non_aliased_polynomial_raw_moments S monos ps)); eauto.
  - apply (C14_dealiasing D S monos ps Hw).
  - intros g. unfold non_aliased_polynomial_raw_moments. rewrite map_map. apply map_ext. intros p. now apply non_aliased_moment_value.
Qed.
Print Assumptions C15_reduced_polynomialisation.

(* regrouping the backward equations by (1, 2u+-1, u^2+-u) / (-1, -2u, 1-u^2) does not change their values *)
Theorem C15_backward_regrouping : forall depth us ds x, Forall (fun d => In d [-1; 0; 1]%Z) ds ->
  split_backward depth us ds x = ueval us x.
Proof. exact split_backward_eq. Qed.
Print Assumptions C15_backward_regrouping.

(* a set of monomials that is not closed under taking lower exponents leaves undefined symbols in the binomial transform *)
Theorem C15_binomial_missing_moment_refuted : exists D exps vals u, length u = D /\ length vals = length exps /\ NoDup exps /\
  Forall (fun e => length e = D) exps /\ binomial_chimera u exps vals = Err KeyError.
Proof.
  exists 2%nat, [[0;0];[1;0];[0;1];[2;0];[0;2];[1;1];[2;2]]%nat, (repeat 0 7), [1; 1]. repeat split.
  - apply nodup_tuples_b_ok. vm_compute. reflexivity.
  - repeat constructor.
Qed.
Print Assumptions C15_binomial_missing_moment_refuted.

(* non-vacuity: the monomials of component order <= 2 on D2Q9 and D3Q27 *)
Example transforms_setup_D2Q9 : exists Minv P Pinv,
  let exps := moments_up_to_component_order 2 2 in
  moment_setup 2 9 D2Q9_walberla exps (map mono_poly exps) P /\
  is_inverse 9 (monomial_matrix exps D2Q9_walberla (rzero 2)) Minv /\ is_inverse 9 P Pinv /\ down_closed exps.
Proof.
  set (exps := moments_up_to_component_order 2 2). assert (Hw : stencil_wf 2 D2Q9_walberla) by (apply stencil_wf_b_ok; vm_compute; reflexivity).
  assert (Hnd : NoDup exps) by (apply nodup_tuples_b_ok; vm_compute; reflexivity).
  assert (HP : exists P, mono_to_poly exps (map mono_poly exps) = Ok P).
  { apply mono_to_poly_ok. apply Forall_forall. intros p Hp. apply in_map_iff in Hp. destruct Hp as (e & <- & He). intros x [<-|[]]. exact He. }
  destruct HP as [P HP].
  assert (Hpn : Forall (fun p : poly => NoDup (map snd p)) (map mono_poly exps)).
  { apply Forall_forall. intros p Hp. apply in_map_iff in Hp. destruct Hp as (e & <- & _). constructor; [intros []|constructor]. }
  exists (q2r (qinv (qmonomial_matrix exps D2Q9_walberla))), P, P. cbv zeta. split; [|split; [|split]].
  - constructor; auto.
    + apply first_neighbours_b_ok. vm_compute. reflexivity.
    + repeat constructor.
  - rewrite (qmonomial_matrix_R 2) by exact Hw. apply qinverse_check_R. vm_compute. reflexivity.
  - destruct (mono_to_poly_spec exps _ P (fun _ => 0) Hnd Hpn HP) as [HPw _].
    assert (Hid : forall x, length x = 9%nat -> mv P x = x).
    { intros x Hx. rewrite <- (map_env_val exps x Hnd Hx) at 1.
      destruct (mono_to_poly_spec exps _ P (env_val exps x) Hnd Hpn HP) as [_ ->].
      rewrite map_map. transitivity (map (env_val exps x) exps); [|now apply map_env_val]. apply map_ext. intros e. cbn. lra. }
    split; [exact HPw|]. split; [exact HPw|]. split; intros x Hx; rewrite (Hid x Hx); auto.
  - apply down_closed_b_ok. vm_compute. reflexivity.
Qed.
