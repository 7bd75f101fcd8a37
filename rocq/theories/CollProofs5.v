(* The transforms and equilibria of the library meet the hypotheses of the collision theorems. *)
From Coq Require Import String List ZArith Bool Arith QArith Qreals Reals Lra Lia.
From Verif Require Import StencilModel StencilProofs StencilProofs2 RealLib LinLib TransSpec TransModel MomModel MomProofs EqModel EqSpec EqProofs PropsEq CumModel CumProofs CumProofs4 PropsCum CollSpec CollModel TransProofs TransProofs2 TransProofs3 PropsTrans CollProofs CollProofs2 CollProofs3 CollProofs4.
Import ListNotations.
Local Open Scope R_scope.

(* ---- transforms ---- *)
Lemma transform_intro n S ps w u A fwd bwd : length S = n -> length w = n -> is_inverse n (moment_matrix ps S u) A ->
  (forall f, length f = n -> fwd f = Ok (map (poly_moment (radd f w) S u) ps)) ->
  (forall f, length f = n -> rbind (fwd f) bwd = Ok f) -> moment_transform n S ps w u fwd bwd.
Proof.
  intros Hq Hw (WA & WB & H1 & H2) Hf Hb. split; [exact Hf|]. split.
  - intros k Hk. set (f := rsub (mv A k) w). assert (Lf : length f = n) by (unfold f; rewrite rsub_length, mv_length; destruct WB; lia).
    assert (E : map (poly_moment (radd f w) S u) ps = k).
    { unfold f. rewrite radd_rsub_cancel by (rewrite mv_length; destruct WB; lia). rewrite <- mv_moment_matrix. now apply H1. }
    exists f. split; [|auto]. specialize (Hb f Lf). rewrite (Hf f Lf), E in Hb. exact Hb.
  - intros f g Lf Lg E. specialize (Hb f Lf) as B1. specialize (Hb g Lg) as B2. rewrite (Hf f Lf) in B1. rewrite (Hf g Lg), <- E in B2. congruence.
Qed.
Lemma inverse_action n A A' B : mat_wf n n A -> (forall x, length x = n -> mv A x = mv A' x) -> is_inverse n A' B -> is_inverse n A B.
Proof.
  intros W H (W1 & W2 & H1 & H2). split; [exact W|]. split; [exact W2|]. split; intros x Hx.
  - rewrite H by (rewrite mv_length; apply W2). auto.
  - rewrite H by auto. auto.
Qed.
Lemma poly_inverse D n S exps ps P u Minv Pinv Ninv : moment_setup D n S exps ps P -> length u = D -> length ps = n ->
  is_inverse n (monomial_matrix exps S (rzero D)) Minv -> is_inverse n P Pinv ->
  is_inverse n (shift_matrix n (monomial_matrix exps S u) Minv) Ninv -> exists A, is_inverse n (moment_matrix ps S u) A.
Proof.
  intros [Wst Wq Wf Wd We Wp WP] Hu Lp HM HP HN. exists (mm n Minv (mm n Ninv Pinv)).
  apply (inverse_action n _ (mm n (mm n P (shift_matrix n (monomial_matrix exps S u) Minv)) (monomial_matrix exps S (rzero D)))).
  - rewrite <- Lp at 1. rewrite <- Wq. apply moment_matrix_wf.
  - intros x Hx. rewrite mv_mm by apply HM. rewrite mv_mm by apply HN. rewrite mv_moment_matrix, mv_monomial_matrix.
    fold (Nmat n S exps Minv u). rewrite (Nmat_action D n S exps Minv) by auto. symmetry. now apply mono_to_poly_moments.
  - apply is_inverse_mm; [apply is_inverse_mm|]; auto.
Qed.
Lemma setup_ps D n S exps ps P Pinv : moment_setup D n S exps ps P -> is_inverse n P Pinv -> length ps = n.
Proof.
  intros [Wst Wq Wf Wd We Wp WP] (W & _). destruct (mono_to_poly_spec exps ps P (fun _ => 0) We Wp WP) as [[L _] _]. destruct W. congruence.
Qed.
Lemma central_poly_inverse n (S : stencil) ps M u Mpinv Npinv : length S = n -> length ps = n -> M = moment_matrix ps S (rzero (length u)) ->
  is_inverse n M Mpinv -> is_inverse n (shift_matrix n (moment_matrix ps S u) Mpinv) Npinv -> exists A, is_inverse n (moment_matrix ps S u) A.
Proof.
  intros Hq Lp EM HM HN. exists (mm n Mpinv Npinv).
  apply (inverse_action n _ (mm n (shift_matrix n (moment_matrix ps S u) Mpinv) M)).
  - rewrite <- Lp at 1. rewrite <- Hq. apply moment_matrix_wf.
  - intros x Hx. rewrite mv_mm by apply HM. unfold shift_matrix. rewrite mv_mm by apply HM. destruct HM as (_ & _ & _ & H2). now rewrite H2.
  - now apply is_inverse_mm.
Qed.

Section Transforms.
  Variables (D n : nat) (S : stencil) (exps : list (list nat)) (ps : list poly) (P Minv Pinv : mat) (w : list R).
  Hypothesis HS : moment_setup D n S exps ps P.
  Hypothesis HM : is_inverse n (monomial_matrix exps S (rzero D)) Minv.
  Hypothesis HP : is_inverse n P Pinv.
  Hypothesis Hw : length w = n.
  Let background := map (poly_moment w S (rzero D)) ps.
  Let raw_background := map (central_moment w S (rzero D)) exps.
  Lemma Lps : length ps = n. Proof. eapply setup_ps; eauto. Qed.
  Lemma Lexps : length exps = n. Proof. destruct HS. eapply exps_len; eauto. Qed.
  Lemma Lbackground u : length (map (poly_moment w S u) ps) = n. Proof. rewrite map_length. apply Lps. Qed.
  Lemma Lraw : length raw_background = n. Proof. unfold raw_background. rewrite map_length. apply Lexps. Qed.
  Lemma rzero_shift_inverse : is_inverse n (shift_matrix n (monomial_matrix exps S (rzero D)) Minv) (shift_matrix n (monomial_matrix exps S (rzero D)) Minv).
  Proof.
    destruct HS. pose proof HM as (W1 & W2 & H1 & H2). unfold shift_matrix. assert (W : mat_wf n n (mm n (monomial_matrix exps S (rzero D)) Minv)) by now apply (mm_wf n n).
    split; [exact W|]. split; [exact W|]. split; intros x Hx; rewrite !mv_mm by apply HM; rewrite !H1; auto; rewrite ?H1; auto.
  Qed.

  Lemma chimera_transform : moment_transform n S ps w (rzero D) (fun f => Ok (chimera_forward S exps P background f)) (fun m => Ok (chimera_backward Minv Pinv background m)).
  Proof.
    destruct (poly_inverse D n S exps ps P (rzero D) Minv Pinv _ HS (rzero_length D) Lps HM HP rzero_shift_inverse) as [A HA].
    apply (transform_intro n S ps w (rzero D) A); auto; [apply HS| |]; intros f Hf.
    - f_equal. destruct (C14_background D n S exps ps P w f HS Hf Hw) as [_ E]. exact E.
    - cbn [rbind]. f_equal. destruct (C14_chimera_round_trip D n S exps ps P Minv Pinv background HS HM HP (Lbackground _)) as [E _]. now apply E.
  Qed.

  Variable u : list R.
  Hypothesis Hu : length u = D.
  Section WithN.
    Variable Ninv : mat.
    Hypothesis HN : is_inverse n (shift_matrix n (monomial_matrix exps S u) Minv) Ninv.
    Let cbackground := map (poly_moment w S u) ps.
    Lemma fast_transform : moment_transform n S ps w u (fun f => Ok (fast_forward S u exps P cbackground f)) (fun k => Ok (fast_backward n Minv Ninv Pinv cbackground k)).
    Proof.
      destruct (poly_inverse D n S exps ps P u Minv Pinv Ninv HS Hu Lps HM HP HN) as [A HA].
      apply (transform_intro n S ps w u A); auto; [apply HS| |]; intros f Hf.
      - f_equal. destruct HS. rewrite (fast_forward_moments D S ps) by auto. symmetry. apply map_poly_moment_radd. congruence.
      - cbn [rbind]. f_equal. destruct HS. eapply (fast_roundtrip D n S ps); eauto. apply Lbackground.
    Qed.
    Lemma shift_transform : moment_transform n S ps w u (fun f => Ok (shift_forward S exps P (shift_matrix n (monomial_matrix exps S u) Minv) raw_background f))
      (fun k => Ok (shift_backward Minv Ninv Pinv raw_background k)).
    Proof.
      destruct (poly_inverse D n S exps ps P u Minv Pinv Ninv HS Hu Lps HM HP HN) as [A HA].
      apply (transform_intro n S ps w u A); auto; [apply HS| |]; intros f Hf.
      - f_equal. destruct HS. now apply (shift_forward_moments D n S ps).
      - cbn [rbind]. f_equal. destruct HS. eapply (shift_roundtrip D n S); eauto. apply Lraw.
    Qed.
  End WithN.
  Lemma binomial_transform : down_closed exps -> moment_transform n S ps w u (binomial_forward S u exps P raw_background) (binomial_backward u exps Minv Pinv raw_background).
  Proof.
    intros Hd. assert (HN : is_inverse n (shift_matrix n (monomial_matrix exps S u) Minv) (shift_matrix n (monomial_matrix exps S (map Ropp u)) Minv)).
    { destruct HS. now apply (Nmat_inverse D n S exps Minv). }
    destruct (poly_inverse D n S exps ps P u Minv Pinv _ HS Hu Lps HM HP HN) as [A HA].
    apply (transform_intro n S ps w u A); auto; [apply HS| |]; intros f Hf.
    - destruct HS. now apply (binomial_forward_moments D n S ps).
    - destruct HS. eapply (binomial_roundtrip D n S); eauto. apply Lraw.
  Qed.
End Transforms.
Lemma raw_matrix_transform D n (S : stencil) ps Minv w : length S = n -> length w = n -> length ps = n -> is_inverse n (moment_matrix ps S (rzero D)) Minv ->
  let background := map (poly_moment w S (rzero D)) ps in
  moment_transform n S ps w (rzero D) (fun f => Ok (matrix_forward (moment_matrix ps S (rzero D)) background f)) (fun m => Ok (matrix_backward Minv background m)).
Proof.
  intros Hq Hw Lp HM background. apply (transform_intro n S ps w (rzero D) Minv); auto; intros f Hf.
  - f_equal. rewrite matrix_forward_moments, map_poly_moment_radd by congruence. reflexivity.
  - cbn [rbind]. f_equal. apply (matrix_roundtrip n); auto. unfold background. now rewrite map_length.
Qed.
Lemma central_matrix_transform n (S : stencil) ps Mpinv Npinv w u : length S = n -> length w = n -> length ps = n ->
  let M := moment_matrix ps S (rzero (length u)) in let N := shift_matrix n (moment_matrix ps S u) Mpinv in
  is_inverse n M Mpinv -> is_inverse n N Npinv ->
  let background := map (poly_moment w S u) ps in
  moment_transform n S ps w u (fun f => Ok (central_matrix_forward n N M background f)) (fun k => Ok (central_matrix_backward n Mpinv Npinv background k)).
Proof.
  intros Hq Hw Lp M N HM HN background. destruct (central_poly_inverse n S ps M u Mpinv Npinv Hq Lp eq_refl HM HN) as [A HA].
  apply (transform_intro n S ps w u A); auto; intros f Hf.
  - f_equal. unfold N, M. rewrite (central_matrix_moments (length u)) by auto. symmetry. apply map_poly_moment_radd. congruence.
  - cbn [rbind]. f_equal. apply central_matrix_roundtrip; auto. unfold background. now rewrite map_length.
Qed.

(* ---- backgrounds ---- *)
Lemma fsum_rzero n S h : fsum (rzero n) S h = 0.
Proof. unfold fsum, rzero. revert n. induction S as [|c S' IH]; intros [|n]; cbn; auto. unfold rsum in IH. rewrite IH. lra. Qed.
Lemma zero_storage D n S zc dev : zc && negb dev = false -> storage_background D n S zc dev (rzero n).
Proof. intros E. split; [apply rzero_length|]. unfold density, momentum. rewrite E, fsum_rzero. split; [reflexivity|intros; apply fsum_rzero]. Qed.
Lemma weights_storage D S ws zc dev : isotropic_weights D S ws -> zc && negb dev = true -> storage_background D (length S) S zc dev ws.
Proof. intros (L & H0 & H1 & _) E. split; [auto|]. rewrite E. auto. Qed.

(* ---- equilibria ---- *)
Lemma normal_zero e u cs2 rho D : (D <= length u)%nat -> e = zero_tuple D -> psi_moment rho u cs2 e = rho.
Proof.
  intros HD ->. unfold psi_moment. replace (fold_right Rmult 1 _) with 1; [lra|]. revert u HD. unfold zero_tuple. induction D as [|D IH]; intros [|a u] H; try reflexivity.
  cbn [repeat combine map fold_right fst snd normal_moment]. rewrite <- IH by (cbn in H; lia). lra.
Qed.
Lemma normal_unit u cs2 rho : forall D a, D = length u -> (a < D)%nat -> psi_moment rho u cs2 (unit_tuple D a) = rho * nth a u 0.
Proof.
  unfold psi_moment. induction u as [|x u IH]; intros D a -> Ha; [cbn in Ha; lia|]. cbn [length]. destruct a as [|a].
  - rewrite unit_tuple_0. cbn [combine map fold_right fst snd normal_moment nth].
    pose proof (normal_zero (zero_tuple (length u)) u cs2 1 (length u) (Nat.le_refl _) eq_refl) as E. unfold psi_moment in E. rewrite Rmult_1_l in E. rewrite E. lra.
  - rewrite unit_tuple_S. cbn [combine map fold_right fst snd normal_moment nth]. specialize (IH (length u) a eq_refl ltac:(cbn in Ha; lia)). lra.
Qed.
Lemma continuous_hydro D compr dev cs2 : hydro_moments D compr dev (fun rho u => continuous_maxwellian_moment D compr dev rho u cs2).
Proof.
  intros rho u Hu. unfold continuous_maxwellian_moment. change (zero_exponents D) with (zero_tuple D).
  assert (E : firstn D u = u) by (rewrite <- Hu; apply firstn_all). rewrite E.
  split; [rewrite !(normal_zero _ _ _ _ D) by (rewrite ?repeat_length; auto; lia); destruct compr, dev; lra|].
  intros a Ha. change (unit_exponents D a) with (unit_tuple D a).
  rewrite !normal_unit by (rewrite ?repeat_length; auto). rewrite nth_repeat. destruct compr, dev; lra.
Qed.
Definition discrete_raw_moments (S : stencil) (compr dev : bool) (order : option Z) (rho : R) (u : list R) (e : list nat) : R :=
  match hydro_maxwellian S compr dev order rho u (1 / 3) with Ok p => central_moment p S (rzero (dimD S)) e | Err _ => 0 end.
Definition discrete_central_moments (S : stencil) (compr dev : bool) (order : option Z) (rho : R) (u : list R) (e : list nat) : R :=
  match hydro_maxwellian S compr dev order rho u (1 / 3) with Ok p => central_moment p S u e | Err _ => 0 end.
Section Discrete.
  Variables (name ord : string) (S : stencil) (ws : list Q) (compr dev : bool) (order : option Z).
  Hypothesis HS : predefined_stencils name ord = Ok S.
  Hypothesis Hws : get_weights S = Ok ws.
  Hypothesis Ho : sizeQ S <> 7%nat \/ (eq_order order <= 2)%Z.
  Lemma discrete_populations rho u : exists p, hydro_maxwellian S compr dev order rho u (1 / 3) = Ok p /\ length p = length S /\
    density p S = rho - (if dev then 1 else 0) /\ forall a, (a < dimD S)%nat -> momentum p S a = (if compr then rho else 1) * nth a u 0.
  Proof.
    assert (HE : exists e, hydro_maxwellian S compr dev order rho u (1 / 3) = Ok e).
    { unfold hydro_maxwellian, discrete_maxwellian_equilibrium. rewrite Hws. cbn [rbind]. destruct dev; eexists; reflexivity. }
    destruct HE as (e & He). exists e. split; [exact He|].
    split; [destruct (hydro_split S ws compr dev order rho u (1 / 3) e Hws He) as (_ & _ & _ & H & _); exact H|].
    split; [eapply hydro_density; eauto|]. intros. eapply hydro_momentum; eauto.
  Qed.
  Lemma discrete_hydro : hydro_moments (dimD S) compr dev (discrete_raw_moments S compr dev order).
  Proof.
    intros rho u Hu. unfold discrete_raw_moments. destruct (discrete_populations rho u) as (p & -> & L & H0 & H1).
    destruct (weights_isotropic _ _ _ _ HS Hws) as (Hdim & _).
    change (zero_exponents (dimD S)) with (zero_tuple (dimD S)). rewrite central_zero. split; [exact H0|]. intros a Ha.
    change (unit_exponents (dimD S) a) with (unit_tuple (dimD S) a). rewrite (central_unit (dimD S)) by (auto using rzero_length). rewrite nth_rzero, H1 by auto. lra.
  Qed.
  Lemma discrete_hydro_central : hydro_central_moments (dimD S) compr dev (discrete_central_moments S compr dev order).
  Proof.
    intros rho u Hu. unfold discrete_central_moments. destruct (discrete_populations rho u) as (p & -> & L & H0 & H1).
    destruct (weights_isotropic _ _ _ _ HS Hws) as (Hdim & _).
    change (zero_exponents (dimD S)) with (zero_tuple (dimD S)). rewrite central_zero. split; [exact H0|]. intros a Ha.
    change (unit_exponents (dimD S) a) with (unit_tuple (dimD S) a). rewrite (central_unit (dimD S)) by auto. rewrite H0, H1 by auto. lra.
  Qed.
End Discrete.
(* the binomial expansion of central moments in raw moments *)
Lemma rsum_flat_map {A B} (h : B -> R) (k : A -> list B) l : rsum (map h (flat_map k l)) = rsum (map (fun a => rsum (map h (k a))) l).
Proof. induction l as [|a l IH]; [reflexivity|]. cbn [flat_map map]. rewrite map_app, rsum_app, rsum_cons, IH. reflexivity. Qed.
Lemma contained_all e : contained_moments e 0 false = product (map (fun i => seq 0 (i + 1)) e).
Proof.
  unfold contained_moments. generalize (product (map (fun i => seq 0 (i + 1)) e)). induction l as [|t l IH]; [reflexivity|]. cbn. now f_equal.
Qed.
Lemma Forall2_le_sum r e : Forall2 le r e -> (nsum r <= nsum e)%nat.
Proof. intros H. now apply Forall2_le_nsum. Qed.
Lemma central_from_raw_bshift u : forall e raw, length u = length e -> central_from_raw u raw e = bshift (map Ropp u) raw e.
Proof.
  induction u as [|a u IH]; intros [|m e] raw L; try discriminate.
  - unfold central_from_raw. rewrite contained_all. cbn. lra.
  - unfold central_from_raw. rewrite contained_all. cbn [map product bshift]. rewrite rsum_flat_map. unfold bin1. apply rsum_ext.
    intros k Hk. apply in_seq in Hk. rewrite map_map. rewrite <- IH by (cbn in L; lia). unfold central_from_raw. rewrite contained_all, <- rsum_scal. apply rsum_ext.
    intros r Hr. rewrite <- contained_all in Hr. apply contained_spec in Hr. destruct Hr as [Hr _]. apply Forall2_le_sum in Hr.
    cbn [nsum binomial_product]. change (fold_right Nat.add 0%nat) with nsum. 
    replace (nsum (m :: e) - nsum (k :: r))%nat with ((m - k) + (nsum e - nsum r))%nat by (unfold nsum in *; cbn; lia). rewrite pow_add.
    replace (- a) with (-1 * a) by lra. rewrite Rpow_mult_distr. ring.
Qed.
Lemma central_from_raw_hydro D compr dev eqm : hydro_moments D compr dev eqm -> hydro_central_moments D compr dev (fun rho u => central_from_raw u (eqm rho u)).
Proof.
  intros H rho u Hu. destruct (H rho u Hu) as [H0 H1]. assert (Lz : length (zero_exponents D) = D) by apply repeat_length.
  assert (B0 : forall D (vs : list R) g, length vs = D -> bshift vs g (zero_tuple D) = g (zero_tuple D)).
  { clear. induction D as [|D IH]; intros [|v vs] g L; try discriminate; [reflexivity|]. unfold zero_tuple in *. cbn [repeat bshift]. rewrite bin1_0. apply (IH vs (fun r => g (0%nat :: r))). cbn in L. lia. }
  assert (B1 : forall D (vs : list R) g a, length vs = D -> (a < D)%nat -> bshift vs g (unit_tuple D a) = g (unit_tuple D a) + nth a vs 0 * g (zero_tuple D)).
  { clear -B0. induction D as [|D IH]; intros [|v vs] g a L Ha; try discriminate; [lia|]. destruct a as [|a].
    - rewrite unit_tuple_0. cbn [bshift]. rewrite bin1_S, bin1_0, !(B0 D) by (cbn in L; lia). reflexivity.
    - rewrite unit_tuple_S. cbn [bshift]. rewrite bin1_0, (IH vs (fun r => g (0%nat :: r))) by (cbn in L; lia). reflexivity. }
  split.
  - rewrite central_from_raw_bshift by congruence. change (zero_exponents D) with (zero_tuple D) in *. rewrite B0 by (rewrite map_length; auto). exact H0.
  - intros a Ha. change (zero_exponents D) with (zero_tuple D) in *. change (unit_exponents D a) with (unit_tuple D a). specialize (H1 a Ha). change (unit_exponents D a) with (unit_tuple D a) in H1.
    rewrite central_from_raw_bshift by (rewrite unit_tuple_length; auto). rewrite B1 by (rewrite ?map_length; auto). rewrite H0, H1.
    rewrite (nth_indep (map Ropp u) 0 (Ropp 0)) by (rewrite map_length; lia). rewrite map_nth. lra.
Qed.
Lemma maxwellian_hydro_cumulants D cs2 : hydro_cumulants D (fun rho u => maxwellian_cumulant D rho u cs2).
Proof.
  intros rho u Hu Hr. destruct (C16_maxwellian rho u cs2 Hr) as (H0 & H1 & _). rewrite Hu in *. split; [exact H0|]. intros a Ha. exact (H1 a Ha).
Qed.
