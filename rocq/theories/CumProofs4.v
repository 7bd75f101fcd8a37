(* Cumulants: transforms of whole vectors, and the wrappers for central moments. *)
From Coq Require Import List ZArith Bool Arith Reals Lra Lia Permutation.
From Verif Require Import StencilModel RealLib LinLib TransSpec MomModel MomProofs EqModel CumModel CumProofs CumProofs2 CumProofs3.
Import ListNotations.
Local Open Scope R_scope.

Lemma lookup_map exps (g : list nat -> R) e : In e exps -> lookup exps (map g exps) e = g e.
Proof.
  unfold lookup. induction exps as [|x exps IH]; [intros []|]. intros Hin. cbn [map combine find fst]. destruct (tuple_eqb e x) eqn:E.
  - apply tuple_eqb_eq in E. now subst.
  - apply IH. destruct Hin as [->|Hin]; auto. assert (tuple_eqb e e = true) by now apply tuple_eqb_eq. congruence.
Qed.
Lemma lookup_nth exps vals i : NoDup exps -> length vals = length exps -> (i < length exps)%nat -> lookup exps vals (nth i exps []) = nth i vals 0.
Proof.
  unfold lookup. revert vals i. induction exps as [|x exps IH]; intros [|v vals] i Hn L Hi; try discriminate; [cbn in Hi; lia|].
  inversion Hn as [|? ? Hx Hn']; subst. destruct i as [|i]; cbn [combine find fst nth].
  - assert (tuple_eqb x x = true) as -> by now apply tuple_eqb_eq. reflexivity.
  - cbn in Hi, L. destruct (tuple_eqb (nth i exps []) x) eqn:E.
    + apply tuple_eqb_eq in E. exfalso. apply Hx. rewrite <- E. apply nth_In. lia.
    + apply IH; auto; lia.
Qed.
Lemma map_lookup exps vals : NoDup exps -> length vals = length exps -> map (lookup exps vals) exps = vals.
Proof.
  intros Hn L. apply nth_ext with (d := 0) (d' := 0); rewrite ?map_length; auto. intros i Hi.
  rewrite nth_indep with (d' := lookup exps vals []) by (rewrite map_length; auto). rewrite map_nth. apply lookup_nth; auto.
Qed.
Section Lists.
  Variables (D : nat) (u : list R) (rho : R) (exps : list (list nat)) (P Pinv : mat).
  Hypothesis Hu : (length u <= D)%nat.
  Hypothesis Hr : rho <> 0.
  Hypothesis Hd : Forall (fun e => length e = D) exps.
  Hypothesis Hdown : down_closed exps.
  Hypothesis HP : is_inverse (length exps) P Pinv.
  Lemma lists_back_forth kappa required : 0 < kappa (repeat 0%nat D) -> (forall e, In e required -> In e exps) ->
    cumulant_backward D u rho exps Pinv (cumulant_forward D u rho exps P kappa) required = map kappa required.
  Proof.
    intros Hk Hreq. unfold cumulant_backward, cumulant_forward. destruct HP as (HPw & HPiw & H1 & H2).
    rewrite H2 by now rewrite map_length. apply map_ext_in. intros e He. rewrite Forall_forall in Hd.
    apply back_forth; auto. intros e' L' Hle. rewrite lookup_map; auto. apply (Hdown e); auto. rewrite L', Hd; auto.
  Qed.
  Lemma lists_forth_back cs : NoDup exps -> length cs = length exps ->
    cumulant_forward D u rho exps P (lookup exps (cumulant_backward D u rho exps Pinv cs exps)) = cs.
  Proof.
    intros Hn Lc. unfold cumulant_backward, cumulant_forward. destruct HP as (HPw & HPiw & H1 & H2).
    transitivity (mv P (mv Pinv cs)); [f_equal|now apply H1].
    transitivity (map (lookup exps (mv Pinv cs)) exps); [|apply map_lookup; auto; rewrite mv_length; apply HPiw].
    apply map_ext_in. intros e He. rewrite Forall_forall in Hd. apply forth_back; auto. intros e' L' Hle.
    rewrite lookup_map; auto. apply (Hdown e); auto. rewrite L', Hd; auto.
  Qed.
End Lists.

Lemma cfm_plain D m e : length e = D -> m (repeat 0%nat D) <> 0 -> cumulant_from_central_moments D [] 1 m e = cumulant_as_function_of_raw_moments e m.
Proof.
  intros He Hm. rewrite <- (tally_indices D e He) at 1. rewrite cfm_word by now apply indices_inD. rewrite G_jet by (cbn; lia).
  unfold cumulant_as_function_of_raw_moments. rewrite transform_is_derivative by (intros; now rewrite He). rewrite He. cbn [outer_expr].
  unfold J, ev0. replace (linj [] (get_moment_indices e)) with 0; [lra|].
  unfold linj. destruct (get_moment_indices e) as [|i [|]]; auto. now destruct i.
Qed.
Lemma diffs_ext_env D env env' (HH : forall i, length i = D -> env i = env' i) e : ev0 D env e = ev0 D env' e.
Proof. unfold ev0. induction e; cbn; try congruence. apply HH. unfold tally. now rewrite map_length, seq_length. Qed.
Lemma mfc_plain D c e : length e = D -> central_moment_from_cumulants D [] 1 c e = raw_moment_as_function_of_cumulants e c.
Proof.
  intros He. rewrite <- (tally_indices D e He) at 1. rewrite mfc_word by now apply indices_inD.
  unfold raw_moment_as_function_of_cumulants. rewrite transform_is_derivative by discriminate. rewrite He. cbn [outer_expr].
  change (ev0 D c (diffs (get_moment_indices e) (EExp (EFun [])))) with (J D (rzero D) c (EExp (EFun [])) (get_moment_indices e)).
  eapply isexp_unique; [apply isexp_J|apply isexp_J|]. intros v _. rewrite X_jet by (cbn; lia). rewrite J_fun0.
  replace (linj [] v) with 0; [unfold Rdiv; rewrite Rinv_1; lra|]. unfold linj. destruct v as [|i [|]]; auto. now destruct i.
Qed.
Lemma partition_back_forth m e : m (repeat 0%nat (length e)) > 0 ->
  raw_moment_as_function_of_cumulants e (fun e' => cumulant_as_function_of_raw_moments e' m) = m e.
Proof.
  intros Hm. rewrite <- (mfc_plain (length e)) by auto. apply back_forth; [cbn; lia|auto|lra|auto|].
  intros e' L' _. symmetry. apply cfm_plain; auto. lra.
Qed.
Lemma raw_zero_pos D c : 0 < raw_moment_as_function_of_cumulants (repeat 0%nat D) c.
Proof.
  unfold raw_moment_as_function_of_cumulants, cumulant_raw_moment_transform, get_moment_indices. rewrite indices_zero. cbn. apply exp_pos.
Qed.
Lemma partition_forth_back c e : cumulant_as_function_of_raw_moments e (fun e' => raw_moment_as_function_of_cumulants e' c) = c e.
Proof.
  rewrite <- (cfm_plain (length e)); auto.
  - apply forth_back; [cbn; lia|auto|lra|]. intros e' L' _. symmetry. now apply mfc_plain.
  - pose proof (raw_zero_pos (length e) c). lra.
Qed.

(* unit exponent: 1 in component a *)
Definition unit_exp (D a : nat) : list nat := map (fun j => if Nat.eqb j a then 1%nat else 0%nat) (seq 0 D).
Lemma unit_exp_tally D a : unit_exp D a = tally D [a].
Proof. unfold unit_exp, tally. apply map_ext. intros j. cbn. destruct (Nat.eqb_spec j a), (Nat.eq_dec a j); congruence. Qed.
Lemma unit_exp_indices D a : (a < D)%nat -> get_moment_indices (unit_exp D a) = [a].
Proof.
  intros Ha. rewrite unit_exp_tally. apply Permutation_length_1_inv. symmetry. apply indices_tally. repeat constructor. exact Ha.
Qed.
Lemma unit_index_spec D e : unit_index D e = true <-> exists a, (a < D)%nat /\ e = unit_exp D a.
Proof.
  unfold unit_index. rewrite existsb_exists. split.
  - intros (a & Ha & E). apply tuple_eqb_eq in E. apply in_seq in Ha. exists a. rewrite unit_exp_tally. split; [lia|auto].
  - intros (a & Ha & ->). exists a. split; [apply in_seq; lia|]. apply tuple_eqb_eq. apply unit_exp_tally.
Qed.
Lemma transform_env_ext e env env' F : (forall i, length i = length e -> env i = env' i) ->
  cumulant_raw_moment_transform e env F false = cumulant_raw_moment_transform e env' F false.
Proof.
  intros H. unfold cumulant_raw_moment_transform. destruct (get_moment_indices e) as [|i w].
  - f_equal. apply H. apply repeat_length.
  - cbn [andb]. rewrite (H (repeat 0%nat (length e))) by apply repeat_length. f_equal. apply map_ext. intros p. f_equal.
    f_equal. apply map_ext. intros b. apply H. apply tally_length.
Qed.
Lemma centralized_env e env F : (0 < nsum e)%nat ->
  cumulant_raw_moment_transform e env F true = cumulant_raw_moment_transform e (fun i => if unit_index (length e) i then 0 else env i) F false.
Proof.
  intros Hs. unfold cumulant_raw_moment_transform. destruct (get_moment_indices e) as [|i w] eqn:E; [|reflexivity].
  exfalso. apply indices_nil_zero in E. rewrite E in Hs. clear -Hs. induction (length e); cbn in Hs; auto. lia.
Qed.

Section Central.
  Variables (D : nat) (S : stencil) (f : list R) (u : list R).
  Hypothesis HS : Forall (fun c => length c = D) S.
  Hypothesis HD : dimD S = D.
  Hypothesis Hpos : 0 < central_moment f S (repeat 0 D) (repeat 0%nat D).
  Hypothesis Hu : length u = D.
  Hypothesis Hmean : forall a, (a < D)%nat -> central_moment f S u (unit_exp D a) = 0.
  Lemma central_wrapper e : length e = D -> (2 <= nsum e)%nat ->
    cumulant_as_function_of_central_moments e (central_moment f S u) = discrete_cumulant f e S.
  Proof.
    intros He Hs. unfold cumulant_as_function_of_central_moments. rewrite centralized_env by lia.
    rewrite (transform_env_ext e _ (central_moment f S u)).
    - rewrite (raw_cumulants D S f HS Hpos HD u) by auto. rewrite linj_high by auto. unfold cumulant_as_function_of_raw_moments. lra.
    - intros i Hi. destruct (unit_index (length e) i) eqn:E; auto. apply unit_index_spec in E as (a & Ha & ->). rewrite He in *. symmetry. now apply Hmean.
  Qed.
  Lemma mean_cumulant a : (a < D)%nat -> cumulant_as_function_of_raw_moments (unit_exp D a) (central_moment f S u) = 0.
  Proof.
    intros Ha. unfold cumulant_as_function_of_raw_moments, cumulant_raw_moment_transform. rewrite unit_exp_indices by auto.
    cbn [partition map]. unfold rsum. cbn [fold_right map andb]. assert (L : length (unit_exp D a) = D) by (unfold unit_exp; now rewrite map_length, seq_length).
    rewrite L, <- unit_exp_tally, Hmean by auto. lra.
  Qed.
  Lemma central_wrapper_back e : length e = D -> (1 <= nsum e)%nat ->
    central_moment_as_function_of_cumulants e (fun e' => discrete_cumulant f e' S) = central_moment f S u e.
  Proof.
    intros He Hs. unfold central_moment_as_function_of_cumulants. rewrite centralized_env by lia.
    rewrite (transform_env_ext e _ (fun e' => cumulant_as_function_of_raw_moments e' (central_moment f S u))).
    - apply partition_back_forth. rewrite He. rewrite (zeroth_frame D S f HS u) by auto. lra.
    - intros i Hi. rewrite He in *. destruct (unit_index D i) eqn:E.
      + apply unit_index_spec in E as (a & Ha & ->). symmetry. now apply mean_cumulant.
      + rewrite (raw_cumulants D S f HS Hpos HD u) by auto. replace (linj u (get_moment_indices i)) with 0; [lra|].
        unfold linj. destruct (get_moment_indices i) as [|a [|]] eqn:Ei; auto. exfalso.
        assert (Ha : (a < D)%nat) by (pose proof (indices_inD D i Hi) as X; rewrite Ei in X; inversion X; auto).
        assert (i = unit_exp D a) by (rewrite unit_exp_tally, <- Ei; symmetry; now apply tally_indices).
        assert (unit_index D i = true) by (apply unit_index_spec; eauto). congruence.
  Qed.
End Central.
Lemma first_cumulant D S f a : Forall (fun c => length c = D) S -> dimD S = D -> 0 < central_moment f S (repeat 0 D) (repeat 0%nat D) -> (a < D)%nat ->
  discrete_cumulant f (unit_exp D a) S = central_moment f S (repeat 0 D) (unit_exp D a) / central_moment f S (repeat 0 D) (repeat 0%nat D).
Proof.
  intros HS HD Hpos Ha. assert (L : length (unit_exp D a) = D) by (unfold unit_exp; now rewrite map_length, seq_length).
  rewrite (raw_cumulants D S f HS Hpos HD (repeat 0 D)) by (auto; apply repeat_length).
  rewrite unit_exp_indices by auto. cbn [linj]. rewrite nth_repeat.
  unfold cumulant_as_function_of_raw_moments, cumulant_raw_moment_transform. rewrite unit_exp_indices by auto.
  cbn [partition map]. unfold rsum. cbn [fold_right map andb length outer_derivative]. rewrite L, <- unit_exp_tally. cbn. field. lra.
Qed.
Lemma zeroth_cumulant D S f : Forall (fun c => length c = D) S -> dimD S = D -> 
  discrete_cumulant f (repeat 0%nat D) S = ln (central_moment f S (repeat 0 D) (repeat 0%nat D)).
Proof.
  intros HS HD. unfold discrete_cumulant, ev0, get_moment_indices. rewrite indices_zero, HD. cbn [diffs]. change (ev D (rzero D) (fun _ => 0) (ELog ?x)) with (ln (ev D (rzero D) (fun _ => 0) x)).
  now rewrite (ev_lap D S f HS).
Qed.
Lemma required_ok D q exps : (0 < D)%nat -> Forall (fun e => length e = D) exps ->
  exists l, NoDup l /\ (forall e, In e l <-> length e = D /\ ((nsum e <= 1)%nat \/ exists c, In c exps /\ Forall2 le e c)) /\
    required_central_moments D q exps = if Nat.eqb (length l) q then Ok l else Err AssertionError.
Proof.
  intros HD Hd. unfold required_central_moments. destruct (up_to_spec 1 D true HD) as (low & -> & _ & Hl & _). cbn [rbind].
  eexists. destruct (unique_spec (low ++ flat_map (fun c => contained_moments c 0 false) exps)) as [Hn Hu].
  split; [exact Hn|]. split; [|reflexivity]. intros e. rewrite Hu, in_app_iff, Hl, in_flat_map. rewrite Forall_forall in Hd. split.
  - intros [(H1 & H2 & _)|(c & Hc & Hin)]; [auto|]. apply contained_spec in Hin as (H2 & _ & _). split; [|eauto].
    rewrite <- (Hd c Hc). clear -H2. induction H2; cbn; auto.
  - intros (H1 & [H2|(c & Hc & H2)]); [left; repeat split; auto; discriminate|]. right. exists c. split; auto. apply contained_spec. repeat split; auto; [lia|discriminate].
Qed.
