(* Lemmas about FluctModel. *)
From Coq Require Import List ZArith QArith Qreals Bool Arith Lia Reals Lra.
From Verif Require Import StencilModel RealLib LinLib LinQ TransSpec MomModel ModeModel ModeSpec ModeProofs ModeProofs2 FluctModel FluctSpec.
Import ListNotations.
Local Open Scope R_scope.

Lemma in_conserved_spec p : in_conserved p = true <-> is_conserved p.
Proof.
  unfold in_conserved, is_conserved. rewrite existsb_exists. split.
  - intros (q & Hq & H). unfold qpoly_eqb in H. apply andb_true_iff in H. destruct H as [L H]. apply Nat.eqb_eq in L.
    assert (Hq' : exists e, q = [(1%Q, e)] /\ (e = [0; 0; 0]%nat \/ exists a, (a < 3)%nat /\ e = unit_tuple a)).
    { unfold conserved_moments in Hq. destruct Hq as [<-|Hq]; [eexists; split; [reflexivity|now left]|].
      apply in_map_iff in Hq. destruct Hq as (a & <- & Ha). eexists; split; [reflexivity|right; exists a; split; [|reflexivity]].
      cbn in Ha. lia. }
    destruct Hq' as (e & -> & He). destruct p as [|[c e'] [|]]; try discriminate L. cbn [combine forallb fst snd] in H.
    rewrite andb_true_r in H. apply andb_true_iff in H. destruct H as [H1 H2]. apply tuple_eqb_eq in H2. subst e'.
    exists c, e. split; [reflexivity|]. split; [now apply Qeq_bool_iff|exact He].
  - intros (c & e & -> & Hc & He). exists [(1%Q, e)]. split.
    + destruct He as [->|(a & Ha & ->)]; [now left|right]. apply in_map_iff. exists a. split; [reflexivity|]. cbn. lia.
    + unfold qpoly_eqb. cbn [length combine forallb fst snd Nat.eqb]. rewrite andb_true_r, andb_true_l. apply andb_true_iff. split; [now apply Qeq_bool_iff|].
      now apply tuple_eqb_eq.
Qed.
Lemma conserved_dec p : {is_conserved p} + {~ is_conserved p}.
Proof. destruct (in_conserved p) eqn:E; [left; now apply in_conserved_spec|right; intros H; apply in_conserved_spec in H; congruence]. Qed.
Lemma conserved_one : is_conserved one.
Proof. exists 1%Q, [0; 0; 0]%nat. split; [reflexivity|]. split; [reflexivity|now left]. Qed.
Lemma conserved_coordinate a : (a < 3)%nat -> is_conserved (coordinate a).
Proof. intros H. exists 1%Q, (unit_tuple a). split; [reflexivity|]. split; [reflexivity|right; now exists a]. Qed.

(* ---- moments of populations ---- *)
Lemma raw_moment_dot S f p : length f = length S -> raw_moment S f p = dot (map (fun c => peval (toR p) (vecR c)) S) f.
Proof.
  unfold raw_moment, dot. revert f; induction S as [|c S IH]; intros [|a f] L; try discriminate; [reflexivity|].
  cbn [combine map]. rewrite !rsum_cons, IH by (cbn in L; lia). cbn [fst snd]. ring.
Qed.
Lemma mass_moment S f : length f = length S -> mass f = raw_moment S f one.
Proof.
  unfold mass, raw_moment. revert f; induction S as [|c S IH]; intros [|a f] L; try discriminate; [reflexivity|].
  cbn [combine map]. rewrite !rsum_cons, <- IH by (cbn in L; lia). cbn [fst snd]. unfold one, toR, peval. cbn [map fst snd]. rewrite rsum_cons, rsum_nil.
  replace (rmono (vecR c) [0; 0; 0]%nat) with 1 by (destruct c as [|? [|? [|? [|? ?]]]]; cbn; ring).
  rewrite RMicromega.Q2R_1. ring.
Qed.
Lemma rmono_unit c a : (length c <= 3)%nat -> (a < length c)%nat -> rmono (vecR c) (unit_tuple a) = IZR (nth a c 0%Z).
Proof.
  intros H1 H2. destruct c as [|x [|y [|z [|]]]]; cbn [length] in *; try lia.
  - replace a with 0%nat by lia. cbn. ring.
  - destruct a as [|[|a]]; [| |lia]; cbn; ring.
  - destruct a as [|[|[|a]]]; [| | |lia]; cbn; ring.
Qed.
Lemma momentum_moment S f a : Forall (fun c => (a < length c <= 3)%nat) S -> momentum S f a = raw_moment S f (coordinate a).
Proof.
  intros HD. unfold momentum, raw_moment. apply rsum_ext. intros [x c] Hin. cbn [fst snd].
  apply in_combine_r in Hin. rewrite Forall_forall in HD. specialize (HD c Hin).
  unfold coordinate, toR, peval. cbn [map fst snd]. rewrite rsum_cons, rsum_nil, rmono_unit by lia. rewrite RMicromega.Q2R_1. ring.
Qed.

(* ---- the random part ---- *)
(* how many numbers are drawn before moment k *)
Definition draws (ms : list qpoly) (k : nat) : nat := length (filter (fun p => negb (in_conserved p)) (firstn k ms)).
Lemma random_length ms : forall rng n, length (random_matrix ms rng n) = length ms.
Proof. induction ms as [|p ms IH]; intros rng n; [reflexivity|]. cbn [random_matrix]. destruct (in_conserved p); cbn [length]; now rewrite IH. Qed.
Lemma nth_random ms rng : forall n k d, (k < length ms)%nat ->
  nth k (random_matrix ms rng n) 0 = if in_conserved (nth k ms d) then 0 else (rng (n + draws ms k)%nat - / 2) * sqrt 12.
Proof.
  induction ms as [|p ms IH]; intros n k d Hk; [cbn in Hk; lia|]. cbn [random_matrix]. destruct k as [|k].
  - cbn [nth]. unfold draws. cbn [firstn filter length]. rewrite Nat.add_0_r. now destruct (in_conserved p).
  - cbn [nth]. unfold draws. cbn [firstn filter]. destruct (in_conserved p); cbn [negb nth]; rewrite (IH _ k d) by (cbn in Hk; lia); unfold draws; [reflexivity|].
    cbn [length]. now rewrite <- Nat.add_succ_comm.
Qed.
Lemma draws_step ms k : (k < length ms)%nat -> draws ms (S k) = if in_conserved (nth k ms []) then draws ms k else S (draws ms k).
Proof.
  revert k; induction ms as [|p ms IH]; intros k Hk; [cbn in Hk; lia|]. unfold draws in *. destruct k as [|k].
  - cbn [firstn filter nth]. destruct (in_conserved p); reflexivity.
  - cbn [nth]. cbn [length] in Hk. rewrite !(firstn_cons _ p ms). cbn [filter]. specialize (IH k ltac:(lia)).
    destruct (in_conserved p); cbn [negb length]; [exact IH|]. rewrite IH. now destruct (in_conserved (nth k ms [])).
Qed.
Lemma draws_mono ms k l : (k <= l <= length ms)%nat -> (draws ms k <= draws ms l)%nat.
Proof.
  intros [H1 H2]. induction l as [|l IH]; [replace k with 0%nat by lia; lia|].
  destruct (Nat.eq_dec k (S l)) as [->|]; [lia|]. rewrite draws_step by lia. specialize (IH ltac:(lia) ltac:(lia)). destruct (in_conserved _); lia.
Qed.
Lemma draws_inj ms k l : (k < length ms)%nat -> (l < length ms)%nat -> in_conserved (nth k ms []) = false -> in_conserved (nth l ms []) = false ->
  k <> l -> draws ms k <> draws ms l.
Proof.
  intros Hk Hl Ck Cl Hne. destruct (Nat.lt_total k l) as [H|[H|H]]; [|contradiction|].
  - pose proof (draws_step ms k Hk). rewrite Ck in H0. pose proof (draws_mono ms (S k) l ltac:(lia)). lia.
  - pose proof (draws_step ms l Hl). rewrite Cl in H0. pose proof (draws_mono ms (S l) k ltac:(lia)). lia.
Qed.
Lemma draws_lt ms k : (k < length ms)%nat -> in_conserved (nth k ms []) = false -> (draws ms k < draws ms (length ms))%nat.
Proof. intros Hk Ck. pose proof (draws_step ms k Hk). rewrite Ck in H. pose proof (draws_mono ms (S k) (length ms) ltac:(lia)). lia. Qed.
Lemma draws_all ms : draws ms (length ms) = length (filter (fun p => negb (in_conserved p)) ms).
Proof. unfold draws. now rewrite firstn_all. Qed.

Lemma opt_list_some {A} (l : list (option A)) out : opt_list l = Some out <-> l = map Some out.
Proof.
  revert out; induction l as [|[a|] l IH]; intros out; cbn [opt_list].
  - split; [intros [= <-]; reflexivity|]. destruct out; [reflexivity|discriminate].
  - destruct (opt_list l) as [o|] eqn:E.
    + split; [intros [= <-]; cbn [map]; now rewrite (proj1 (IH o) eq_refl)|]. destruct out as [|b out]; [discriminate|]. cbn [map]. intros [= -> H]. apply IH in H. congruence.
    + split; [discriminate|]. destruct out as [|b out]; [discriminate|]. cbn [map]. intros [= -> H]. apply IH in H. discriminate.
  - split; [discriminate|]. destruct out; discriminate.
Qed.

(* amplitude of moment k *)
Definition mu (m : fmethod) (T c2 : R) : R := T * f_density m / c2.
Definition radicand (m : fmethod) (T c2 : R) (k : nat) : R :=
  mu m T c2 * inner (f_weights m) (f_stencil m) (nth k (f_moments m) []) (nth k (f_moments m) []) * (1 - (1 - nth k (f_rates m) 0) ^ 2).
Lemma norm_length m : length (normalization_factors m) = length (f_moments m).
Proof. unfold normalization_factors, f_matrix, qmoment_matrix. now rewrite !map_length. Qed.
Lemma nth_norm m k : (k < length (f_moments m))%nat ->
  nth k (normalization_factors m) 0 = inner (f_weights m) (f_stencil m) (nth k (f_moments m) []) (nth k (f_moments m) []).
Proof.
  intros Hk. unfold normalization_factors, f_matrix, qmoment_matrix. rewrite map_map.
  rewrite (nth_map_list (fun p => Q2R (qdot3 (f_weights m) (qmoment_row (f_stencil m) p) (qmoment_row (f_stencil m) p))) _ k 0 []) by exact Hk.
  apply qdot3_inner; apply row_represents.
Qed.
Lemma amps_length m T c2 : length (f_rates m) = length (f_moments m) -> length (fluctuation_amplitude_from_temperature m T c2) = length (f_moments m).
Proof. intros H. unfold fluctuation_amplitude_from_temperature. rewrite map_length, combine_length, norm_length. lia. Qed.
Lemma nth_amp m T c2 k : length (f_rates m) = length (f_moments m) -> (k < length (f_moments m))%nat ->
  nth k (fluctuation_amplitude_from_temperature m T c2) None = if Req_EM_T c2 0 then None else rsqrt (radicand m T c2 k).
Proof.
  intros HR Hk. unfold fluctuation_amplitude_from_temperature.
  rewrite (nth_map_list _ (combine (normalization_factors m) (f_rates m)) k None (0, 0)) by (rewrite combine_length, norm_length; lia).
  rewrite combine_nth by (rewrite norm_length; lia). cbn [fst snd]. rewrite nth_norm by exact Hk.
  unfold rdiv. destruct (Req_EM_T c2 0); reflexivity.
Qed.

Section Add.
  Context (m : fmethod) (Minv : mat) (T c2 : R).
  Let S := f_stencil m.
  Let ms := f_moments m.
  Hypothesis HR : length (f_rates m) = length ms.
  Hypothesis HI : is_inverse (length S) (q2r (qmoment_matrix ms S)) Minv.

  Lemma ms_length : length ms = length S.
  Proof. destruct HI as ([H _] & _). unfold q2r, qmoment_matrix in H. rewrite !map_length in H. exact H. Qed.

  Lemma add_inv truthy amps rng mains out : add_fluctuations truthy T amps c2 m Minv rng mains = Ok (Some out) ->
    truthy = true /\ amps = [] /\ is_weighted_orthogonal m = true /\ (length S <= length mains)%nat /\
    exists phi, fluctuating_part ms (fluctuation_amplitude_from_temperature m T c2) (random_matrix ms rng 0) = map Some phi /\
      out = radd (firstn (length S) mains) (mv Minv phi) ++ skipn (length S) mains.
  Proof.
    unfold add_fluctuations. destruct truthy, amps as [|a amps]; cbn [length Nat.eqb negb andb orb]; try discriminate.
    destruct (is_weighted_orthogonal m); [|discriminate]. cbn [negb]. unfold fluctuation_correction.
    fold ms. rewrite firstn_all2 by (rewrite amps_length by exact HR; unfold ms; lia). rewrite amps_length by exact HR. rewrite Nat.ltb_irrefl.
    cbn [rbind]. destruct (opt_list _) as [phi|] eqn:E; [|discriminate]. apply opt_list_some in E.
    unfold add_corrections. rewrite mv_length. destruct HI as (_ & [Hm _] & _). rewrite Hm.
    destruct (Nat.ltb_spec (length mains) (length S)) as [|HL]; [discriminate|]. cbn [rbind]. intros [= <-].
    refine (conj eq_refl (conj eq_refl (conj eq_refl (conj HL _)))). exists phi. split; [exact E|reflexivity].
  Qed.
  Lemma phi_length rng phi : fluctuating_part ms (fluctuation_amplitude_from_temperature m T c2) (random_matrix ms rng 0) = map Some phi -> length phi = length S.
  Proof.
    intros H. apply (f_equal (@length _)) in H. unfold fluctuating_part in H. rewrite !map_length, !combine_length, random_length, amps_length in H by exact HR.
    fold ms in H. rewrite <- ms_length. lia.
  Qed.
  Lemma nth_phi rng phi k : fluctuating_part ms (fluctuation_amplitude_from_temperature m T c2) (random_matrix ms rng 0) = map Some phi ->
    (k < length ms)%nat -> if in_conserved (nth k ms []) then nth k phi 0 = 0
      else c2 <> 0 /\ 0 <= radicand m T c2 k /\ nth k phi 0 = sqrt (radicand m T c2 k) * ((rng (draws ms k) - / 2) * sqrt 12).
  Proof.
    intros H Hk. pose proof (phi_length rng phi H) as L. pose proof ms_length as HL.
    assert (E : nth k (map Some phi) None = Some (nth k phi 0)) by (apply (nth_map_list Some phi k None 0); lia).
    rewrite <- H in E. unfold fluctuating_part in E.
    rewrite (nth_map_list _ _ k None (([], None), 0)) in E by (rewrite !combine_length, random_length, amps_length by exact HR; fold ms; lia).
    rewrite !combine_nth in E by (rewrite ?combine_length, ?random_length, amps_length by exact HR; fold ms; lia).
    rewrite nth_amp in E by assumption. rewrite (nth_random ms rng 0 k []) in E by exact Hk. rewrite Nat.add_0_l in E.
    destruct (in_conserved (nth k ms [])); [now injection E as <-|].
    destruct (Req_EM_T c2 0) as [|Hc]; [discriminate E|]. unfold rsqrt in E. destruct (Rlt_dec (radicand m T c2 k) 0) as [|Hr]; [discriminate E|].
    cbn [obind] in E. injection E as <-. split; [exact Hc|]. split; [lra|reflexivity].
  Qed.

  (* the effect on moment k *)
  Lemma moment_change truthy amps rng mains out k : add_fluctuations truthy T amps c2 m Minv rng mains = Ok (Some out) -> (k < length ms)%nat ->
    exists d, raw_moment S (populations S out) (nth k ms []) = raw_moment S (populations S mains) (nth k ms []) + d /\
    if in_conserved (nth k ms []) then d = 0
    else c2 <> 0 /\ 0 <= radicand m T c2 k /\ d = sqrt (radicand m T c2 k) * ((rng (draws ms k) - / 2) * sqrt 12).
  Proof.
    intros H Hk. destruct (add_inv _ _ _ _ _ H) as (_ & _ & _ & HL & phi & Hp & ->). exists (nth k phi 0). split; [|now apply (nth_phi rng)].
    pose proof (phi_length rng phi Hp) as L. pose proof HI as (HM & [HN1 HN2] & H1 & H2).
    assert (Lf : length (firstn (length S) mains) = length S) by (rewrite firstn_length; lia).
    assert (Lc : length (mv Minv phi) = length S) by (rewrite mv_length; exact HN1).
    assert (P : populations S (radd (firstn (length S) mains) (mv Minv phi) ++ skipn (length S) mains) = radd (firstn (length S) mains) (mv Minv phi)).
    { unfold populations. assert (Lr : length (radd (firstn (length S) mains) (mv Minv phi)) = length S) by (rewrite radd_length; lia).
      rewrite firstn_app, Lr, Nat.sub_diag, app_nil_r, firstn_all2 by lia. reflexivity. }
    rewrite P. rewrite !raw_moment_dot by (unfold populations; try rewrite radd_length; lia).
    rewrite dot_radd_r by lia. f_equal.
    rewrite <- (H1 phi L) at 2. rewrite nth_mv. f_equal. rewrite qmatrix_R.
    rewrite (nth_map_list _ ms k [] []) by exact Hk. reflexivity.
  Qed.
  Lemma rest_unchanged truthy amps rng mains out : add_fluctuations truthy T amps c2 m Minv rng mains = Ok (Some out) ->
    length out = length mains /\ skipn (length S) out = skipn (length S) mains.
  Proof.
    intros H. destruct (add_inv _ _ _ _ _ H) as (_ & _ & _ & HL & phi & Hp & ->). destruct HI as (_ & [HN1 _] & _).
    assert (Lr : length (radd (firstn (length S) mains) (mv Minv phi)) = length S) by (rewrite radd_length, firstn_length, mv_length; lia).
    split; [rewrite app_length, Lr, skipn_length; lia|]. rewrite skipn_app, Lr, Nat.sub_diag, skipn_all2 by lia. reflexivity.
  Qed.

  (* when it succeeds *)
  Lemma add_ok rng mains : c2 <> 0 -> is_weighted_orthogonal m = true -> (length S <= length mains)%nat ->
    (forall k, (k < length ms)%nat -> in_conserved (nth k ms []) = false -> 0 <= radicand m T c2 k) ->
    exists out, add_fluctuations true T [] c2 m Minv rng mains = Ok (Some out).
  Proof.
    intros Hc Ho HL Hr. unfold add_fluctuations. cbn [length Nat.eqb negb andb orb]. rewrite Ho. cbn [negb]. unfold fluctuation_correction. fold ms.
    rewrite firstn_all2 by (rewrite amps_length by exact HR; unfold ms; lia). rewrite amps_length by exact HR. rewrite Nat.ltb_irrefl. cbn [rbind].
    assert (E : exists phi, fluctuating_part ms (fluctuation_amplitude_from_temperature m T c2) (random_matrix ms rng 0) = map Some phi).
    { exists (map (fun k => if in_conserved (nth k ms []) then 0 else sqrt (radicand m T c2 k) * nth k (random_matrix ms rng 0) 0) (seq 0 (length ms))).
      apply (nth_ext _ _ None None).
      - unfold fluctuating_part. rewrite !map_length, !combine_length, random_length, amps_length, seq_length by exact HR. fold ms. lia.
      - intros k Hk. unfold fluctuating_part in Hk. rewrite map_length, !combine_length, random_length, amps_length in Hk by exact HR. fold ms in Hk. rewrite !Nat.min_id in Hk.
        unfold fluctuating_part. rewrite (nth_map_list _ _ k None (([], None), 0)) by (rewrite !combine_length, random_length, amps_length by exact HR; fold ms; lia).
        rewrite !combine_nth by (rewrite ?combine_length, ?random_length, amps_length by exact HR; fold ms; lia).
        rewrite nth_amp by assumption. rewrite map_map, (nth_map_list _ (seq 0 (length ms)) k None 0%nat) by (rewrite seq_length; exact Hk).
        rewrite seq_nth by exact Hk. cbn [Nat.add]. destruct (in_conserved (nth k ms [])) eqn:Ec; [reflexivity|].
        destruct (Req_EM_T c2 0); [contradiction|]. rewrite rsqrt_ok by auto. reflexivity. }
    destruct E as (phi & E). apply opt_list_some in E. rewrite E. unfold add_corrections. rewrite mv_length. destruct HI as (_ & [Hm _] & _). rewrite Hm.
    destruct (Nat.ltb_spec (length mains) (length S)) as [|_]; [lia|]. cbn [rbind]. eexists. reflexivity.
  Qed.
  Lemma add_cases truthy amps rng mains :
    (add_fluctuations truthy T amps c2 m Minv rng mains = Err ValueError <-> truthy = false \/ amps <> [] \/ is_weighted_orthogonal m = false).
  Proof.
    unfold add_fluctuations. destruct truthy, amps as [|a amps]; cbn [length Nat.eqb negb andb orb].
    2-4: split; [intros _; auto; right; left; discriminate|reflexivity].
    destruct (is_weighted_orthogonal m); cbn [negb]; [|split; auto].
    split; [|intros [H|[H|H]]; [discriminate|congruence|discriminate]]. unfold fluctuation_correction. fold ms.
    rewrite firstn_all2 by (rewrite amps_length by exact HR; unfold ms; lia). rewrite amps_length by exact HR. rewrite Nat.ltb_irrefl. cbn [rbind].
    destruct (opt_list _) as [phi|]; [|discriminate]. unfold add_corrections. destruct (_ <? _)%nat; discriminate.
  Qed.
End Add.

Lemma weighted_orthogonal_spec m : is_weighted_orthogonal m = true <-> orthogonal (f_weights m) (f_stencil m) (f_moments m).
Proof.
  assert (L : length (f_matrix m) = length (f_moments m)) by (unfold f_matrix, qmoment_matrix; apply map_length).
  assert (E : forall i j, (i < length (f_moments m))%nat -> (j < length (f_moments m))%nat ->
    Q2R (qdot3 (f_weights m) (nth i (f_matrix m) []) (nth j (f_matrix m) [])) = inner (f_weights m) (f_stencil m) (nth i (f_moments m) []) (nth j (f_moments m) [])).
  { intros i j Hi Hj. unfold f_matrix, qmoment_matrix. rewrite !(nth_map_list (qmoment_row (f_stencil m)) (f_moments m) _ [] []) by auto. apply qdot3_inner; apply row_represents. }
  unfold is_weighted_orthogonal. cbv zeta. rewrite L. split.
  - intros H i j Hi Hj Hij. rewrite forallb_forall in H. specialize (H i ltac:(apply in_seq; lia)). rewrite forallb_forall in H. specialize (H j ltac:(apply in_seq; lia)).
    apply orb_true_iff in H. destruct H as [H|H]; [apply Nat.eqb_eq in H; contradiction|]. apply Qeq_bool_R in H. now rewrite <- E.
  - intros H. apply forallb_forall. intros i Hi. apply forallb_forall. intros j Hj. apply in_seq in Hi, Hj. destruct (Nat.eqb_spec i j) as [|Hij]; [reflexivity|]. cbn [orb].
    specialize (H i j ltac:(lia) ltac:(lia) Hij). rewrite <- E in H by lia. apply Qeq_bool_iff. apply eqR_Qeq. rewrite H. symmetry. apply RMicromega.Q2R_0.
Qed.
