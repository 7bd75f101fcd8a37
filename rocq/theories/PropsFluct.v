(* C42: thermal fluctuations leave mass and momentum alone and satisfy the fluctuation-dissipation relation *)
From Coq Require Import List ZArith QArith Qreals Bool Arith Lia Reals Lra.
From Verif Require Import StencilModel EqModel RealLib LinLib LinQ TransSpec ModeModel ModeSpec ModeProofs ModeProofs4 FluctModel FluctSpec FluctProofs FluctProofs2.
Import ListNotations.
Local Open Scope R_scope.

(* an invertible moment matrix and one relaxation rate per moment *)
Definition well_formed (m : fmethod) (Minv : mat) : Prop :=
  length (f_rates m) = length (f_moments m) /\ is_inverse (length (f_stencil m)) (q2r (qmoment_matrix (f_moments m) (f_stencil m))) Minv.

(* mass: for every random sequence, temperature and set of rates *)
Theorem C42_mass : forall m Minv truthy T amplitudes c2 rng mains out, well_formed m Minv -> In one (f_moments m) ->
  add_fluctuations truthy T amplitudes c2 m Minv rng mains = Ok (Some out) ->
  mass (populations (f_stencil m) out) = mass (populations (f_stencil m) mains).
Proof. intros m Minv truthy T amps c2 rng mains out [HR HI] H1 HA. exact (mass_unchanged m Minv T c2 truthy amps rng mains out HR HI HA H1). Qed.
Print Assumptions C42_mass.

Theorem C42_momentum : forall m Minv truthy T amplitudes c2 rng mains out a, well_formed m Minv ->
  Forall (fun c => (a < length c <= 3)%nat) (f_stencil m) -> In (coordinate a) (f_moments m) ->
  add_fluctuations truthy T amplitudes c2 m Minv rng mains = Ok (Some out) ->
  momentum (f_stencil m) (populations (f_stencil m) out) a = momentum (f_stencil m) (populations (f_stencil m) mains) a.
Proof. intros m Minv truthy T amps c2 rng mains out a [HR HI] HD H1 HA. exact (momentum_unchanged m Minv T c2 truthy amps rng mains out HR HI HA a HD H1). Qed.
Print Assumptions C42_momentum.

(* main assignments after the populations (density and velocity output) keep their values *)
Theorem C42_outputs : forall m Minv truthy T amplitudes c2 rng mains out, well_formed m Minv ->
  add_fluctuations truthy T amplitudes c2 m Minv rng mains = Ok (Some out) ->
  length out = length mains /\ skipn (length (f_stencil m)) out = skipn (length (f_stencil m)) mains.
Proof. intros m Minv truthy T amps c2 rng mains out [HR HI] HA. exact (rest_unchanged m Minv T c2 HR HI _ _ _ _ _ HA). Qed.
Print Assumptions C42_outputs.

(* each moment that is not 1, x, y or z changes by its own random number (uniform on [0,1], shifted and scaled to variance 1)
   times sqrt(mu N (1 - (1-s)^2)); the others do not change *)
Theorem C42_moments : forall m Minv T c2, well_formed m Minv ->
  exists number : nat -> nat,
    (forall k l, (k < length (f_moments m))%nat -> (l < length (f_moments m))%nat -> k <> l ->
       ~ is_conserved (nth k (f_moments m) []) -> ~ is_conserved (nth l (f_moments m) []) -> number k <> number l) /\
    forall truthy amplitudes rng mains out, add_fluctuations truthy T amplitudes c2 m Minv rng mains = Ok (Some out) ->
    forall k, (k < length (f_moments m))%nat ->
      let S := f_stencil m in let p := nth k (f_moments m) [] in
      let change := raw_moment S (populations S out) p - raw_moment S (populations S mains) p in
      let variance := T * f_density m / c2 * inner (f_weights m) S p p * (1 - (1 - nth k (f_rates m) 0) ^ 2) in
      (is_conserved p -> change = 0) /\
      (~ is_conserved p -> 0 <= variance /\ change = sqrt variance * ((rng (number k) - 1 / 2) * sqrt 12)).
Proof.
  intros m Minv T c2 [HR HI]. exists (draws (f_moments m)). split.
  - intros k l Hk Hl Hne Ck Cl. assert (D : forall p, ~ is_conserved p -> in_conserved p = false) by (intros p Hp; destruct (in_conserved p) eqn:E; [apply in_conserved_spec in E; contradiction|reflexivity]).
    apply draws_inj; auto.
  - intros truthy amps rng mains out HA k Hk S p change variance. destruct (moment_change m Minv T c2 HR HI _ _ _ _ _ k HA Hk) as (d & E & D).
    assert (Ec : change = d) by (unfold change, S, p; rewrite E; ring). rewrite Ec. split; intros Hc.
    + apply in_conserved_spec in Hc. fold p in D. now rewrite Hc in D.
    + fold p in D. destruct (in_conserved p) eqn:Ep; [apply in_conserved_spec in Ep; contradiction|]. destruct D as (_ & D1 & D2).
      split; [exact D1|]. rewrite D2. unfold radicand, mu. fold S p variance. f_equal. f_equal. f_equal. lra.
Qed.
Print Assumptions C42_moments.

(* which calls are rejected *)
Theorem C42_rejected : forall m Minv truthy T amplitudes c2 rng mains, well_formed m Minv ->
  (add_fluctuations truthy T amplitudes c2 m Minv rng mains = Err ValueError <->
   truthy = false \/ amplitudes <> [] \/ ~ orthogonal (f_weights m) (f_stencil m) (f_moments m)).
Proof.
  intros m Minv truthy T amps c2 rng mains [HR HI]. rewrite (add_cases m Minv T c2 HR).
  assert (E : is_weighted_orthogonal m = false <-> ~ orthogonal (f_weights m) (f_stencil m) (f_moments m)).
  { rewrite <- weighted_orthogonal_spec. destruct (is_weighted_orthogonal m); split; congruence. }
  rewrite E. reflexivity.
Qed.
Print Assumptions C42_rejected.

(* rates between 0 and 2 and a non-negative temperature: every amplitude is real *)
Theorem C42_accepted : forall m Minv T c2 rng mains, well_formed m Minv ->
  orthogonal (f_weights m) (f_stencil m) (f_moments m) -> Forall (fun w => 0 <= Q2R w) (f_weights m) ->
  0 < c2 -> 0 <= T -> 0 <= f_density m -> (forall k, (k < length (f_moments m))%nat -> 0 <= nth k (f_rates m) 0 <= 2) ->
  (length (f_stencil m) <= length mains)%nat ->
  exists out, add_fluctuations true T [] c2 m Minv rng mains = Ok (Some out).
Proof.
  intros m Minv T c2 rng mains [HR HI] Ho Hw Hc HT Hd Hr HL. apply add_ok; auto; [lra|now apply weighted_orthogonal_spec|].
  intros k Hk _. unfold radicand. specialize (Hr k Hk). apply Rmult_le_pos; [apply Rmult_le_pos|nra].
  - unfold mu. apply Rmult_le_pos; [now apply Rmult_le_pos|]. left. now apply Rinv_0_lt_compat.
  - unfold inner. apply rsum_nonneg. intros [w c] Hin. apply in_combine_l in Hin. rewrite Forall_forall in Hw. specialize (Hw w Hin). cbn [fst snd].
    rewrite Rmult_assoc. apply Rmult_le_pos; [exact Hw|]. apply Rle_0_sqr.
Qed.
Print Assumptions C42_accepted.

(* fluctuation-dissipation: with independent uniform numbers the added fluctuations have mean 0, and relaxing equilibrium fluctuations
   of covariance mu <p_k, p_l> with the rates and adding the fluctuations reproduces this covariance *)
Theorem C42_fluctuation_dissipation : forall m Minv T c2 n E mains out, well_formed m Minv -> uniform_numbers n E ->
  (length (f_moments m) <= n)%nat ->
  (forall k, (k < length (f_moments m))%nat -> is_conserved (nth k (f_moments m) []) -> nth k (f_rates m) 0 = 0) ->
  (forall rng, add_fluctuations true T [] c2 m Minv rng mains = Ok (Some (out rng))) ->
  forall k l, (k < length (f_moments m))%nat -> (l < length (f_moments m))%nat ->
  let S := f_stencil m in let p := nth k (f_moments m) [] in let q := nth l (f_moments m) [] in
  let change r rng := raw_moment S (populations S (out rng)) r - raw_moment S (populations S mains) r in
  let covariance := T * f_density m / c2 * inner (f_weights m) S p q in
  E (change p) = 0 /\
  (1 - nth k (f_rates m) 0) * (1 - nth l (f_rates m) 0) * covariance + E (fun rng => change p rng * change q rng) = covariance.
Proof.
  intros m Minv T c2 n E mains out [HR HI] HE Hn Hc HA k l Hk Hl S p q change covariance.
  assert (Hn' : (length (filter (fun p => negb (in_conserved p)) (f_moments m)) <= n)%nat).
  { assert (F : forall l : list qpoly, (length (filter (fun p => negb (in_conserved p)) l) <= length l)%nat).
    { induction l0 as [|a l0 IH]; [cbn; lia|]. cbn [filter]. destruct (in_conserved a); cbn [negb length]; lia. }
    specialize (F (f_moments m)). lia. }
  split; [exact (delta_mean n E HE m Minv T c2 mains out HR HI Hn' HA k Hk)|].
  apply (balance n E HE m Minv T c2 mains out HR HI Hn' HA k l Hk Hl). intros i Hi Ci. apply Hc; [exact Hi|now apply in_conserved_spec].
Qed.
Print Assumptions C42_fluctuation_dissipation.

(* the modes of create_mrt_orthogonal (computed or from the literature) contain 1, x, y and z in exactly this form *)
Theorem C42_default_bases : forall S gs, standard S -> orthogonal_default_groups S true = Ok gs ->
  In one (concat gs) /\ forall a, (a < dimD S)%nat -> In (coordinate a) (concat gs).
Proof. intros S gs. apply default_conserved. Qed.
Print Assumptions C42_default_bases.
Theorem C42_literature_bases : forall S gs, NoDup S -> mrt_orthogonal_modes_literature S true = Ok gs ->
  In one (map expand (concat gs)) /\ forall a, (a < dimD S)%nat -> In (coordinate a) (map expand (concat gs)).
Proof. intros S gs. apply literature_conserved. Qed.
Print Assumptions C42_literature_bases.

(* ---- non-vacuity: D2Q9 with the default weighted orthogonal modes ---- *)
Definition w9 : list Q := match get_weights D2Q9_walberla with Ok w => w | Err _ => [] end.
Definition modes9 : list qpoly := match orthogonal_default_groups D2Q9_walberla true with Ok gs => concat gs | Err _ => [] end.
Definition d2q9_method : fmethod := FMethod D2Q9_walberla modes9 w9 [0; 0; 0; 1; 1; 1; 1; 1; 1] 1.
Lemma d2q9_well_formed : well_formed d2q9_method (q2r (qinv (qmoment_matrix modes9 D2Q9_walberla))).
Proof. split; [vm_compute; reflexivity|]. apply qinverse_check_R. vm_compute. reflexivity. Qed.
Example C42_d2q9 : forall rng mains, (9 <= length mains)%nat ->
  exists out, add_fluctuations true (1 / 1000) [] (1 / 3) d2q9_method (q2r (qinv (qmoment_matrix modes9 D2Q9_walberla))) rng mains = Ok (Some out).
Proof.
  intros rng mains HL. apply C42_accepted.
  - exact d2q9_well_formed.
  - apply weighted_orthogonal_spec. vm_compute. reflexivity.
  - vm_compute f_weights. repeat constructor; unfold Q2R; cbn; lra.
  - lra.
  - lra.
  - cbn. lra.
  - intros k Hk. cbn [d2q9_method f_rates]. do 9 (destruct k as [|k]; [cbn; lra|]). vm_compute in Hk. lia.
  - exact HL.
Qed.
Example C42_d2q9_conserves : In one modes9 /\ In (coordinate 0) modes9 /\ In (coordinate 1) modes9 /\ length (filter in_conserved modes9) = 3%nat.
Proof.
  destruct (C42_default_bases D2Q9_walberla (match orthogonal_default_groups D2Q9_walberla true with Ok gs => gs | Err _ => [] end)) as [H1 H2].
  - exists D2Q9_walberla. split; [cbn; tauto|]. split; [apply five_nodup; cbn; tauto|tauto].
  - vm_compute. reflexivity.
  - split; [exact H1|]. split; [apply H2; cbn; lia|]. split; [apply H2; cbn; lia|vm_compute; reflexivity].
Qed.
Example C42_coins : forall n, uniform_numbers n (coins n).
Proof. exact coins_uniform. Qed.

(* The set of conserved moments is fixed: an orthogonal basis that spans the momentum differently is accepted and its momentum fluctuates. *)
Definition rotated9 : list qpoly :=
  map (fun p => if qpoly_eqb p (coordinate 0) then [(1%Q, [1; 0; 0]%nat); (1%Q, [0; 1; 0]%nat)]
                else if qpoly_eqb p (coordinate 1) then [(1%Q, [1; 0; 0]%nat); ((-1)%Q, [0; 1; 0]%nat)] else p) modes9.
Definition rotated_method : fmethod := FMethod D2Q9_walberla rotated9 w9 (repeat 1 9) 1.
Theorem C42_rotated_basis_refuted : exists m Minv rng mains out, well_formed m Minv /\
  orthogonal (f_weights m) (f_stencil m) (f_moments m) /\
  add_fluctuations true 1 [] (1 / 3) m Minv rng mains = Ok (Some out) /\
  momentum (f_stencil m) (populations (f_stencil m) out) 0 + momentum (f_stencil m) (populations (f_stencil m) out) 1 <>
  momentum (f_stencil m) (populations (f_stencil m) mains) 0 + momentum (f_stencil m) (populations (f_stencil m) mains) 1.
Proof.
  set (Minv := q2r (qinv (qmoment_matrix rotated9 D2Q9_walberla))).
  assert (W : well_formed rotated_method Minv) by (split; [vm_compute; reflexivity|apply qinverse_check_R; vm_compute; reflexivity]).
  assert (Ho : orthogonal (f_weights rotated_method) (f_stencil rotated_method) (f_moments rotated_method)) by (apply weighted_orthogonal_spec; vm_compute; reflexivity).
  destruct (C42_accepted rotated_method Minv 1 (1 / 3) (fun _ => 1) (repeat 0 9) W Ho) as (out & Hout).
  - vm_compute f_weights. repeat constructor; unfold Q2R; cbn; lra.
  - lra.
  - lra.
  - cbn. lra.
  - intros k Hk. cbn [rotated_method f_rates]. do 9 (destruct k as [|k]; [cbn; lra|]). vm_compute in Hk. lia.
  - cbn. lia.
  - exists rotated_method, Minv, (fun _ => 1), (repeat 0 9), out. split; [exact W|]. split; [exact Ho|]. split; [exact Hout|]. intros Eq.
    destruct (C42_moments rotated_method Minv 1 (1 / 3) W) as (num & _ & H). specialize (H _ _ _ _ _ Hout 1%nat ltac:(vm_compute; lia)). cbv zeta in H. destruct H as [_ H].
    assert (Ep : nth 1 (f_moments rotated_method) [] = [(1%Q, [1; 0; 0]%nat); (1%Q, [0; 1; 0]%nat)]) by (vm_compute; reflexivity).
    assert (Nc : ~ is_conserved (nth 1 (f_moments rotated_method) [])) by (rewrite Ep; intros (q & e & Hp & _); discriminate Hp).
    destruct (H Nc) as [_ H']. clear H. rewrite Ep in H'.
    assert (Sum : forall f, raw_moment (f_stencil rotated_method) f [(1%Q, [1; 0; 0]%nat); (1%Q, [0; 1; 0]%nat)] = momentum (f_stencil rotated_method) f 0 + momentum (f_stencil rotated_method) f 1).
    { intros f. unfold raw_moment, momentum. rewrite <- rsum_plus. apply rsum_ext. intros [x c] Hin. apply in_combine_r in Hin. cbn [fst snd].
      assert (Lc : length c = 2%nat) by (revert Hin; cbn; intuition (subst; reflexivity)). destruct c as [|c0 [|c1 [|]]]; try discriminate Lc.
      unfold toR, peval. cbn [map fst snd vecR rmono pow nth]. rewrite !rsum_cons, rsum_nil, RMicromega.Q2R_1. ring. }
    rewrite !Sum, Eq in H'.
    assert (N : inner (f_weights rotated_method) (f_stencil rotated_method) [(1%Q, [1; 0; 0]%nat); (1%Q, [0; 1; 0]%nat)] [(1%Q, [1; 0; 0]%nat); (1%Q, [0; 1; 0]%nat)] = 2 / 3).
    { rewrite <- (qdot3_inner _ _ _ _ _ _ (row_represents D2Q9_walberla _) (row_represents D2Q9_walberla _)).
      transitivity (Q2R (2 # 3)); [apply Qeq_eqR; vm_compute; reflexivity|unfold Q2R; cbn; lra]. }
    rewrite N in H'. cbn [rotated_method f_density f_rates nth repeat] in H'.
    assert (P : 0 < sqrt (1 * 1 / (1 / 3) * (2 / 3) * (1 - (1 - 1) ^ 2))) by (apply sqrt_lt_R0; lra).
    assert (P2 : 0 < sqrt 12) by (apply sqrt_lt_R0; lra).
    assert (P3 : 0 < sqrt (1 * 1 / (1 / 3) * (2 / 3) * (1 - (1 - 1) ^ 2)) * ((1 - 1 / 2) * sqrt 12)) by (apply Rmult_lt_0_compat; [exact P|]; apply Rmult_lt_0_compat; [lra|exact P2]).
    rewrite <- H' in P3. lra.
Qed.
Print Assumptions C42_rotated_basis_refuted.

(* "Pass either 'temperature' or 'amplitudes'": amplitudes alone are never accepted *)
Theorem C42_amplitudes_refuted : forall m Minv T amplitudes c2 rng mains, amplitudes <> [] ->
  add_fluctuations false T amplitudes c2 m Minv rng mains = Err ValueError.
Proof. reflexivity. Qed.
Print Assumptions C42_amplitudes_refuted.
