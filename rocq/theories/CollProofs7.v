(* Relation between collision operators: SRT, TRT, MRT. *)
From Coq Require Import String List ZArith Bool Arith Reals Lra Lia Permutation.
From Verif Require Import StencilModel StencilProofs RealLib LinLib TransSpec TransModel MomModel EqModel EqSpec CumModel CumProofs CumProofs2 CumProofs4 CollSpec CollModel TransProofs TransProofs2 TransProofs3 CollProofs CollProofs2 CollProofs3 CollProofs4 CollProofs5.
Import ListNotations.
Local Open Scope R_scope.

Lemma rmul_repeat w x n : length x = n -> rmul (repeat w n) x = rscal w x.
Proof. intros <-. induction x as [|a x IH]; [reflexivity|]. cbn [length repeat]. unfold rmul in *. cbn [combine map fst snd]. rewrite IH. reflexivity. Qed.
Lemma mv_ext_row A x y : (forall i, (i < length A)%nat -> dot (nth i A []) x = y i) -> mv A x = map y (seq 0 (length A)).
Proof.
  intros H. apply list_ext; rewrite ?mv_length, ?map_length, ?seq_length; auto. intros i Hi. rewrite nth_mv, H by auto.
  rewrite nth_indep with (d' := y 0%nat) by (rewrite map_length, seq_length; auto). rewrite map_nth, seq_nth by auto. reflexivity.
Qed.
Lemma moments_radd ps S u f g : length f = length g -> map (poly_moment (radd f g) S u) ps = radd (map (poly_moment f S u) ps) (map (poly_moment g S u) ps).
Proof. apply map_poly_moment_radd. Qed.
Lemma poly_moment_mv ps S u f : map (poly_moment f S u) ps = mv (moment_matrix ps S u) f.
Proof. symmetry. apply mv_moment_matrix. Qed.

(* f + w(g - f) *)
Definition mix (w : R) (g f : list R) : list R := radd f (rscal w (rsub g f)).
Lemma mix_length n w g f : length g = n -> length f = n -> length (mix w g f) = n.
Proof. intros. unfold mix. rewrite radd_length, rscal_length, rsub_length. lia. Qed.

Section Rates.
  Variables (n : nat) (S : stencil) (ps : list poly) (w u : list R) (fwd bwd : list R -> res (list R)).
  Hypothesis HT : moment_transform n S ps w u fwd bwd.
  Hypothesis Hps : length ps = n.
  Hypothesis Hw : length w = n.

  Lemma bwd_unique k f : length f = n -> map (poly_moment (radd f w) S u) ps = k -> bwd k = Ok f.
  Proof.
    intros Lf E. destruct HT as (_ & HB & HI). destruct (HB k) as (g & E1 & E2 & E3); [subst k; now rewrite map_length|].
    rewrite E1. f_equal. apply HI; auto. congruence.
  Qed.
  (* moments of f + delta, where delta is any change of the populations *)
  Lemma moments_change f delta : length f = n -> length delta = n ->
    map (poly_moment (radd (radd f delta) w) S u) ps = radd (map (poly_moment (radd f w) S u) ps) (map (poly_moment delta S u) ps).
  Proof.
    intros Hf Hd. assert (E : radd (radd f delta) w = radd (radd f w) delta). { rewrite <- !radd_assoc. f_equal. apply radd_comm. }
    rewrite E. apply moments_radd. rewrite radd_length. lia.
  Qed.
  Lemma moments_diff feq f : length f = n -> length feq = n ->
    map (poly_moment (rsub feq f) S u) ps = rsub (map (poly_moment (radd feq w) S u) ps) (map (poly_moment (radd f w) S u) ps).
  Proof.
    intros Hf He. rewrite !poly_moment_mv, <- mv_rsub by (rewrite !radd_length; lia). f_equal.
    apply list_ext; rewrite !rsub_length, ?radd_length; [lia|]. intros i Hi. rewrite !nth_rsub, !nth_radd by (rewrite ?radd_length; lia). lra.
  Qed.
  (* the collision is determined by the change of the moments *)
  Lemma collide_is d eqs f feq delta : length d = n -> length f = n -> length feq = n -> length delta = n -> bwd eqs = Ok feq -> length eqs = n ->
    map (poly_moment delta S u) ps = rmul d (map (poly_moment (rsub feq f) S u) ps) ->
    collide fwd bwd d eqs (rzero n) f = Ok (radd f delta).
  Proof.
    intros Ld Lf Le Ldl Hb Leq Hdl. unfold collide. destruct HT as (HF & HB & HI). rewrite HF by auto. cbn [rbind]. apply bwd_unique; [rewrite radd_length; lia|].
    destruct (HB eqs Leq) as (g & E1 & E2 & E3). rewrite Hb in E1. injection E1 as <-.
    rewrite moments_change, Hdl, moments_diff, E3 by auto. unfold relax.
    assert (Lm : length (map (poly_moment (radd f w) S u) ps) = n) by now rewrite map_length.
    set (mm := map (poly_moment (radd f w) S u) ps) in *.
    apply list_ext; rewrite !radd_length, !rmul_length, !rsub_length, ?rzero_length; [lia|]. intros i Hi.
    rewrite !nth_radd, nth_rzero by (rewrite ?radd_length, ?rmul_length, ?rsub_length, ?rzero_length; lia). lra.
  Qed.
  Lemma srt_collide omega eqs f : length eqs = n -> length f = n ->
    exists feq, bwd eqs = Ok feq /\ length feq = n /\ collide fwd bwd (repeat omega n) eqs (rzero n) f = Ok (mix omega feq f).
  Proof.
    intros Le Lf. pose proof HT as (HF & HB & HI). destruct (HB eqs Le) as (feq & E1 & E2 & E3). exists feq. split; [auto|]. split; [auto|].
    apply (collide_is _ _ _ feq); auto; try (rewrite ?repeat_length, ?rscal_length, ?rsub_length; lia).
    rewrite rmul_repeat by (rewrite map_length; auto). rewrite !poly_moment_mv. apply mv_scal.
  Qed.
End Rates.

(* ---- change of basis inside groups of equal rates ---- *)
(* the modes ps' are the combinations A of the modes ps *)
Definition combined (A : mat) (ps ps' : list poly) : Prop := forall g, equilibrium_values ps' g = mv A (equilibrium_values ps g).
Lemma poly_moment_value f S u p : poly_moment f S u p = poly_value (central_moment f S u) p.
Proof. apply poly_moment_terms. Qed.
Lemma combined_moments A ps ps' f S u : combined A ps ps' -> map (poly_moment f S u) ps' = mv A (map (poly_moment f S u) ps).
Proof.
  intros H. rewrite !(map_ext _ _ (poly_moment_value f S u)). apply H.
Qed.
Lemma dot_rates (r : list R) w : forall d x, length d = length x -> (forall j, (j < length d)%nat -> nth j r 0 <> 0 -> nth j d 0 = w) -> dot r (rmul d x) = w * dot r x.
Proof.
  induction r as [|a r IH]; intros [|b d] [|c x] L H; try discriminate; try (cbn; unfold dot; cbn; lra).
  - assert (E : rmul (b :: d) (c :: x) = b * c :: rmul d x) by reflexivity. rewrite E, !dot_cons, IH by (try (cbn in L; lia); intros j Hj; apply (H (Datatypes.S j)); cbn; lia).
    destruct (Req_dec a 0) as [->|Hne]; [lra|]. rewrite <- (H 0%nat) by (cbn; auto; lia). cbn. ring.
Qed.
Lemma mv_rates n A d d' x : mat_wf n n A -> length d = n -> length d' = n -> length x = n ->
  (forall i j, (i < n)%nat -> (j < n)%nat -> nth j (nth i A []) 0 <> 0 -> nth i d' 0 = nth j d 0) ->
  mv A (rmul d x) = rmul d' (mv A x).
Proof.
  intros [LA _] Ld Ld' Lx H. apply list_ext; rewrite ?mv_length, ?rmul_length, ?mv_length; [lia|]. intros i Hi.
  rewrite nth_mv, nth_rmul, nth_mv by (rewrite mv_length; lia). apply dot_rates; [congruence|]. intros j Hj Hne. symmetry. apply H; auto; lia.
Qed.
Lemma relax_delta n d e m : length d = n -> length e = n -> length m = n -> rsub (radd (relax d e m) (rzero n)) m = rmul d (rsub e m).
Proof.
  intros Ld Le Lm. unfold relax.
  assert (L1 : length (rsub e m) = n) by (rewrite rsub_length; lia). assert (L2 : length (rmul d (rsub e m)) = n) by (rewrite rmul_length; lia).
  assert (L3 : length (radd m (rmul d (rsub e m))) = n) by (rewrite radd_length; lia).
  assert (L4 : length (radd (radd m (rmul d (rsub e m))) (rzero n)) = n) by (rewrite radd_length, rzero_length; lia).
  apply list_ext; [rewrite rsub_length; lia|]. intros i _.
  rewrite nth_rsub, nth_radd, nth_radd, nth_rzero by (rewrite ?rzero_length; lia). lra.
Qed.
Lemma basis_change n S ps ps' A w u fwd bwd fwd' bwd' d d' g f :
  moment_transform n S ps w u fwd bwd -> moment_transform n S ps' w u fwd' bwd' -> length ps = n -> length ps' = n -> length w = n ->
  combined A ps ps' -> mat_wf n n A -> length d = n -> length d' = n -> length f = n ->
  (forall i j, (i < n)%nat -> (j < n)%nat -> nth j (nth i A []) 0 <> 0 -> nth i d' 0 = nth j d 0) ->
  collide fwd' bwd' d' (equilibrium_values ps' g) (rzero n) f = collide fwd bwd d (equilibrium_values ps g) (rzero n) f.
Proof.
  intros HT HT' Lp Lp' Lw HC HA Ld Ld' Lf HR.
  pose proof HT as (_ & HB & _). pose proof HT' as (_ & HB' & _).
  assert (Le : length (equilibrium_values ps g) = n) by now rewrite values_length.
  destruct (HB _ Le) as (feq & E1 & E2 & E3).
  assert (E4 : bwd' (equilibrium_values ps' g) = Ok feq).
  { apply (bwd_unique n S ps' w u fwd' bwd' HT' Lp'); auto. rewrite (combined_moments A ps ps') by auto. rewrite E3. symmetry. apply HC. }
  (* the change of the populations in the first basis *)
  unfold collide at 2. destruct HT as (HF & _ & _). rewrite HF by auto. cbn [rbind].
  assert (Lr : length (radd (relax d (equilibrium_values ps g) (map (poly_moment (radd f w) S u) ps)) (rzero n)) = n).
  { unfold relax. rewrite !radd_length, rmul_length, rsub_length, values_length, map_length, rzero_length. lia. }
  destruct (HB _ Lr) as (f1 & F1 & F2 & F3). rewrite F1.
  assert (EX : f1 = radd f (rsub f1 f)). { apply list_ext; [rewrite radd_length, rsub_length; lia|]. intros i Hi. rewrite nth_radd, nth_rsub by (rewrite ?rsub_length; lia). lra. }
  rewrite EX. apply (collide_is n S ps' w u fwd' bwd' HT' Lp' Lw d' _ _ feq); auto; try (rewrite ?rsub_length, ?values_length; lia).
  rewrite !(combined_moments A ps ps') by auto. rewrite <- (mv_rates n A d d') by (auto; rewrite map_length; auto). f_equal.
  rewrite !(moments_diff n S ps w u) by auto. rewrite F3, E3. apply relax_delta; auto. now rewrite map_length.
Qed.

(* ---- two relaxation times ---- *)
Definition opposite (c : vec) : vec := map Z.opp c.
Definition inversion_closed (S : stencil) : Prop := forall c, In c S -> In (opposite c) S.
(* the population of the opposite direction *)
Definition mirrored (S : stencil) (f : list R) : list R :=
  map (fun c => match index_of (opposite c) S with Some i => nth i f 0 | None => 0 end) S.
Lemma opposite_involutive c : opposite (opposite c) = c.
Proof. unfold opposite. rewrite map_map. rewrite <- (map_id c) at 2. apply map_ext. intros. lia. Qed.
Lemma rsum_perm l l' : Permutation l l' -> rsum l = rsum l'.
Proof. induction 1; rewrite ?rsum_cons; congruence || lra || auto. Qed.
Definition at_dir (S : stencil) (f : list R) (c : vec) : R := match index_of c S with Some i => nth i f 0 | None => 0 end.
Lemma map_at_dir S : forall f, NoDup S -> length f = length S -> map (at_dir S f) S = f.
Proof.
  intros f HN HL. apply list_ext; [now rewrite map_length|]. rewrite map_length. intros i Hi. destruct (nth_error S i) as [c|] eqn:E; [|apply nth_error_None in E; lia].
  rewrite (nth_error_nth _ _ _ (map_nth_error (at_dir S f) _ _ E)). unfold at_dir.
  assert (EI : index_of c S = Some i) by now apply index_of_nth. now rewrite EI.
Qed.
Lemma combine_self h g (l : stencil) : map (fun fc : R * vec => fst fc * h (snd fc)) (combine (map g l) l) = map (fun c => g c * h c) l.
Proof. induction l as [|x l IHl]; [reflexivity|]. cbn. now rewrite IHl. Qed.
Lemma fsum_at_dir S f h : NoDup S -> length f = length S -> fsum f S h = rsum (map (fun c => at_dir S f c * h c) S).
Proof.
  intros HN HL. unfold fsum. rewrite <- (map_at_dir S f HN HL) at 1. f_equal. apply combine_self.
Qed.
Lemma mirrored_length S f : length (mirrored S f) = length S. Proof. apply map_length. Qed.
Lemma fsum_mirrored S f h : NoDup S -> inversion_closed S -> length f = length S -> fsum (mirrored S f) S h = fsum f S (fun c => h (opposite c)).
Proof.
  intros HN HC HL. rewrite (fsum_at_dir S f) by auto.
  assert (E : fsum (mirrored S f) S h = rsum (map (fun c => at_dir S f (opposite c) * h c) S)).
  { unfold fsum, mirrored. f_equal. apply (combine_self h (fun c => at_dir S f (opposite c))). }
  rewrite E. transitivity (rsum (map (fun c => at_dir S f c * h (opposite c)) (map opposite S))).
  - rewrite map_map. apply rsum_ext. intros c _. now rewrite opposite_involutive.
  - apply rsum_perm. apply Permutation_map. apply NoDup_Permutation; auto.
    + apply FinFun.Injective_map_NoDup; auto. intros a b Hab. rewrite <- (opposite_involutive a), Hab. apply opposite_involutive.
    + intros c. rewrite in_map_iff. split; [intros (x & <- & Hx); auto|]. intros Hc. exists (opposite c). split; [apply opposite_involutive|auto].
Qed.
Definition even_poly (p : poly) : Prop := Forall (fun t => Nat.Even (nsum (snd t))) p.
Definition odd_poly (p : poly) : Prop := Forall (fun t => Nat.Odd (nsum (snd t))) p.
Lemma rmono_opposite x : forall e, length e = length x -> rmono (map Ropp x) e = (-1) ^ nsum e * rmono x e.
Proof.
  induction x as [|a x IH]; intros [|k e] L; try discriminate; [cbn; lra|]. cbn [map rmono]. rewrite IH by (cbn in L; lia).
  replace (nsum (k :: e)) with (k + nsum e)%nat by reflexivity. rewrite pow_add. replace (- a) with (-1 * a) by lra. rewrite Rpow_mult_distr. ring.
Qed.
Lemma vecR_opposite c : vecR (opposite c) = map Ropp (vecR c).
Proof. unfold vecR, opposite. rewrite !map_map. apply map_ext. intros. now rewrite opp_IZR. Qed.
Lemma even_value D p c : even_poly p -> Forall (fun t => length (snd t) = D) p -> length c = D -> peval p (vecR (opposite c)) = peval p (vecR c).
Proof.
  intros HE HD Hc. unfold peval. apply rsum_ext. intros t Ht. f_equal. unfold even_poly in HE. rewrite Forall_forall in HE, HD. specialize (HE t Ht). specialize (HD t Ht). cbn beta in *.
  rewrite vecR_opposite, rmono_opposite by (unfold vecR; rewrite map_length; congruence). destruct HE as [k ->]. rewrite pow_1_even. lra.
Qed.
Lemma odd_value D p c : odd_poly p -> Forall (fun t => length (snd t) = D) p -> length c = D -> peval p (vecR (opposite c)) = - peval p (vecR c).
Proof.
  intros HE HD Hc. unfold peval. replace (- rsum (map (fun t => fst t * rmono (vecR c) (snd t)) p)) with (-1 * rsum (map (fun t => fst t * rmono (vecR c) (snd t)) p)) by lra.
  rewrite <- rsum_scal. apply rsum_ext. intros t Ht. unfold odd_poly in HE. rewrite Forall_forall in HE, HD. specialize (HE t Ht). specialize (HD t Ht). cbn beta in *.
  rewrite vecR_opposite, rmono_opposite by (unfold vecR; rewrite map_length; congruence). destruct HE as [k ->]. replace (2 * k + 1)%nat with (Datatypes.S (2 * k)) by lia. rewrite pow_1_odd. lra.
Qed.
(* symmetric and antisymmetric parts *)
Definition symmetric_part (S : stencil) (f : list R) : list R := rscal (1 / 2) (radd f (mirrored S f)).
Definition antisymmetric_part (S : stencil) (f : list R) : list R := rscal (1 / 2) (rsub f (mirrored S f)).
Lemma poly_fsum D f S p : Forall (fun c => length c = D) S -> poly_moment f S (rzero D) p = fsum f S (fun c => peval p (vecR c)).
Proof.
  intros HD. unfold poly_moment, fsum. apply rsum_ext. intros [x c] Hin. cbn [fst snd]. do 2 f_equal. apply in_combine_r in Hin. rewrite Forall_forall in HD.
  apply rsub_zero_r'. unfold vecR. rewrite map_length. auto.
Qed.
Lemma fsum_ext_in f S h k : (forall c, In c S -> h c = k c) -> fsum f S h = fsum f S k.
Proof. intros H. unfold fsum. apply rsum_ext. intros [x c] Hin. cbn [fst snd]. rewrite H; auto. now apply in_combine_r in Hin. Qed.
Lemma fsum_rsub f g S h : length f = length g -> fsum (rsub f g) S h = fsum f S h - fsum g S h.
Proof.
  unfold fsum. revert f g. induction S as [|c S IH]; intros [|x f] [|y g] L; try discriminate; cbn; try lra.
  unfold rsum in IH. unfold rsub in IH. rewrite IH by (cbn in L; lia). lra.
Qed.
Lemma parts_moments D S f p : NoDup S -> inversion_closed S -> Forall (fun c => length c = D) S -> length f = length S -> Forall (fun t => length (snd t) = D) p ->
  (even_poly p -> poly_moment (symmetric_part S f) S (rzero D) p = poly_moment f S (rzero D) p /\ poly_moment (antisymmetric_part S f) S (rzero D) p = 0) /\
  (odd_poly p -> poly_moment (symmetric_part S f) S (rzero D) p = 0 /\ poly_moment (antisymmetric_part S f) S (rzero D) p = poly_moment f S (rzero D) p).
Proof.
  intros HN HC HD HL Hp. rewrite !(poly_fsum D) by auto. unfold symmetric_part, antisymmetric_part.
  rewrite !fsum_rscal, fsum_radd, fsum_rsub, fsum_mirrored by (rewrite ?mirrored_length; auto). rewrite Forall_forall in HD.
  split; intros Hpar.
  - rewrite (fsum_ext_in f S (fun c => peval p (vecR (opposite c))) (fun c => peval p (vecR c))) by (intros; eapply even_value; eauto). lra.
  - rewrite (fsum_ext_in f S (fun c => peval p (vecR (opposite c))) (fun c => (-1) * peval p (vecR c))) by (intros; rewrite (odd_value D) by auto; lra).
    rewrite fsum_scal. lra.
Qed.
Lemma trt_collide D n S ps w fwd bwd d we wo eqs f : moment_transform n S ps w (rzero D) fwd bwd -> length ps = n -> length w = n ->
  NoDup S -> length S = n -> inversion_closed S -> Forall (fun c => length c = D) S -> Forall (Forall (fun t => length (snd t) = D)) ps ->
  length d = n -> (forall i p, nth_error ps i = Some p -> even_poly p /\ nth i d 0 = we \/ odd_poly p /\ nth i d 0 = wo) ->
  length eqs = n -> length f = n ->
  exists feq, bwd eqs = Ok feq /\ length feq = n /\
    collide fwd bwd d eqs (rzero n) f = Ok (radd f (radd (rscal we (rsub (symmetric_part S feq) (symmetric_part S f))) (rscal wo (rsub (antisymmetric_part S feq) (antisymmetric_part S f))))).
Proof.
  intros HT Lp Lw HN Lq HC HD Ht Ld Hrates Le Lf. pose proof HT as (HF & HB & HI). destruct (HB eqs Le) as (feq & E1 & E2 & E3). exists feq. split; [auto|]. split; [auto|].
  assert (Ls : forall x, length x = n -> length (symmetric_part S x) = n) by (intros; unfold symmetric_part; rewrite rscal_length, radd_length, mirrored_length; lia).
  assert (La : forall x, length x = n -> length (antisymmetric_part S x) = n) by (intros; unfold antisymmetric_part; rewrite rscal_length, rsub_length, mirrored_length; lia).
  pose proof (Ls f Lf) as L1. pose proof (Ls feq E2) as L2. pose proof (La f Lf) as L3. pose proof (La feq E2) as L4.
  apply (collide_is n S ps w (rzero D) fwd bwd HT Lp Lw d eqs f feq); auto; try (rewrite ?radd_length, ?rscal_length, ?rsub_length; lia).
  apply list_ext; rewrite ?rmul_length, !map_length; [lia|]. intros i Hi. rewrite nth_rmul by (rewrite map_length; lia).
  destruct (nth_error ps i) as [p|] eqn:Ei; [|apply nth_error_None in Ei; lia].
  rewrite !(nth_error_nth _ _ _ (map_nth_error (poly_moment _ S (rzero D)) _ _ Ei)).
  assert (Hpt : Forall (fun t : R * list nat => length (snd t) = D) p) by (rewrite Forall_forall in Ht; apply Ht; eapply nth_error_In; eauto).
  destruct (parts_moments D S f p HN HC HD ltac:(congruence) Hpt) as [F1 F2]. destruct (parts_moments D S feq p HN HC HD ltac:(congruence) Hpt) as [G1 G2].
  rewrite !(poly_fsum D) in * by auto. rewrite fsum_radd by (rewrite !rscal_length, !rsub_length; lia). rewrite !fsum_rscal, !fsum_rsub by lia.
  destruct (Hrates i p Ei) as [[Hp ->]|[Hp ->]]; [destruct (F1 Hp) as [-> ->]; destruct (G1 Hp) as [-> ->]|destruct (F2 Hp) as [-> ->]; destruct (G2 Hp) as [-> ->]]; lra.
Qed.
(* equal rates: TRT is SRT *)
Lemma parts_sum n S f : length f = n -> length S = n -> radd (symmetric_part S f) (antisymmetric_part S f) = f.
Proof.
  intros Lf Ls. unfold symmetric_part, antisymmetric_part. pose proof (mirrored_length S f) as Lm.
  apply list_ext; rewrite radd_length, !rscal_length, radd_length, rsub_length; [lia|]. intros i Hi.
  rewrite nth_radd by (rewrite !rscal_length, radd_length, rsub_length; lia). rewrite !nth_rscal, nth_radd, nth_rsub by lia. lra.
Qed.

(* ---- population form ---- *)
Lemma population_is_moment D n S ps zc dev compr eqm ws Minv srt d force f :
  let M := moment_matrix ps S (rzero D) in
  Forall (fun c => length c = D) S -> length S = n -> length ps = n -> is_inverse n M Minv -> length d = n -> length f = n ->
  zc && negb dev = false -> (srt = true -> d = repeat (nth 0 d 0) n) ->
  (forall fm F, force = Some (fm, F) -> fm <> CentralMoment /\ length F = D /\ length ws = n /\ ~ (fm = He /\ srt = true)) ->
  (forall fm F rho u, force = Some (fm, F) -> length u = D -> exists e, raw_equilibrium_populations ps eqm (fun m => Ok (mv Minv m)) rho u = Ok e /\ length e = n) ->
  population_collision D S ps zc dev compr eqm ws M Minv srt d force f =
  moment_collision D S ps zc compr eqm ws M (fun f => Ok (mv M f)) (fun m => Ok (mv Minv m)) d force f.
Proof.
  intros M Hdim Hq Hps HM Ld Lf Hz Hsrt Hforce Heq. unfold population_collision, moment_collision. rewrite Hz. pose proof HM as (W1 & W2 & H1 & H2).
  set (rho := pdf_density zc f). set (u := equilibrium_velocity D S zc compr force f).
  assert (LM : forall x, length (mv M x) = n) by (intros; rewrite mv_length; apply W1).
  assert (LMi : forall x, length (mv Minv x) = n) by (intros; rewrite mv_length; apply W2).
  assert (Lm : length (equilibrium_values ps (eqm rho u)) = n) by now rewrite values_length.
  assert (STEP : forall g, length g = n -> Ok (radd (radd f (mv Minv (rmul d (rsub (equilibrium_values ps (eqm rho u)) (mv M f))))) (mv Minv g)) =
            collide (fun f => Ok (mv M f)) (fun m => Ok (mv Minv m)) d (equilibrium_values ps (eqm rho u)) g f).
  { intros g Lg. unfold collide, relax. cbn [rbind]. f_equal. rewrite !mv_radd by (rewrite ?radd_length, ?rmul_length, ?rsub_length, ?LM; lia). now rewrite H2. }
  assert (LV : length u = D). { apply velocity_length. intros fm F E. now apply Hforce in E. }
  assert (DIR : forall phi, length phi = n -> Ok (radd (radd f (mv Minv (rmul d (rsub (equilibrium_values ps (eqm rho u)) (mv M f))))) phi) =
            collide (fun f => Ok (mv M f)) (fun m => Ok (mv Minv m)) d (equilibrium_values ps (eqm rho u)) (mv M phi) f).
  { intros phi Lphi. rewrite <- STEP by apply LM. now rewrite H2. }
  assert (SRT : forall phi, length phi = n -> srt = true -> half_relaxed d (mv M phi) = mv M (rscal (1 - nth 0 d 0 / 2) phi)).
  { intros phi Lphi Es. specialize (Hsrt Es). rewrite mv_scal. apply list_ext; rewrite half_relaxed_length, ?rscal_length, LM; [lia|]. intros i Hi.
    rewrite nth_half_relaxed, nth_rscal by (rewrite ?LM; lia). rewrite Hsrt at 1. assert (ER : nth i (repeat (nth 0 d 0) n) 0 = nth 0 d 0) by (rewrite (nth_indep _ 0 (nth 0 d 0)) by (rewrite repeat_length; lia); apply nth_repeat). rewrite ER. lra. }
  clearbody u. destruct force as [[fm F]|].
  - destruct (Hforce fm F eq_refl) as (Hc & HF & Hws & Hhe).
    assert (VIA : forall g, space_forcing fm D S ps M (fun m => m) ws d (raw_equilibrium_populations ps eqm (fun m => Ok (mv Minv m)) rho) compr rho u F = Ok g -> length g = n ->
      rbind (rbind (space_forcing fm D S ps M (fun m => m) ws d (raw_equilibrium_populations ps eqm (fun m => Ok (mv Minv m)) rho) compr rho u F) (fun m => Ok (mv Minv m)))
        (fun g => Ok (radd (radd f (mv Minv (rmul d (rsub (equilibrium_values ps (eqm rho u)) (mv M f))))) g)) =
      rbind (space_forcing fm D S ps M (fun m => m) ws d (raw_equilibrium_populations ps eqm (fun m => Ok (mv Minv m)) rho) compr rho u F)
        (fun g => collide (fun f => Ok (mv M f)) (fun m => Ok (mv Minv m)) d (equilibrium_values ps (eqm rho u)) g f)).
    { intros g -> Lg. cbn [rbind]. now apply STEP. }
    assert (Lsi : length (simple_terms S ws F) = n) by (unfold simple_terms; rewrite map_length, combine_length; lia).
    assert (Llu : length (luo_terms S ws u F) = n) by (unfold luo_terms; rewrite map_length, combine_length; lia).
    destruct fm; try congruence; cbn [population_forcing space_forcing] in *; rewrite ?HF, ?Nat.eqb_refl in *.
    + cbn [rbind]. now apply DIR.
    + cbn [rbind]. now apply DIR.
    + destruct srt eqn:Es; [cbn [rbind]; rewrite SRT by auto; apply DIR; rewrite rscal_length; auto|]. eapply VIA; [reflexivity|]. rewrite half_relaxed_length, LM. lia.
    + destruct srt eqn:Es; [exfalso; auto|]. eapply VIA; [reflexivity|]. rewrite half_relaxed_length, values_length. lia.
    + destruct srt eqn:Es; [cbn [rbind]; rewrite SRT by auto; apply DIR; rewrite rscal_length; auto|]. eapply VIA; [reflexivity|]. rewrite half_relaxed_length, LM. lia.
    + unfold edm_terms. destruct (Heq EDM F rho (radd u (map (fun x => x / reference_density compr rho) F)) eq_refl) as (e1 & -> & L1); [rewrite radd_length, map_length; lia|].
      destruct (Heq EDM F rho u eq_refl LV) as (e2 & -> & L2). cbn [rbind]. apply DIR. rewrite rsub_length. lia.
    + eapply VIA; [reflexivity|]. unfold shan_chen_factor. rewrite radd_length, !rmul_length, !map_length, !LM. lia.
  - cbn [rbind]. rewrite Hq. assert (E : mv M (rzero n) = rzero n).
    { apply list_ext; [rewrite LM, rzero_length; auto|]. intros i _. rewrite nth_mv, nth_rzero, dot_comm. apply dot_zero_l. }
    rewrite <- E at 2. apply DIR. apply rzero_length.
Qed.

(* ---- cumulants relax one by one ---- *)
Lemma cfm_ext D u rho kappa kappa' e : (length u <= D)%nat -> length e = D -> 0 < kappa (repeat 0%nat D) ->
  (forall e', length e' = D -> Forall2 le e' e -> kappa e' = kappa' e') ->
  cumulant_from_central_moments D u rho kappa e = cumulant_from_central_moments D u rho kappa' e.
Proof.
  intros Hu He Hk HE. pose proof (indices_inD D e He) as He'. rewrite <- (tally_indices D e He). rewrite !cfm_word, !G_jet by auto. f_equal. f_equal.
  assert (HW : forall v, subw v (get_moment_indices e) -> J D (rzero D) kappa (EFun []) v = J D (rzero D) kappa' (EFun []) v).
  { intros v Hv. rewrite !J_fun0. apply HE; [apply tally_length|]. rewrite <- (tally_indices D e He). now apply tally_subw. }
  apply (log_unique D (rzero D) kappa (EFun []) (J D (rzero D) kappa' (ELog (EFun []))) (J D (rzero D) kappa' (EFun []))).
  - now rewrite ev_fun0.
  - apply isexp_log. rewrite ev_fun0. rewrite <- HE; auto; [apply repeat_length|]. clear -He. subst D. induction e; cbn; constructor; auto. lia.
  - exact HW.
Qed.
Lemma cumulants_post D n S zc dev compr ws w post cexps cms P Pinv Minv fwd bwd f :
  let rho := pdf_density zc f in let u := equilibrium_velocity D S zc compr None f in
  length S = n -> length cms = n -> NoDup cms -> NoDup cexps -> Forall (fun e => length e = D) cexps -> down_closed cexps -> incl cexps cms ->
  is_inverse (length cexps) P Pinv -> (forall cm C, length C = length cexps -> exists C', post rho u cm C = Ok C' /\ length C' = length cexps) ->
  (forall cm cm' C, (forall e, In e cexps -> cm e = cm' e) -> post rho u cm C = post rho u cm' C) -> length f = n -> zc && dev = false -> rho <> 0 ->
  0 < central_moment (radd f w) S u (repeat 0%nat D) ->
  moment_transform n S (map mono_poly cms) w u (fwd u) (bwd u) -> length w = n ->
  exists f', cumulant_collision_with D S zc dev compr ws post cexps cms P Pinv Minv fwd bwd None f = Ok f' /\ length f' = n /\
    post rho u (cumulant_from_central_moments D u rho (central_moment (radd f w) S u)) (cumulant_forward D u rho cexps P (central_moment (radd f w) S u)) =
    Ok (cumulant_forward D u rho cexps P (central_moment (radd f' w) S u)).
Proof.
  intros rho u Hq Lc Hc1 Hc2 Hce Hdc Hinc HP Lpost Epost Lf Hz Hr Hpos HT Lw. unfold cumulant_collision_with. rewrite Hz. fold rho u. cbn [rbind fst snd].
  destruct HT as (T1 & T2 & _). rewrite T1 by auto. cbn [rbind].
  assert (HL : length u = D) by (apply velocity_length; discriminate).
  set (kappa := map (poly_moment (radd f w) S u) (map mono_poly cms)).
  assert (EK : radd kappa (rzero (length S)) = map (central_moment (radd f w) S u) cms).
  { unfold kappa. rewrite map_map, (map_ext _ _ (poly_moment_mono (radd f w) S u)). assert (E : length S = length (map (central_moment (radd f w) S u) cms)) by (rewrite map_length; congruence). rewrite E. apply radd_zero_r. }
  rewrite EK. pose proof Hce as Hce'. rewrite Forall_forall in Hce'.
  assert (EM0 : forall e, In e cexps -> cumulant_from_central_moments D u rho (lookup cms (map (central_moment (radd f w) S u) cms)) e =
                                        cumulant_from_central_moments D u rho (central_moment (radd f w) S u) e).
  { intros e He. symmetry. apply cfm_ext; [lia|auto|auto|]. intros e' L' Hle. symmetry. apply lookup_map. apply Hinc, (Hdc e e'); auto. rewrite (Hce' e He); auto. }
  assert (EC : cumulant_forward D u rho cexps P (lookup cms (map (central_moment (radd f w) S u) cms)) = cumulant_forward D u rho cexps P (central_moment (radd f w) S u)).
  { unfold cumulant_forward. f_equal. apply map_ext_in. exact EM0. }
  rewrite EC. rewrite (Epost _ _ _ EM0).
  destruct (Lpost (cumulant_from_central_moments D u rho (central_moment (radd f w) S u)) (cumulant_forward D u rho cexps P (central_moment (radd f w) S u))) as (C & EP & LC).
  { unfold cumulant_forward. rewrite mv_length. destruct HP as ([L _] & _). lia. }
  rewrite EP. cbn [rbind].
  set (back := central_moment_from_cumulants D u rho (lookup cexps (mv Pinv C))).
  assert (EB : radd (cumulant_backward D u rho cexps Pinv C cms) (rzero (length S)) = map back cms).
  { unfold cumulant_backward. fold back. assert (E : length S = length (map back cms)) by (rewrite map_length; congruence). rewrite E. apply radd_zero_r. }
  rewrite EB. destruct (T2 (map back cms)) as (f' & E1 & E2 & E3); [now rewrite map_length|]. exists f'. split; [exact E1|]. split; [exact E2|].
  assert (EM : forall e, In e cexps -> central_moment (radd f' w) S u e = back e).
  { intros e He. apply Hinc in He. apply In_nth_error in He as [i Hi]. rewrite map_map in E3.
    pose proof (f_equal (fun l => nth i l 0) E3) as E4. cbn beta in E4.
    rewrite (nth_error_nth _ _ _ (map_nth_error (fun x => poly_moment (radd f' w) S u (mono_poly x)) _ _ Hi)), (nth_error_nth _ _ _ (map_nth_error back _ _ Hi)), poly_moment_mono in E4. exact E4. }
  f_equal. symmetry. unfold cumulant_forward at 1. destruct HP as (HPw & HPiw & HP1 & HP2). transitivity (mv P (mv Pinv C)); [f_equal|now apply HP1].
  transitivity (map (lookup cexps (mv Pinv C)) cexps); [|apply map_lookup; auto; rewrite mv_length; apply HPiw].
  apply map_ext_in. intros e He. apply forth_back; auto; [lia|]. intros e' L' Hle. apply EM, (Hdc e e'); auto. rewrite (Hce' e He); auto.
Qed.
Lemma cumulants_relax D n S ps zc dev compr ws w cexps cms P Pinv Minv eqC fwd bwd d f :
  let rho := pdf_density zc f in let u := equilibrium_velocity D S zc compr None f in
  length S = n -> length cms = n -> NoDup cms -> NoDup cexps -> Forall (fun e => length e = D) cexps -> down_closed cexps -> incl cexps cms ->
  is_inverse (length cexps) P Pinv -> length d = length cexps -> length ps = length cexps -> length f = n -> zc && dev = false -> rho <> 0 ->
  0 < central_moment (radd f w) S u (repeat 0%nat D) ->
  moment_transform n S (map mono_poly cms) w u (fwd u) (bwd u) -> length w = n ->
  exists f', cumulant_collision D S ps zc dev compr ws cexps cms P Pinv Minv eqC fwd bwd d None f = Ok f' /\ length f' = n /\
    cumulant_forward D u rho cexps P (central_moment (radd f' w) S u) =
    relax d (equilibrium_values ps (eqC rho u)) (cumulant_forward D u rho cexps P (central_moment (radd f w) S u)).
Proof.
  intros rho u Hq Lc Hc1 Hc2 Hce Hdc Hinc HP Ld Lp Lf Hz Hr Hpos HT Lw.
  destruct (cumulants_post D n S zc dev compr ws w (fun rho u _ C => Ok (relax d (equilibrium_values ps (eqC rho u)) C)) cexps cms P Pinv Minv fwd bwd f) as (f' & E1 & E2 & E3); auto.
  - intros cm C LC. eexists. split; [reflexivity|]. unfold relax. rewrite radd_length, rmul_length, rsub_length, values_length. lia.
  - exists f'. split; [exact E1|]. split; [exact E2|]. fold rho u in E3. injection E3 as E3. symmetry. exact E3.
Qed.
