(* C16 moments and cumulants determine each other. *)
From Coq Require Import List ZArith Bool Arith Reals Lra Lia.
From Verif Require Import StencilModel RealLib LinLib TransSpec MomModel EqModel CumModel CumProofs CumProofs2 CumProofs3 CumProofs4.
Import ListNotations.
Local Open Scope R_scope.

(* central moments -> cumulants -> central moments; only cumulants at exponents below e are used *)
Theorem C16_moments_of_cumulants_of_moments : forall D u rho kappa c e,
  (length u <= D)%nat -> length e = D -> rho <> 0 -> 0 < kappa (repeat 0%nat D) ->
  (forall e', length e' = D -> Forall2 le e' e -> c e' = cumulant_from_central_moments D u rho kappa e') ->
  central_moment_from_cumulants D u rho c e = kappa e.
Proof. intros. now apply back_forth. Qed.
Print Assumptions C16_moments_of_cumulants_of_moments.

Theorem C16_cumulants_of_moments_of_cumulants : forall D u rho kappa c e,
  (length u <= D)%nat -> length e = D -> rho <> 0 ->
  (forall e', length e' = D -> Forall2 le e' e -> kappa e' = central_moment_from_cumulants D u rho c e') ->
  cumulant_from_central_moments D u rho kappa e = c e.
Proof. intros. now apply forth_back. Qed.
Print Assumptions C16_cumulants_of_moments_of_cumulants.

(* the assignments generated for a set of cumulants, including their recombination to polynomials *)
Theorem C16_transform_round_trips : forall D u rho exps P Pinv,
  (length u <= D)%nat -> rho <> 0 -> Forall (fun e => length e = D) exps -> down_closed exps -> NoDup exps -> is_inverse (length exps) P Pinv ->
  (forall kappa required, 0 < kappa (repeat 0%nat D) -> (forall e, In e required -> In e exps) ->
     cumulant_backward D u rho exps Pinv (cumulant_forward D u rho exps P kappa) required = map kappa required) /\
  (forall cs, length cs = length exps ->
     cumulant_forward D u rho exps P (lookup exps (cumulant_backward D u rho exps Pinv cs exps)) = cs).
Proof. intros. split; intros; [now apply lists_back_forth|now apply lists_forth_back]. Qed.
Print Assumptions C16_transform_round_trips.

(* sum over set partitions = mixed derivative of log M resp. exp C *)
Theorem C16_partition_formula : forall e env, 0 < env (repeat 0%nat (length e)) ->
  cumulant_as_function_of_raw_moments e env = ev0 (length e) env (diffs (get_moment_indices e) (ELog (EFun []))) /\
  raw_moment_as_function_of_cumulants e env = ev0 (length e) env (diffs (get_moment_indices e) (EExp (EFun []))).
Proof. intros e env H. split; [apply (transform_is_derivative Log); intros _; lra|apply (transform_is_derivative Exp); discriminate]. Qed.
Print Assumptions C16_partition_formula.

Theorem C16_partition_round_trips : forall e,
  (forall m, 0 < m (repeat 0%nat (length e)) -> raw_moment_as_function_of_cumulants e (fun e' => cumulant_as_function_of_raw_moments e' m) = m e) /\
  (forall c, cumulant_as_function_of_raw_moments e (fun e' => raw_moment_as_function_of_cumulants e' c) = c e).
Proof. intros e. split; intros; [now apply partition_back_forth|apply partition_forth_back]. Qed.
Print Assumptions C16_partition_round_trips.

(* populations f on a stencil of dimension D with positive mass *)
Definition populations (D : nat) (S : stencil) (f : list R) : Prop :=
  Forall (fun c => length c = D) S /\ dimD S = D /\ 0 < central_moment f S (repeat 0 D) (repeat 0%nat D).

(* in any frame of reference u the transform gives rho times the cumulant of the populations *)
Theorem C16_frame_independent : forall D S f u rho e, populations D S f -> length u = D -> length e = D ->
  cumulant_from_central_moments D u rho (central_moment f S u) e = rho * discrete_cumulant f e S.
Proof. intros D S f u rho e (H1 & H2 & H3) Hu He. now apply cumulant_frame. Qed.
Print Assumptions C16_frame_independent.
(* polynomial cumulants: the same linear combination of the monomial ones *)
Theorem C16_polynomial_cumulants : forall D S f u rho p, populations D S f -> length u = D -> (forall t, In t p -> length (snd t) = D) ->
  rsum (map (fun t => fst t * cumulant_from_central_moments D u rho (central_moment f S u) (snd t)) p) = rho * discrete_cumulant_poly f p S.
Proof.
  intros D S f u rho p HP Hu Hp. unfold discrete_cumulant_poly. rewrite <- rsum_scal. apply rsum_ext. intros t Ht.
  rewrite (C16_frame_independent D S f u rho (snd t) HP Hu (Hp t Ht)). ring.
Qed.
Print Assumptions C16_polynomial_cumulants.

(* cumulants of order >= 2 do not change when the moments are taken in a shifted frame *)
Theorem C16_shift_invariant : forall D S f u e, populations D S f -> length u = D -> length e = D -> (2 <= nsum e)%nat ->
  cumulant_as_function_of_raw_moments e (central_moment f S u) = discrete_cumulant f e S.
Proof. intros D S f u e (H1 & H2 & H3) Hu He Hs. rewrite (raw_cumulants D S f H1 H3 H2 u e Hu He), linj_high by auto. lra. Qed.
Print Assumptions C16_shift_invariant.
(* orders 0 and 1: log of the mass and mean velocity *)
Theorem C16_low_orders : forall D S f, populations D S f ->
  discrete_cumulant f (repeat 0%nat D) S = ln (central_moment f S (repeat 0 D) (repeat 0%nat D)) /\
  forall a, (a < D)%nat -> discrete_cumulant f (unit_exp D a) S = central_moment f S (repeat 0 D) (unit_exp D a) / central_moment f S (repeat 0 D) (repeat 0%nat D).
Proof. intros D S f (H1 & H2 & H3). split; [now apply zeroth_cumulant|]. intros a Ha. now apply first_cumulant. Qed.
Print Assumptions C16_low_orders.

(* the variants for central moments, which treat first order moments as zero: moments about the mean velocity *)
Theorem C16_central_wrappers : forall D S f u, populations D S f -> length u = D ->
  (forall a, (a < D)%nat -> central_moment f S u (unit_exp D a) = 0) ->
  (forall e, length e = D -> (2 <= nsum e)%nat -> cumulant_as_function_of_central_moments e (central_moment f S u) = discrete_cumulant f e S) /\
  (forall e, length e = D -> (1 <= nsum e)%nat -> central_moment_as_function_of_cumulants e (fun e' => discrete_cumulant f e' S) = central_moment f S u e).
Proof. intros D S f u (H1 & H2 & H3) Hu Hm. split; intros e He Hs; [now apply (central_wrapper D)|now apply (central_wrapper_back D)]. Qed.
Print Assumptions C16_central_wrappers.

(* Maxwellian: cumulants rho ln rho, rho u_a, rho cs2 delta_ab and nothing beyond; the moments are those used for the equilibria *)
Theorem C16_maxwellian : forall rho u cs2, 0 < rho -> let D := length u in
  maxwellian_cumulant D rho u cs2 (repeat 0%nat D) = rho * ln rho /\
  (forall a, (a < D)%nat -> maxwellian_cumulant D rho u cs2 (unit_exp D a) = rho * nth a u 0) /\
  (forall a b, (a < D)%nat -> (b < D)%nat ->
     maxwellian_cumulant D rho u cs2 (map (fun p => (fst p + snd p)%nat) (combine (unit_exp D a) (unit_exp D b))) = if Nat.eqb a b then rho * cs2 else 0) /\
  (forall e, length e = D -> (3 <= nsum e)%nat -> maxwellian_cumulant D rho u cs2 e = 0) /\
  (forall e, length e = D -> continuous_moment D (maxwellian_mgf rho u cs2) e = psi_moment rho u cs2 e).
Proof.
  intros rho u cs2 Hr D. unfold D. repeat split; intros; try (now apply mgf_moment); rewrite cumulant_maxj by auto.
  - unfold get_moment_indices. now rewrite indices_zero.
  - now rewrite unit_exp_indices.
  - set (w := [a; b]). assert (E : map (fun p => (fst p + snd p)%nat) (combine (unit_exp (length u) a) (unit_exp (length u) b)) = tally (length u) w).
    { unfold unit_exp, tally. generalize (seq 0 (length u)). induction l as [|j l IH]; [reflexivity|]. cbn [map combine]. rewrite IH. f_equal. cbn.
      destruct (Nat.eqb_spec j a), (Nat.eqb_spec j b), (Nat.eq_dec a j), (Nat.eq_dec b j); congruence || reflexivity. }
    rewrite E. assert (Hw : inD (length u) w) by (repeat constructor; auto).
    pose proof (indices_tally (length u) w Hw) as P. apply Permutation.Permutation_sym, Permutation.Permutation_length_2_inv in P. apply Nat.ltb_lt in H, H0.
    destruct P as [-> | ->]; cbn [maxj]; rewrite ?H, ?H0, ?andb_true_r, 1?(Nat.eqb_sym b a); destruct (Nat.eqb a b); lra.
  - replace (maxj (length u) rho u cs2 (get_moment_indices e)) with 0; [lra|].
    assert (L : length (get_moment_indices e) = nsum e).
    { unfold get_moment_indices. clear. generalize 0%nat at 1. induction e as [|n e IH]; intros i; [reflexivity|]. cbn. now rewrite app_length, repeat_length, IH. }
    destruct (get_moment_indices e) as [|i [|j [|k w]]]; cbn in *; auto; lia.
Qed.
Print Assumptions C16_maxwellian.

(* the differentiation rules used above are those of real functions, at every point and for derivatives of any order *)
Theorem C16_differentiation : forall D xi env i w e, (i < length xi)%nat -> closed e -> defined D xi env e ->
  derivable_pt_lim (fun t => ev D (upd i t xi) env (diffs w e)) (nth i xi 0) (ev D xi env (diffs (w ++ [i]) e)).
Proof.
  intros D xi env i w. induction w as [|j w IH]; intros e Hi Hc Hd; cbn [app diffs].
  - now apply diff_sound.
  - apply IH; auto; [now apply closed_diff|now apply defined_diff].
Qed.
Print Assumptions C16_differentiation.

(* the central moments that are needed; a mismatch with the number of populations is an AssertionError *)
Theorem C16_required_central_moments : forall D q exps, (0 < D)%nat -> Forall (fun e => length e = D) exps ->
  exists l, NoDup l /\ (forall e, In e l <-> length e = D /\ ((nsum e <= 1)%nat \/ exists c, In c exps /\ Forall2 le e c)) /\
    required_central_moments D q exps = if Nat.eqb (length l) q then Ok l else Err AssertionError.
Proof. intros. now apply required_ok. Qed.
Print Assumptions C16_required_central_moments.

(* non-vacuity *)
Example populations_D2Q9 : populations 2 D2Q9_walberla [4/9; 1/9; 1/9; 1/9; 1/9; 1/36; 1/36; 1/36; 1/36].
Proof. unfold populations. split; [repeat constructor|]. split; [reflexivity|]. unfold central_moment, rsum. cbn. lra. Qed.
Example exponents_D2 : let exps := moments_up_to_component_order 2 2 in
  Forall (fun e => length e = 2%nat) exps /\ NoDup exps /\ down_closed exps.
Proof.
  cbv zeta. assert (E : moments_up_to_component_order 2 2 = [[0;0];[0;1];[0;2];[1;0];[1;1];[1;2];[2;0];[2;1];[2;2]]%nat) by reflexivity. rewrite E. split; [repeat constructor|]. split.
  - repeat constructor; cbn; intuition discriminate.
  - intros e e' Hin L Hle. assert (exists a b, e = [a; b] /\ (a <= 2)%nat /\ (b <= 2)%nat) as (a & b & -> & Ha & Hb).
    { cbn in Hin. repeat (destruct Hin as [<-|Hin]; [do 2 eexists; split; [reflexivity|lia]|]). destruct Hin. }
    inversion Hle as [|x y l l' Hx Hl]; subst. inversion Hl as [|x' y' l1 l2 Hx' Hl']; subst. inversion Hl'; subst.
    assert (x = 0 \/ x = 1 \/ x = 2)%nat as [->|[->| ->]] by lia; assert (x' = 0 \/ x' = 1 \/ x' = 2)%nat as [->|[->| ->]] by lia; cbn; intuition.
Qed.
(* third cumulant in terms of raw moments *)
Example third_cumulant : forall m : list nat -> R, m [0%nat] <> 0 ->
  cumulant_as_function_of_raw_moments [3%nat] m =
  m [3%nat] / m [0%nat] - 3 * (m [2%nat] * m [1%nat]) / (m [0%nat] * m [0%nat]) + 2 * (m [1%nat] * m [1%nat] * m [1%nat]) / (m [0%nat] * m [0%nat] * m [0%nat]).
Proof. intros m H. unfold cumulant_as_function_of_raw_moments, cumulant_raw_moment_transform, rsum. cbn. field. auto. Qed.
