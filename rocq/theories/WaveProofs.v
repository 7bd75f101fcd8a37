(* The amplitudes of a shear wave: a linear map of three numbers, and its comparison with exponential decay. *)
From Coq Require Import ZArith Reals Lra Lia.
From Verif Require Import ChanSpec.
Local Open Scope R_scope.

(* amplitudes of momentum, shear stress and flux of shear stress *)
Record amp := { aj : R; ap : R; ak : R }.
Section Step.
  Variables (we wo c s : R).
  Definition wstep (v : amp) : amp :=
    let k := c * ak v - s * ap v in let p := s * ak v + c * ap v in let j := aj v - ak v + k in
    {| aj := j; ap := (1 - we) * p; ak := k + wo * (j / 3 - k) |}.
  Fixpoint waves (n : nat) : amp := match n with O => {| aj := 1; ap := 0; ak := 1 / 3 |} | S n' => wstep (waves n') end.
End Step.
Definition asub (v w : amp) : amp := {| aj := aj v - aj w; ap := ap v - ap w; ak := ak v - ak w |}.
Definition ascal (r : R) (v : amp) : amp := {| aj := r * aj v; ap := r * ap v; ak := r * ak v |}.
Lemma amp_eq v w : aj v = aj w -> ap v = ap w -> ak v = ak w -> v = w.
Proof. destruct v, w. cbn. now intros -> -> ->. Qed.
Definition form (v : amp) : R := aj v * aj v + 9 / 2 * ((ak v - aj v / 3) * (ak v - aj v / 3)) + 3 * (ap v * ap v).
Lemma form_nonneg v : 0 <= form v.
Proof. unfold form. pose proof (Rle_0_sqr (aj v)). pose proof (Rle_0_sqr (ak v - aj v / 3)). pose proof (Rle_0_sqr (ap v)). unfold Rsqr in *. lra. Qed.
Lemma form_wstep we wo c s v : c * c + s * s = 1 -> 0 < we < 2 -> 0 < wo < 2 -> form (wstep we wo c s v) <= form v.
Proof.
  intros E H1 H2. unfold form, wstep. cbn [aj ap ak]. set (k := c * ak v - s * ap v). set (p := s * ak v + c * ap v). set (j := aj v - ak v + k).
  assert (I : k * k + p * p = ak v * ak v + ap v * ap v). { unfold k, p. replace (ak v * ak v + ap v * ap v) with ((c * c + s * s) * (ak v * ak v + ap v * ap v)) by (rewrite E; ring). ring. }
  replace (aj v * aj v + 9 / 2 * ((ak v - aj v / 3) * (ak v - aj v / 3)) + 3 * (ap v * ap v)) with (3 * (k * k + p * p) + 3 / 2 * ((aj v - ak v) * (aj v - ak v))) by (rewrite I; field).
  replace (aj v - ak v) with (j - k) by (unfold j; ring).
  replace (k + wo * (j / 3 - k) - j / 3) with ((1 - wo) * (k - j / 3)) by ring.
  replace (3 * (k * k + p * p) + 3 / 2 * ((j - k) * (j - k))) with (j * j + 9 / 2 * ((k - j / 3) * (k - j / 3)) + 3 * (p * p)) by field.
  assert (Q1 : (1 - wo) * (1 - wo) <= 1) by nra. assert (Q2 : (1 - we) * (1 - we) <= 1) by nra.
  assert (Z1 : 0 <= (k - j / 3) * (k - j / 3)) by apply Rle_0_sqr. assert (Z2 : 0 <= p * p) by apply Rle_0_sqr.
  replace ((1 - wo) * (k - j / 3) * ((1 - wo) * (k - j / 3))) with ((1 - wo) * (1 - wo) * ((k - j / 3) * (k - j / 3))) by ring.
  replace ((1 - we) * p * ((1 - we) * p)) with ((1 - we) * (1 - we) * (p * p)) by ring. nra.
Qed.
Definition anorm (v : amp) : R := sqrt (form v).
Lemma anorm_nonneg v : 0 <= anorm v.
Proof. apply sqrt_pos. Qed.
Lemma anorm_sq v : anorm v * anorm v = form v.
Proof. apply sqrt_sqrt, form_nonneg. Qed.
Lemma le_anorm x v : x * x <= form v -> Rabs x <= anorm v.
Proof. intros H. unfold anorm. rewrite <- (sqrt_Rsqr_abs x). apply sqrt_le_1_alt. exact H. Qed.
Lemma anorm_le v K : 0 <= K -> form v <= K * K -> anorm v <= K.
Proof. intros HK H. unfold anorm. rewrite <- (sqrt_square K HK). now apply sqrt_le_1_alt. Qed.
Lemma aj_anorm v : Rabs (aj v) <= anorm v.
Proof. apply le_anorm. unfold form. pose proof (Rle_0_sqr (ak v - aj v / 3)). pose proof (Rle_0_sqr (ap v)). unfold Rsqr in *. lra. Qed.
Definition pair (v w : amp) : R := aj v * aj w + 9 / 2 * ((ak v - aj v / 3) * (ak w - aj w / 3)) + 3 * (ap v * ap w).
Lemma cauchy v w : pair v w <= anorm v * anorm w.
Proof.
  apply Rle_trans with (Rabs (pair v w)); [apply Rle_abs|]. rewrite <- (Rabs_pos_eq (anorm v * anorm w)) by (apply Rmult_le_pos; apply anorm_nonneg). apply Rsqr_le_abs_0. unfold Rsqr.
  replace (anorm v * anorm w * (anorm v * anorm w)) with (form v * form w) by (rewrite <- !anorm_sq; ring). unfold pair, form.
  set (x1 := aj v). set (y1 := aj w). set (x2 := ak v - x1 / 3). set (y2 := ak w - y1 / 3). set (x3 := ap v). set (y3 := ap w).
  apply Rminus_le. replace (_ - _) with (- (9 / 2 * ((x1 * y2 - x2 * y1) * (x1 * y2 - x2 * y1)) + 3 * ((x1 * y3 - x3 * y1) * (x1 * y3 - x3 * y1)) + 27 / 2 * ((x2 * y3 - x3 * y2) * (x2 * y3 - x3 * y2)))) by field.
  assert (0 <= (x1 * y2 - x2 * y1) * (x1 * y2 - x2 * y1)) by apply Rle_0_sqr. assert (0 <= (x1 * y3 - x3 * y1) * (x1 * y3 - x3 * y1)) by apply Rle_0_sqr. assert (0 <= (x2 * y3 - x3 * y2) * (x2 * y3 - x3 * y2)) by apply Rle_0_sqr. lra.
Qed.
Lemma anorm_asub v w : anorm (asub v w) <= anorm v + anorm w.
Proof.
  apply anorm_le; [pose proof (anorm_nonneg v); pose proof (anorm_nonneg w); lra|].
  replace (form (asub v w)) with (form v + form w + 2 * pair (ascal (-1) v) w) by (unfold form, pair, asub, ascal; cbn [aj ap ak]; field).
  pose proof (cauchy (ascal (-1) v) w) as C. assert (E : anorm (ascal (-1) v) = anorm v) by (unfold anorm; f_equal; unfold form, ascal; cbn [aj ap ak]; field). rewrite E in C.
  rewrite <- !anorm_sq. lra.
Qed.
Lemma wstep_asub we wo c s v w : wstep we wo c s (asub v w) = asub (wstep we wo c s v) (wstep we wo c s w).
Proof. apply amp_eq; unfold wstep, asub; cbn [aj ap ak]; field. Qed.
Lemma wstep_ascal we wo c s r v : wstep we wo c s (ascal r v) = ascal r (wstep we wo c s v).
Proof. apply amp_eq; unfold wstep, ascal; cbn [aj ap ak]; field. Qed.
Lemma anorm_ascal r v : anorm (ascal r v) = Rabs r * anorm v.
Proof. unfold anorm. replace (form (ascal r v)) with (r * r * form v) by (unfold form, ascal; cbn [aj ap ak]; field). rewrite sqrt_mult_alt by (apply Rle_0_sqr). f_equal. apply (sqrt_Rsqr_abs r). Qed.

(* a vector which is nearly mapped to l times itself *)
Lemma nearly_geometric we wo c s v l w r : c * c + s * s = 1 -> 0 < we < 2 -> 0 < wo < 2 -> 0 <= l <= 1 ->
  anorm (asub (ascal l w) (wstep we wo c s w)) <= r ->
  forall n, anorm (asub (Nat.iter n (wstep we wo c s) v) (ascal (l ^ n) w)) <= anorm (asub v w) + INR n * r.
Proof.
  intros E H1 H2 Hl Hr n. induction n as [|n IH].
  - cbn [Nat.iter pow INR nat_rect]. replace (ascal 1 w) with w by (apply amp_eq; cbn; ring). lra.
  - change (Nat.iter (S n) (wstep we wo c s) v) with (wstep we wo c s (Nat.iter n (wstep we wo c s) v)). rewrite S_INR. set (vn := Nat.iter n _ _) in *.
    replace (asub (wstep we wo c s vn) (ascal (l ^ S n) w)) with (asub (wstep we wo c s (asub vn (ascal (l ^ n) w))) (ascal (l ^ n) (asub (ascal l w) (wstep we wo c s w)))).
    2:{ rewrite wstep_asub, wstep_ascal. apply amp_eq; unfold asub, ascal; cbn [aj ap ak pow]; ring. }
    eapply Rle_trans; [apply anorm_asub|]. rewrite anorm_ascal.
    assert (B1 : anorm (wstep we wo c s (asub vn (ascal (l ^ n) w))) <= anorm (asub vn (ascal (l ^ n) w))) by (unfold anorm; apply sqrt_le_1_alt, form_wstep; assumption).
    assert (B2 : Rabs (l ^ n) * anorm (asub (ascal l w) (wstep we wo c s w)) <= r).
    { assert (0 <= l ^ n <= 1). { split; [apply pow_le; lra|]. rewrite <- (pow1 n). apply pow_incr. lra. } rewrite Rabs_pos_eq by lra. pose proof (anorm_nonneg (asub (ascal l w) (wstep we wo c s w))). nra. }
    lra.
Qed.
Lemma waves_iter we wo c s n : waves we wo c s n = Nat.iter n (wstep we wo c s) {| aj := 1; ap := 0; ak := 1 / 3 |}.
Proof. induction n as [|n IH]; [reflexivity|]. cbn [waves]. rewrite IH. reflexivity. Qed.
Lemma waves_bounded we wo c s n : c * c + s * s = 1 -> 0 < we < 2 -> 0 < wo < 2 -> Rabs (aj (waves we wo c s n)) <= 1.
Proof.
  intros E H1 H2. eapply Rle_trans; [apply aj_anorm|]. apply anorm_le; [lra|]. induction n as [|n IH]; [unfold form; cbn; lra|]. cbn [waves]. eapply Rle_trans; [apply form_wstep; assumption|exact IH].
Qed.

(* elementary estimates *)
Lemma exp_neg_bounds x : 0 <= x -> 1 - x <= exp (- x) <= 1 - x + x * x.
Proof.
  intros Hx. split; [pose proof (exp_ineq1_le (- x)); lra|]. rewrite exp_Ropp. pose proof (exp_ineq1_le x) as H. apply Rle_trans with (/ (1 + x)); [apply Rinv_le_contravar; lra|].
  apply (Rmult_le_reg_l (1 + x)); [lra|]. rewrite Rinv_r by lra. nra.
Qed.
Lemma versine_bounds k : 0 <= 1 - cos k <= 2 /\ 1 - cos k <= k * k / 2 /\ 1 - cos k <= Rabs k /\ k * k / 2 - (1 - cos k) <= k * k * (k * k).
Proof.
  pose proof (COS_bound k) as [B1 B2].
  assert (Small : Rabs k <= 2 -> 1 - cos k <= k * k / 2 /\ k * k / 2 - (1 - cos k) <= k * k * (k * k) / 24).
  { intros Hk. assert (-2 <= k <= 2) by (unfold Rabs in Hk; destruct (Rcase_abs k); lra). destruct (pre_cos_bound k 0 ltac:(lra) ltac:(lra)) as [L U]. unfold cos_approx in L, U. cbn [mult plus sum_f_R0] in L, U. unfold cos_term in L, U. cbn [pow fact mult plus INR] in L, U. split; [field_simplify in L; nra|field_simplify in U; nra]. }
  assert (Hs : k * k = Rabs k * Rabs k) by (rewrite <- Rabs_mult, Rabs_pos_eq; [reflexivity|apply Rle_0_sqr]). pose proof (Rabs_pos k) as P.
  assert (P2 : 0 <= k * k) by apply Rle_0_sqr.
  split; [lra|]. destruct (Rle_lt_dec (Rabs k) 2) as [H|H].
  - destruct (Small H) as [S1 S2]. repeat split; try lra; nra.
  - assert (4 <= k * k) by (rewrite Hs; nra). repeat split; try lra; nra.
Qed.
Lemma anorm_comp v : anorm v <= 3 * (Rabs (aj v) + Rabs (ap v) + Rabs (ak v)).
Proof.
  pose proof (Rabs_pos (aj v)) as P1. pose proof (Rabs_pos (ap v)) as P2. pose proof (Rabs_pos (ak v)) as P3. apply anorm_le; [lra|]. unfold form.
  assert (Y : (ak v - aj v / 3) * (ak v - aj v / 3) <= (Rabs (ak v) + Rabs (aj v) / 3) * (Rabs (ak v) + Rabs (aj v) / 3)).
  { assert (A : Rabs (ak v - aj v / 3) <= Rabs (ak v) + Rabs (aj v) / 3).
    { eapply Rle_trans; [apply Rabs_triang|]. rewrite Rabs_Ropp. unfold Rdiv. rewrite Rabs_mult, (Rabs_pos_eq (/ 3)) by lra. lra. }
    rewrite <- (Rabs_pos_eq ((ak v - aj v / 3) * (ak v - aj v / 3))) by apply Rle_0_sqr. rewrite Rabs_mult. pose proof (Rabs_pos (ak v - aj v / 3)). nra. }
  assert (X : aj v * aj v = Rabs (aj v) * Rabs (aj v)) by (rewrite <- Rabs_mult, Rabs_pos_eq; [reflexivity|apply Rle_0_sqr]).
  assert (Z : ap v * ap v = Rabs (ap v) * Rabs (ap v)) by (rewrite <- Rabs_mult, Rabs_pos_eq; [reflexivity|apply Rle_0_sqr]). rewrite X, Z. nra.
Qed.
Lemma Rabs_sum3 a b c A B C : Rabs a <= A -> Rabs b <= B -> Rabs c <= C -> Rabs (a + b + c) <= A + B + C.
Proof. intros. eapply Rle_trans; [apply Rabs_triang|]. pose proof (Rabs_triang a b). lra. Qed.
Lemma Rabs_prod a b A B : Rabs a <= A -> Rabs b <= B -> Rabs (a * b) <= A * B.
Proof. intros. rewrite Rabs_mult. pose proof (Rabs_pos a). pose proof (Rabs_pos b). nra. Qed.

Lemma wave_estimate we wo : 0 < we < 2 -> 0 < wo < 2 -> exists K, 0 <= K /\ forall kappa n,
  Rabs (aj (waves we wo (cos kappa) (sin kappa) n) - exp (- (lambda we / 3 * (kappa * kappa) * INR n))) <= K * (Rabs kappa + INR n * (kappa * kappa * (kappa * kappa))).
Proof.
  intros H1 H2. set (nu := lambda we / 3). set (b0 := nu - 1 / 6). set (c1 := - (4 * nu / 3) * (1 - wo) / wo). set (b1 := ((1 - we) * (c1 - b0) + 2 * nu * b0) / we).
  assert (Hnu : 0 < nu). { unfold nu, lambda. assert (/ 2 < / we) by (apply Rinv_lt_contravar; lra). unfold Rdiv. lra. }
  assert (E0 : (1 - we) * (1 / 3 + b0) = b0) by (unfold b0, nu, lambda; field; lra).
  assert (E1 : (1 - we) * (c1 + b1 - b0) = b1 - 2 * nu * b0) by (unfold b1; field; lra).
  assert (E2 : (1 - wo) * (c1 - 2 * nu) + wo * (- (2 * nu)) / 3 = c1 - 2 * nu / 3) by (unfold c1; field; lra).
  set (k2 := - c1 + b0 - 2 * b1).
  set (M := Rabs b0 + 2 * Rabs b1). set (T := 2 * nu + nu * nu).
  set (KA := T + (Rabs k2 + 2 * Rabs b1)). set (KB := T * M + Rabs (- (1 - we) * b1 + 2 * nu * b1)).
  set (KC := T * (1 / 3 + 2 * Rabs c1) + (Rabs (1 - wo) + Rabs wo) * (Rabs k2 + 2 * Rabs b1) + Rabs (2 * nu * c1)).
  set (K0 := 3 * (M + Rabs c1)). set (K1 := 3 * (KA + KB + KC)).
  assert (PM : 0 <= M) by (unfold M; pose proof (Rabs_pos b0); pose proof (Rabs_pos b1); lra).
  assert (PT : 0 <= T) by (unfold T; nra).
  assert (Pk : 0 <= Rabs k2 + 2 * Rabs b1) by (pose proof (Rabs_pos k2); pose proof (Rabs_pos b1); lra).
  assert (PA : 0 <= KA) by (unfold KA; lra).
  assert (PB : 0 <= KB) by (unfold KB; pose proof (Rabs_pos (- (1 - we) * b1 + 2 * nu * b1)); nra).
  assert (PC : 0 <= KC) by (unfold KC; pose proof (Rabs_pos c1); pose proof (Rabs_pos (1 - wo)); pose proof (Rabs_pos wo); pose proof (Rabs_pos (2 * nu * c1)); nra).
  exists (K0 + K1). assert (PK0 : 0 <= K0) by (unfold K0; pose proof (Rabs_pos c1); lra). assert (PK1 : 0 <= K1) by (unfold K1; lra). split; [lra|]. intros kappa n.
  set (c := cos kappa). set (s := sin kappa). set (e := 1 - c). set (q := kappa * kappa * (kappa * kappa)).
  assert (Pq : 0 <= kappa * kappa) by apply Rle_0_sqr. assert (Pqq : 0 <= q) by (unfold q; nra).
  destruct (versine_bounds kappa) as ((Ve1 & Ve2) & Ve3 & Ve4 & Ve5). fold c in Ve1, Ve2, Ve3, Ve4, Ve5. fold e in Ve1, Ve2, Ve3, Ve4, Ve5. fold q in Ve5.
  assert (Hcs : c * c + s * s = 1) by (pose proof (sin2_cos2 kappa) as X; unfold Rsqr in X; fold c s in X; lra).
  assert (Hs2 : s * s = 2 * e - e * e) by (unfold e; nra).
  assert (Hs1 : Rabs s <= 1). { rewrite <- Rabs_R1. apply Rsqr_le_abs_0. unfold Rsqr. nra. }
  assert (Hsk : Rabs s <= Rabs kappa).
  { apply Rsqr_le_abs_0. unfold Rsqr. nra. }
  assert (He2 : e * e <= q) by (unfold q; nra).
  assert (Hae : Rabs e <= 2) by (rewrite Rabs_pos_eq; lra).
  set (l := exp (- (nu * (kappa * kappa)))).
  assert (Hl : 0 <= l <= 1). { split; [left; apply exp_pos|]. unfold l. rewrite <- exp_0. destruct (Req_dec (nu * (kappa * kappa)) 0) as [Z|Z]; [rewrite Z, Ropp_0; lra|]. left. apply exp_increasing. nra. }
  assert (Dl : Rabs (l - (1 - 2 * nu * e)) <= T * q).
  { destruct (exp_neg_bounds (nu * (kappa * kappa))) as [X1 X2]; [nra|]. fold l in X1, X2. unfold T. replace (nu * (kappa * kappa) * (nu * (kappa * kappa))) with (nu * nu * q) in X2 by (unfold q; ring).
    assert (Y : nu * (kappa * kappa) - 2 * nu * e <= 2 * nu * q) by nra. assert (Y' : 0 <= nu * (kappa * kappa) - 2 * nu * e) by nra. assert (0 <= nu * nu * q) by (apply Rmult_le_pos; nra). apply Rabs_le. split; nra. }
  set (w := {| aj := 1; ap := s * (b0 + b1 * e); ak := 1 / 3 + c1 * e |}).
  assert (Hb : Rabs (b0 + b1 * e) <= M).
  { eapply Rle_trans; [apply Rabs_triang|]. unfold M. rewrite Rabs_mult. pose proof (Rabs_pos b1). nra. }
  assert (Hc : Rabs (1 / 3 + c1 * e) <= 1 / 3 + 2 * Rabs c1).
  { eapply Rle_trans; [apply Rabs_triang|]. rewrite Rabs_mult, (Rabs_pos_eq (1 / 3)) by lra. pose proof (Rabs_pos c1). nra. }
  assert (Hk : Rabs (k2 + b1 * e) <= Rabs k2 + 2 * Rabs b1).
  { eapply Rle_trans; [apply Rabs_triang|]. rewrite Rabs_mult. pose proof (Rabs_pos b1). nra. }
  assert (He2a : Rabs (e * e) <= q) by (rewrite Rabs_pos_eq; [exact He2|apply Rle_0_sqr]).
  assert (Hres : anorm (asub (ascal l w) (wstep we wo c s w)) <= K1 * q).
  { eapply Rle_trans; [apply anorm_comp|]. unfold K1.
    assert (RA : aj (wstep we wo c s w) = 1 - 2 * nu * e + e * e * (k2 + b1 * e)).
    { unfold wstep, w. cbn [aj ap ak]. replace (s * (s * (b0 + b1 * e))) with (s * s * (b0 + b1 * e)) by ring. rewrite Hs2. replace c with (1 - e) by (unfold e; ring). unfold k2, b0. field. }
    assert (Hkp : c * (1 / 3 + c1 * e) - s * (s * (b0 + b1 * e)) = 1 / 3 + c1 * e - 2 * nu * e + e * e * (k2 + b1 * e)).
    { replace (s * (s * (b0 + b1 * e))) with (s * s * (b0 + b1 * e)) by ring. rewrite Hs2. replace c with (1 - e) by (unfold e; ring). unfold k2, b0. field. }
    assert (RB : ap (wstep we wo c s w) = (1 - 2 * nu * e) * (s * (b0 + b1 * e)) + s * (e * e) * (- (1 - we) * b1 + 2 * nu * b1)).
    { unfold wstep, w. cbn [aj ap ak]. replace c with (1 - e) by (unfold e; ring).
      replace ((1 - we) * (s * (1 / 3 + c1 * e) + (1 - e) * (s * (b0 + b1 * e)))) with (s * ((1 - we) * (1 / 3 + b0) + e * ((1 - we) * (c1 + b1 - b0)) - (1 - we) * b1 * (e * e))) by ring. rewrite E0, E1. ring. }
    assert (RC : ak (wstep we wo c s w) = (1 - 2 * nu * e) * (1 / 3 + c1 * e) + e * e * ((1 - wo) * (k2 + b1 * e) + wo * (k2 + b1 * e) / 3 + 2 * nu * c1)).
    { unfold wstep, w. cbn [aj ap ak]. rewrite Hkp.
      transitivity (1 / 3 + e * ((1 - wo) * (c1 - 2 * nu) + wo * (- (2 * nu)) / 3) + e * e * ((1 - wo) * (k2 + b1 * e) + wo * (k2 + b1 * e) / 3)); [field|]. rewrite E2. field. }
    assert (BA : Rabs (l * 1 - aj (wstep we wo c s w)) <= KA * q).
    { rewrite RA. replace (l * 1 - _) with ((l - (1 - 2 * nu * e)) + - (e * e * (k2 + b1 * e)) + 0) by ring. replace (KA * q) with (T * q + q * (Rabs k2 + 2 * Rabs b1) + 0) by (unfold KA; ring).
      apply Rabs_sum3; [exact Dl| |rewrite Rabs_R0; lra]. rewrite Rabs_Ropp. now apply Rabs_prod. }
    assert (BB : Rabs (l * (s * (b0 + b1 * e)) - ap (wstep we wo c s w)) <= KB * q).
    { rewrite RB. replace (l * _ - _) with ((l - (1 - 2 * nu * e)) * (s * (b0 + b1 * e)) + - (s * (e * e) * (- (1 - we) * b1 + 2 * nu * b1)) + 0) by ring.
      replace (KB * q) with (T * q * (1 * M) + 1 * q * Rabs (- (1 - we) * b1 + 2 * nu * b1) + 0) by (unfold KB; ring).
      apply Rabs_sum3; [apply Rabs_prod; [exact Dl|now apply Rabs_prod]| |rewrite Rabs_R0; lra]. rewrite Rabs_Ropp. apply Rabs_prod; [now apply Rabs_prod|lra]. }
    assert (BC : Rabs (l * (1 / 3 + c1 * e) - ak (wstep we wo c s w)) <= KC * q).
    { rewrite RC. replace (l * _ - _) with ((l - (1 - 2 * nu * e)) * (1 / 3 + c1 * e) + - (e * e * ((1 - wo) * (k2 + b1 * e) + wo * (k2 + b1 * e) / 3 + 2 * nu * c1)) + 0) by ring.
      replace (KC * q) with (T * q * (1 / 3 + 2 * Rabs c1) + q * (Rabs (1 - wo) * (Rabs k2 + 2 * Rabs b1) + Rabs wo * (Rabs k2 + 2 * Rabs b1) + Rabs (2 * nu * c1)) + 0) by (unfold KC; ring).
      apply Rabs_sum3; [now apply Rabs_prod| |rewrite Rabs_R0; lra]. rewrite Rabs_Ropp. apply Rabs_prod; [exact He2a|]. apply Rabs_sum3; [apply Rabs_prod; [lra|exact Hk]| |lra].
      unfold Rdiv. rewrite Rabs_mult, (Rabs_pos_eq (/ 3)) by lra. pose proof (Rabs_prod wo (k2 + b1 * e) (Rabs wo) _ (Rle_refl _) Hk). pose proof (Rabs_pos (wo * (k2 + b1 * e))). lra. }
    unfold asub, ascal. cbn [aj ap ak]. unfold w at 1 3 5. cbn [aj ap ak]. lra. }
  pose proof (nearly_geometric we wo c s {| aj := 1; ap := 0; ak := 1 / 3 |} l w _ Hcs H1 H2 Hl Hres n) as G. rewrite <- waves_iter in G.
  assert (G0 : anorm (asub {| aj := 1; ap := 0; ak := 1 / 3 |} w) <= K0 * Rabs kappa).
  { eapply Rle_trans; [apply anorm_comp|]. unfold asub, w. cbn [aj ap ak]. replace (1 - 1) with 0 by ring. rewrite Rabs_R0. replace (0 - s * (b0 + b1 * e)) with (- (s * (b0 + b1 * e))) by ring. replace (1 / 3 - (1 / 3 + c1 * e)) with (- (c1 * e)) by ring. rewrite !Rabs_Ropp.
    pose proof (Rabs_prod s (b0 + b1 * e) _ _ Hsk Hb). assert (Rabs (c1 * e) <= Rabs c1 * Rabs kappa) by (apply Rabs_prod; [lra|rewrite Rabs_pos_eq; lra]). unfold K0. lra. }
  assert (El : l ^ n = exp (- (nu * (kappa * kappa) * INR n))). { unfold l. clear. set (x := nu * (kappa * kappa)). induction n as [|n IH]; [cbn; now rewrite Rmult_0_r, Ropp_0, exp_0|]. cbn [pow]. rewrite IH, <- exp_plus, S_INR. f_equal. ring. }
  rewrite <- El. pose proof (aj_anorm (asub (waves we wo c s n) (ascal (l ^ n) w))) as F. unfold asub at 1 in F. unfold ascal at 1 in F. cbn [aj] in F. unfold w at 1 in F. cbn [aj] in F. rewrite Rmult_1_r in F.
  pose proof (pos_INR n) as Pn. pose proof (Rabs_pos kappa) as Pk'. assert (0 <= INR n * q) by nra. apply Rle_trans with (K0 * Rabs kappa + INR n * (K1 * q)); [lra|]. nra.
Qed.
