(* Proofs about equations of state: Carnahan-Starling isotherms, free energies, double wells, Maxwell construction. *)
From Coq Require Import List ZArith Bool Arith Reals Lra Lia.
From Verif Require Import StencilModel RealLib EosModel EosSpec EosProofs.
Import ListNotations.
Local Open Scope R_scope.

Lemma mult_neg_pos x y : x < 0 -> 0 < y -> x * y < 0.
Proof. intros. nra. Qed.
Lemma mult_pos_neg x y : 0 < x -> y < 0 -> x * y < 0.
Proof. intros. nra. Qed.
Lemma cs_domain b rho : 0 < b -> 0 < rho < 4 / b -> 0 < b * rho / 4 < 1.
Proof. intros Hb H. assert (b * rho < 4). { apply Rmult_lt_reg_r with (/ b); [now apply Rinv_0_lt_compat|]. replace (b * rho * / b) with rho by (field; lra). unfold Rdiv in H. lra. } split; nra. Qed.
Lemma cs_slope RT a b rho : 0 < a -> 0 < b -> 0 < rho < 4 / b -> let e := b * rho / 4 in
  RT * (1 + 4 * e + 4 * e ^ 2 - 4 * e ^ 3 + e ^ 4) / (1 - e) ^ 4 - 2 * a * rho = a / b * (RT * b / a * (1 + 4 * e + 4 * e ^ 2 - 4 * e ^ 3 + e ^ 4) - 8 * e * (1 - e) ^ 4) / (1 - e) ^ 4.
Proof. intros Ha Hb H e. pose proof (cs_domain b rho Hb H). assert (rho = 4 * e / b) by (unfold e; field; lra). rewrite H1 at 1. fold e in H0. field. repeat split; lra. Qed.
Lemma cs_increasing RT a b : 0 < a -> 0 < b -> 3774 / 10000 * a / b <= RT -> increasing_on 0 (4 / b) (cs RT a b).
Proof.
  intros Ha Hb HT x y Hx Hxy Hy.
  refine (grows _ (fun rho => let e := b * rho / 4 in RT * (1 + 4 * e + 4 * e ^ 2 - 4 * e ^ 3 + e ^ 4) / (1 - e) ^ 4 - 2 * a * rho) 0 (4 / b) x y _ Hx Hxy Hy _).
  - intros c Hc. apply cs_derivative. pose proof (cs_domain b c Hb Hc). lra.
  - intros c Hc. assert (Hd : 0 < c < 4 / b) by lra. pose proof (cs_domain b c Hb Hd) as He. cbv beta zeta. rewrite (cs_slope RT a b c Ha Hb Hd).
    set (e := b * c / 4) in *. pose proof (cs_bound e ltac:(lra)) as B.
    assert (T : 3774 / 10000 <= RT * b / a).
    { apply Rmult_le_reg_r with (a / b); [apply Rdiv_lt_0_compat; lra|]. replace (RT * b / a * (a / b)) with RT by (field; lra). unfold Rdiv in *. lra. }
    assert (0 < 1 + 4 * e + 4 * e ^ 2 - 4 * e ^ 3 + e ^ 4). { assert (0 <= e ^ 2) by apply pow2_ge_0. assert (0 <= e ^ 2 * (1 - e)) by (apply Rmult_le_pos; lra). assert (0 <= e ^ 4) by (replace (e ^ 4) with ((e ^ 2) ^ 2) by ring; apply pow2_ge_0). nra. }
    apply Rdiv_lt_0_compat; [|apply pow_lt; lra]. apply Rmult_lt_0_compat; [apply Rdiv_lt_0_compat; lra|]. nra.
Qed.
Lemma negative_slope f x l d : derivable_pt_lim f x l -> l < 0 -> 0 < d -> exists y, x < y < x + d /\ f y < f x.
Proof.
  intros H Hl Hd. destruct (H (- l) ltac:(lra)) as [de D]. set (h := Rmin (de / 2) (d / 2)).
  pose proof (cond_pos de) as P. assert (Hh : 0 < h <= de / 2) by (unfold h; split; [apply Rmin_glb_lt; lra|apply Rmin_l]). assert (h <= d / 2) by apply Rmin_r.
  specialize (D h ltac:(lra)). rewrite Rabs_pos_eq in D by lra. specialize (D ltac:(lra)). apply Rabs_def2 in D.
  exists (x + h). split; [lra|]. assert ((f (x + h) - f x) / h < 0) by lra. apply Rminus_lt. replace (f (x + h) - f x) with ((f (x + h) - f x) / h * h) by (field; lra). nra.
Qed.
Lemma cs_not_increasing RT a b : 0 < a -> 0 < b -> 0 <= RT <= 3773 / 10000 * a / b -> exists x y, 0 < x /\ x < y /\ y < 4 / b /\ cs RT a b y < cs RT a b x.
Proof.
  intros Ha Hb [HT0 HT]. set (x := 12 / 23 / b). assert (Hi : 0 < / b) by now apply Rinv_0_lt_compat.
  assert (Hx : 0 < x < 4 / b) by (unfold x; split; [apply Rdiv_lt_0_compat; lra|unfold Rdiv; apply Rmult_lt_compat_r; lra]).
  assert (Ee : b * x / 4 = 3 / 23) by (unfold x; field; lra).
  assert (D := cs_derivative RT a b x ltac:(lra)). cbv zeta in D. rewrite (cs_slope RT a b x Ha Hb Hx) in D. rewrite Ee in D.
  assert (T : RT * b / a <= 3773 / 10000).
  { apply Rmult_le_reg_r with (a / b); [apply Rdiv_lt_0_compat; lra|]. replace (RT * b / a * (a / b)) with RT by (field; lra). unfold Rdiv in *. lra. }
  destruct (negative_slope _ _ _ (4 / b - x) D) as (y & Hy & L).
  - assert (0 < a / b) by (apply Rdiv_lt_0_compat; lra). unfold Rdiv at 1. apply mult_neg_pos; [|apply Rinv_0_lt_compat, pow_lt; lra].
    apply mult_pos_neg; [auto|]. nra.
  - lra.
  - exists x, y. repeat split; try lra.
Qed.

(* ---- free energy ---- *)
Section FreeEnergy.
  Variables (lo hi : R) (p I : R -> R).
  Hypothesis Hlo : 0 <= lo.
  Hypothesis HI : has_derivative_on lo hi I (fun x => p x / x ^ 2).
  Definition mu (K rho : R) : R := p rho / rho + I rho + K.
  Lemma psi_derivative K rho : lo < rho < hi -> derivable_pt_lim (free_energy_from_eos I K) rho (mu K rho).
  Proof.
    intros H. unfold free_energy_from_eos. eapply dl_eq; [|apply dl_mult; [apply dl_plus; [apply (HI rho H)|apply dl_const]|apply dl_id]]. unfold mu. field. lra.
  Qed.
  Lemma psi_consistent K rho : lo < rho < hi -> eos_from_free_energy (free_energy_from_eos I K) (mu K) rho = p rho.
  Proof. intros H. unfold eos_from_free_energy, mu, free_energy_from_eos. field. lra. Qed.
  Lemma psi_unique psi psi' : lo < hi -> has_derivative_on lo hi psi psi' -> (forall x, lo < x < hi -> eos_from_free_energy psi psi' x = p x) ->
    exists K, forall x, lo < x < hi -> psi x = free_energy_from_eos I K x.
  Proof.
    intros Hlh Hd He. set (g := fun x => psi x / x - I x). set (m := (lo + hi) / 2).
    assert (Dg : has_derivative_on lo hi g (fun _ => 0)).
    { intros x Hx. unfold g. eapply dl_eq; [|apply dl_minus; [apply dl_div; [lra|exact (Hd x Hx)|apply dl_id]|exact (HI x Hx)]].
      pose proof (He x Hx) as E. unfold eos_from_free_energy in E. rewrite <- E. unfold Rsqr. field. lra. }
    exists (g m). intros x Hx. assert (G : g x = g m).
    { destruct (Rtotal_order x m) as [L|[->|L]]; [|auto|].
      - destruct (mean_value g _ lo hi x m Dg) as (c & _ & E); try lra. unfold m; lra.
      - destruct (mean_value g _ lo hi m x Dg) as (c & _ & E); try lra. unfold m; lra. }
    unfold free_energy_from_eos. rewrite <- G. unfold g. field. lra.
  Qed.
End FreeEnergy.

(* ---- double well ---- *)
Section Well.
  Variables (hi : R) (p I area : R -> R).
  Hypothesis HI : has_derivative_on 0 hi I (fun x => p x / x ^ 2).
  Hypothesis HA : forall v, / hi < v -> derivable_pt_lim area v (p (/ v)).
  Variables g l : R.
  Hypothesis Hg : 0 < g < hi.
  Hypothesis Hl : 0 < l < hi.
  Hypothesis Hgl : g <> l.
  Lemma area_integral : forall x y, 0 < x < hi -> 0 < y < hi -> area (/ x) + I x = area (/ y) + I y.
  Proof.
    enough (W : forall x y, 0 < x -> x < y -> y < hi -> area (/ x) + I x = area (/ y) + I y).
    { intros x y Hx Hy. destruct (Rtotal_order x y) as [L|[->|L]]; [apply W; lra|auto|symmetry; apply W; lra]. }
    intros x y Hx Hxy Hy.
    assert (D : has_derivative_on 0 hi (fun r => area (/ r) + I r) (fun _ => 0)).
    { intros r Hr. eapply dl_eq; [|apply dl_plus; [apply (dl_comp (fun r => / r) area); [apply dl_inv; lra|apply HA; apply Rinv_lt_contravar; [apply Rmult_lt_0_compat|]; lra]|exact (HI r Hr)]].
      rewrite Rinv_inv. field. lra. }
    destruct (mean_value _ _ 0 hi x y D Hx Hxy Hy) as (c & _ & E). lra.
  Qed.
  Lemma constant_ok : exists K, integration_constant I g l = Ok K /\ free_energy_from_eos I K g = free_energy_from_eos I K l.
  Proof.
    unfold integration_constant. rewrite rdiv_ok by lra. eexists. split; [reflexivity|]. unfold free_energy_from_eos. field. lra.
  Qed.
  Lemma constant_unique K : free_energy_from_eos I K g = free_energy_from_eos I K l -> integration_constant I g l = Ok K.
  Proof.
    intros E. unfold integration_constant. rewrite rdiv_ok by lra. f_equal. unfold free_energy_from_eos in E.
    apply Rmult_eq_reg_r with (g - l); [|lra]. unfold Rdiv. rewrite Rmult_assoc, Rinv_l by lra. lra.
  Qed.
  Lemma coexist_iff K : integration_constant I g l = Ok K ->
    (exists q, coexist p area g l q) <-> mu p I K g = 0 /\ mu p I K l = 0.
  Proof.
    intros HK. destruct constant_ok as (K' & HK' & E). rewrite HK in HK'. injection HK' as <-. unfold free_energy_from_eos in E.
    pose proof (area_integral g l Hg Hl) as A. unfold coexist, mu. split.
    - intros (q & P1 & P2 & P3). rewrite P1, P2.
      assert (M : I l - I g = q * (/ g - / l)) by lra.
      assert (Z : (K + I g + q / g) * (g - l) = 0). { replace (I l) with (I g + q * (/ g - / l)) in E by lra. transitivity ((I g + K) * g - (I g + q * (/ g - / l) + K) * l + (q / g * (g - l) + q * (/ g - / l) * l)); [field; lra|]. rewrite E. field. lra. }
      apply Rmult_integral in Z. destruct Z as [Z|Z]; [|lra]. split; [lra|]. unfold Rdiv in *. lra.
    - intros [M1 M2]. assert (P1 : p g = - (I g + K) * g). { apply Rmult_eq_reg_r with (/ g); [|apply Rinv_neq_0_compat; lra]. unfold Rdiv in M1. replace (- (I g + K) * g * / g) with (- (I g + K)) by (field; lra). lra. }
      assert (P2 : p l = - (I l + K) * l). { apply Rmult_eq_reg_r with (/ l); [|apply Rinv_neq_0_compat; lra]. unfold Rdiv in M2. replace (- (I l + K) * l * / l) with (- (I l + K)) by (field; lra). lra. }
      exists (p g). split; [reflexivity|]. split; [lra|]. unfold Rdiv in *. assert (p l = p g) by lra. rewrite H in M2. lra.
  Qed.
  Section Shape.
    Variables m q K : R.
    Hypothesis HK : integration_constant I g l = Ok K.
    Hypothesis Hc : coexist p area g l q.
    Hypothesis Hs : isotherm_shape p g m l q hi.
    Let J (x : R) : R := I x + q / x.
    Lemma J_derivative : has_derivative_on 0 hi J (fun x => (p x - q) / x ^ 2).
    Proof.
      intros x Hx. unfold J. eapply dl_eq; [|apply dl_plus; [exact (HI x Hx)|apply (dl_mult (fun _ => q)); [apply dl_const|apply dl_inv; lra]]]. field. lra.
    Qed.
    Lemma psi_pressure : free_energy_from_eos I K g = - q /\ free_energy_from_eos I K l = - q.
    Proof.
      destruct (proj1 (coexist_iff K HK)) as [M1 M2]; [now exists q|]. destruct Hc as (P1 & P2 & _). unfold mu in *. rewrite P1 in M1. rewrite P2 in M2. unfold free_energy_from_eos.
      split; [replace (I g + K) with (- (q / g)) by lra; field; lra|replace (I l + K) with (- (q / l)) by lra; field; lra].
    Qed.
    Lemma J_ends : J g = - K /\ J l = - K.
    Proof. destruct (proj1 (coexist_iff K HK)) as [M1 M2]; [now exists q|]. destruct Hc as (P1 & P2 & _). unfold mu in *. rewrite P1 in M1. rewrite P2 in M2. unfold J. split; lra. Qed.
    Lemma J_outside x : 0 < x < hi -> x <> g -> x <> l -> - K < J x.
    Proof.
      intros Hx N1 N2. destruct J_ends as [E1 E2]. destruct Hs as ((S1 & S2) & (S3 & S4) & A1 & A2 & A3 & A4).
      assert (Pos : forall c, 0 < c -> 0 < / c ^ 2) by (intros; apply Rinv_0_lt_compat, pow_lt; auto).
      destruct (Rlt_dec x g) as [L1|G1]; [|destruct (Rle_dec x m) as [L2|G2]; [|destruct (Rlt_dec x l) as [L3|G3]]].
      - rewrite <- E1. apply (shrinks _ _ 0 hi _ _ J_derivative); try lra. intros c Hcc. specialize (A1 c ltac:(lra)). specialize (Pos c ltac:(lra)). unfold Rdiv. nra.
      - rewrite <- E1. apply (grows _ _ 0 hi _ _ J_derivative); try lra. intros c Hcc. specialize (A2 c ltac:(lra)). specialize (Pos c ltac:(lra)). unfold Rdiv. nra.
      - rewrite <- E2. apply (shrinks _ _ 0 hi _ _ J_derivative); try lra. intros c Hcc. specialize (A3 c ltac:(lra)). specialize (Pos c ltac:(lra)). unfold Rdiv. nra.
      - rewrite <- E2. apply (grows _ _ 0 hi _ _ J_derivative); try lra. intros c Hcc. specialize (A4 c ltac:(lra)). specialize (Pos c ltac:(lra)). unfold Rdiv. nra.
    Qed.
    Lemma psi_outside x : 0 < x < hi -> x <> g -> x <> l -> - q < free_energy_from_eos I K x.
    Proof.
      intros Hx N1 N2. pose proof (J_outside x Hx N1 N2) as P. unfold J in P. unfold free_energy_from_eos.
      assert (E : (I x + K) * x = (I x + q / x + K) * x - q) by (field; lra). rewrite E. assert (0 < (I x + q / x + K) * x) by (apply Rmult_lt_0_compat; lra). lra.
    Qed.
    Lemma psi_well x : 0 < x < hi -> 0 <= free_energy_from_eos I K x - free_energy_from_eos I K g /\ (free_energy_from_eos I K x - free_energy_from_eos I K g = 0 <-> x = g \/ x = l).
    Proof.
      intros Hx. destruct psi_pressure as [P1 P2]. destruct (Req_EM_T x g) as [->|N1]; [split; [lra|]; split; [auto|intros; lra]|]. destruct (Req_EM_T x l) as [->|N2]; [split; [lra|]; split; [auto|intros; lra]|].
      pose proof (psi_outside x Hx N1 N2). split; [lra|]. split; [intros; lra|intros [->| ->]; congruence].
    Qed.
  End Shape.
End Well.
Lemma well_facts c : 0 <= well c /\ (well c = 0 <-> c = 0 \/ c = 1).
Proof.
  unfold well. assert (E : c ^ 2 * (1 - c) ^ 2 = (c * (1 - c)) ^ 2) by ring. rewrite E. split; [apply pow2_ge_0|]. split.
  - intros Z. assert (c * (1 - c) = 0) by nra. apply Rmult_integral in H. destruct H; [left|right]; lra.
  - intros [-> | ->]; ring.
Qed.
Lemma three_terms a b c x y z : 0 < a -> 0 < b -> 0 < c -> 0 <= x -> 0 <= y -> 0 <= z ->
  0 <= a / 2 * x + b / 2 * y + c / 2 * z /\ (a / 2 * x + b / 2 * y + c / 2 * z = 0 -> x = 0 /\ y = 0 /\ z = 0).
Proof.
  intros Ha Hb Hc Hx Hy Hz. assert (X : 0 <= a / 2 * x) by (apply Rmult_le_pos; lra). assert (Y : 0 <= b / 2 * y) by (apply Rmult_le_pos; lra). assert (Z : 0 <= c / 2 * z) by (apply Rmult_le_pos; lra).
  split; [lra|]. intros E. assert (X0 : a / 2 * x = 0) by lra. assert (Y0 : b / 2 * y = 0) by lra. assert (Z0 : c / 2 * z = 0) by lra.
  apply Rmult_integral in X0, Y0, Z0. repeat split; [destruct X0|destruct Y0|destruct Z0]; lra.
Qed.
Lemma bulk_energy_ok hi p I area g l m q l0 l1 l2 rest x c1 c2 :
  has_derivative_on 0 hi I (fun x => p x / x ^ 2) -> (forall v, / hi < v -> derivable_pt_lim area v (p (/ v))) ->
  coexist p area g l q -> isotherm_shape p g m l q hi -> 0 < l0 -> 0 < l1 -> 0 < l2 -> 0 < x < hi ->
  exists E, bulk_energy I g l (l0 :: l1 :: l2 :: rest) x c1 c2 = Ok E /\ 0 <= E /\ (E = 0 <-> (x = g \/ x = l) /\ (c1 = 0 \/ c1 = 1) /\ (c2 = 0 \/ c2 = 1)).
Proof.
  intros HI HA Hc Hs H0 H1 H2 Hx. pose proof Hs as ((S1 & S2) & (S3 & S4) & _).
  assert (Hg : 0 < g < hi) by lra. assert (Hl : 0 < l < hi) by lra. assert (Hgl : g <> l) by lra.
  destruct (constant_ok I g l Hgl) as (K & HK & _). unfold bulk_energy. rewrite HK. cbn [rbind]. eexists. split; [reflexivity|].
  destruct (psi_well hi p I area HI HA g l Hg Hl Hgl m q K HK Hc Hs x Hx) as [W1 W2].
  destruct (well_facts c1) as [A1 A2]. destruct (well_facts c2) as [B1 B2].
  set (w := free_energy_from_eos I K x - free_energy_from_eos I K g) in *. destruct (three_terms l0 l1 l2 w (well c1) (well c2) H0 H1 H2 W1 A1 B1) as [T1 T2]. split; [exact T1|]. split.
  - intros Z. destruct (T2 Z) as (Z0 & Z1 & Z2). split; [now apply W2|]. split; [now apply A2|now apply B2].
  - intros (P1 & P2 & P3). apply W2 in P1. apply A2 in P2. apply B2 in P3. rewrite P1, P2, P3. ring.
Qed.

(* ---- Maxwell construction ---- *)
Section MaxwellProofs.
  Variables (zeros : R -> list R) (area : R -> R) (tol : R).
  Lemma bisect_ok : forall fuel smin smax c gas liq, smin < smax -> c = (smax + smin) / 2 -> bisect zeros area tol fuel smin smax c = Some (Ok (gas, liq)) ->
    exists c' upper mid lower rest, smin < c' < smax /\ zeros c' = rest ++ [lower; mid; upper] /\ upper <> 0 /\ lower <> 0 /\ gas = / upper /\ liq = / lower /\ Rabs (deviation area lower upper c') <= tol.
  Proof.
    induction fuel as [|k IH]; intros smin smax c gas liq Hs Hc; cbn [bisect]; [discriminate|].
    destruct (rev (zeros c)) as [|upper [|mid [|lower rest]]] eqn:E; try discriminate.
    destruct (Rlt_dec tol (Rabs (deviation area lower upper c))) as [L|N].
    - destruct (Rlt_dec 0 (deviation area lower upper c)) as [P|P]; intros H.
      + destruct (IH smin c ((c + smin) / 2) gas liq ltac:(lra) eq_refl H) as (c' & u & md & lw & r & B & R1). exists c', u, md, lw, r. split; [lra|auto].
      + destruct (IH c smax ((smax + c) / 2) gas liq ltac:(lra) eq_refl H) as (c' & u & md & lw & r & B & R1). exists c', u, md, lw, r. split; [lra|auto].
    - unfold rdiv. destruct (Req_EM_T upper 0) as [->|U]; [discriminate|]. destruct (Req_EM_T lower 0) as [->|W]; [discriminate|]. intros H. injection H as <- <-.
      exists c, upper, mid, lower, (rev rest). split; [lra|]. split.
      { rewrite <- (rev_involutive (zeros c)), E. cbn [rev]. rewrite <- !app_assoc. reflexivity. }
      repeat split; auto; try (field; auto). lra.
  Qed.
  Lemma bisect_ends cs : forall n smin smax c d, smin < smax -> c = (smax + smin) / 2 -> smin <= cs <= smax -> 0 < d -> smax - smin <= d * 2 ^ n ->
    (forall c, smin < c < smax -> exists rest lower mid upper, zeros c = rest ++ [lower; mid; upper] /\ 0 < lower /\ 0 < upper /\
       (cs < c -> 0 < deviation area lower upper c) /\ (c < cs -> deviation area lower upper c <= 0) /\ (Rabs (c - cs) <= d -> Rabs (deviation area lower upper c) <= tol)) ->
    exists g l, bisect zeros area tol (Datatypes.S n) smin smax c = Some (Ok (g, l)).
  Proof.
    induction n as [|n IH]; intros smin smax c d Hs Hc Hcs Hd Hw Hz.
    - destruct (Hz c ltac:(lra)) as (rest & lower & mid & upper & E & L1 & L2 & _ & _ & T). cbn [bisect]. rewrite E, rev_app_distr. cbn [rev app].
      assert (Rabs (c - cs) <= d) by (cbn [pow] in Hw; apply Rabs_le; lra). specialize (T H).
      destruct (Rlt_dec tol (Rabs (deviation area lower upper c))); [lra|]. rewrite !rdiv_ok by lra. eauto.
    - destruct (Hz c ltac:(lra)) as (rest & lower & mid & upper & E & L1 & L2 & P1 & P2 & T). cbn [bisect]. rewrite E, rev_app_distr. cbn [rev app].
      destruct (Rlt_dec tol (Rabs (deviation area lower upper c))) as [L|N]; [|rewrite !rdiv_ok by lra; eauto]. cbn [pow] in Hw.
      destruct (Rlt_dec 0 (deviation area lower upper c)) as [P|P].
      + apply (IH smin c ((c + smin) / 2) d); [lra|reflexivity| |lra|lra|intros x Hx; apply Hz; lra]. destruct (Rlt_le_dec c cs) as [Q|Q]; [specialize (P2 Q); exfalso; lra|split; lra].
      + apply (IH c smax ((smax + c) / 2) d); [lra|reflexivity| |lra|lra|intros x Hx; apply Hz; lra]. destruct (Rlt_le_dec cs c) as [Q|Q]; [specialize (P1 Q); exfalso; lra|split; lra].
  Qed.
End MaxwellProofs.
Lemma power_large w d : 0 < w -> 0 < d -> exists n, w <= d * 2 ^ n.
Proof.
  intros Hw Hd. destruct (Pow_x_infinity 2 ltac:(rewrite Rabs_pos_eq; lra) (w / d)) as [n Hn]. exists n. specialize (Hn n (le_n n)).
  rewrite Rabs_pos_eq in Hn by (apply pow_le; lra). apply Rmult_le_reg_r with (/ d); [now apply Rinv_0_lt_compat|]. replace (d * 2 ^ n * / d) with (2 ^ n) by (field; lra). unfold Rdiv in Hn. lra.
Qed.
(* the near-critical isotherm: R = 8/3, a = 3, b = 1/3, T = 49/54 *)
Definition near_critical (v : R) : R := vdw (8 / 3 * (49 / 54)) 3 (1 / 3) (/ v).
Lemma near_value v : v <> 0 -> v <> 1 / 3 -> near_critical v = 196 / 81 / (v - 1 / 3) - 3 / v ^ 2.
Proof. intros H1 H2. unfold near_critical, vdw. field. repeat split; lra. Qed.
Lemma near_slope v : 1 / 3 < v -> derivable_pt_lim near_critical v ((- 196 * v ^ 3 + 486 * (v - 1 / 3) ^ 2) / (81 * v ^ 3 * (v - 1 / 3) ^ 2)).
Proof.
  intros H. unfold near_critical. eapply dl_eq; [|apply (dl_comp (fun v => / v) (vdw (8 / 3 * (49 / 54)) 3 (1 / 3))); [apply dl_inv; lra|apply vdw_derivative]].
  - field. repeat split; lra.
  - intros E. assert (1 / 3 * / v = 1) by lra. apply Rmult_eq_compat_r with (r := v) in H0. rewrite Rmult_assoc, Rinv_l in H0 by lra. lra.
Qed.
Lemma near_cubic v : v <> 0 -> v <> 1 / 3 -> near_critical v = 10 / 27 -> 30 * v ^ 3 - 206 * v ^ 2 + 243 * v - 81 = 0.
Proof.
  intros H1 H2 E. rewrite near_value in E by auto.
  assert (P : 30 * v ^ 3 - 206 * v ^ 2 + 243 * v - 81 = 81 * v ^ 2 * (v - 1 / 3) * (10 / 27 - (196 / 81 / (v - 1 / 3) - 3 / v ^ 2))) by (field; lra).
  rewrite E in P. rewrite P. ring.
Qed.
Lemma cubic_large v : 30 * v ^ 3 - 206 * v ^ 2 + 243 * v - 81 = 0 -> 5 < v.
Proof.
  intros E. destruct (Rlt_le_dec 5 v) as [L|L]; [auto|exfalso].
  destruct (Rlt_le_dec v 0) as [N|P].
  - assert (0 <= v ^ 2) by apply pow2_ge_0. assert (0 <= v ^ 2 * - v) by (apply Rmult_le_pos; lra). nra.
  - assert (F : 30 * v ^ 3 - 206 * v ^ 2 + 243 * v - 81 = - ((v - 7 / 10) ^ 2 * (164 - 30 * v)) - (13 / 10 * v + 16 / 25)) by field.
    assert (0 <= (v - 7 / 10) ^ 2 * (164 - 30 * v)) by (apply Rmult_le_pos; [apply pow2_ge_0|lra]). lra.
Qed.
Lemma near_single v w : v <> 0 -> v <> 1 / 3 -> w <> 0 -> w <> 1 / 3 -> near_critical v = 10 / 27 -> near_critical w = 10 / 27 -> v = w.
Proof.
  intros H1 H2 H3 H4 E1 E2. apply near_cubic in E1, E2; auto. pose proof (cubic_large v E1) as L1. pose proof (cubic_large w E2) as L2.
  assert (F : (v - w) * (30 * (v ^ 2 + v * w + w ^ 2) - 206 * (v + w) + 243) = 0) by (transitivity ((30 * v ^ 3 - 206 * v ^ 2 + 243 * v - 81) - (30 * w ^ 3 - 206 * w ^ 2 + 243 * w - 81)); [ring|lra]).
  apply Rmult_integral in F. destruct F as [F|F]; [lra|]. exfalso. nra.
Qed.
Lemma near_maximum : near_critical (3 / 2) = 20 / 27 /\ derivable_pt_lim near_critical (3 / 2) 0 /\ (forall v, 3 / 2 < v -> near_critical v < 20 / 27).
Proof.
  assert (V : near_critical (3 / 2) = 20 / 27) by (rewrite near_value by lra; field). split; [exact V|]. split; [eapply dl_eq; [|apply near_slope; lra]; field|].
  intros v Hv. rewrite <- V. apply (shrinks near_critical (fun v => (- 196 * v ^ 3 + 486 * (v - 1 / 3) ^ 2) / (81 * v ^ 3 * (v - 1 / 3) ^ 2)) (1 / 3) (v + 1)); try lra.
  - intros x Hx. apply near_slope. lra.
  - intros c Hc. unfold Rdiv at 1. apply mult_neg_pos; [|apply Rinv_0_lt_compat; repeat apply Rmult_lt_0_compat; try apply pow_lt; lra].
    assert (- 196 * c ^ 3 + 486 * (c - 1 / 3) ^ 2 = - ((c - 3 / 2) * (196 * c ^ 2 - 192 * c + 36))) by field. assert (0 < (c - 3 / 2) * (196 * c ^ 2 - 192 * c + 36)) by (apply Rmult_lt_0_compat; nra). lra.
Qed.
Lemma near_index zeros area tol fuel : 0 < tol -> (forall c v, In v (zeros c) <-> v <> 0 /\ v <> 1 / 3 /\ near_critical v + c = 0) -> (forall c, NoDup (zeros c)) ->
  maxwell_construction zeros area tol (Datatypes.S fuel) (near_critical (3 / 2)) = Some (Err IndexError).
Proof.
  intros Ht Hz Hn. unfold maxwell_construction. destruct (Rlt_dec tol (Rabs (tol * 2))) as [L|N]; [|rewrite Rabs_pos_eq in N by lra; lra].
  rewrite (proj1 near_maximum). replace ((0 + - (20 / 27)) / 2) with (- (10 / 27)) by lra. cbn [bisect].
  assert (S : forall v w, In v (rev (zeros (- (10 / 27)))) -> In w (rev (zeros (- (10 / 27)))) -> v = w).
  { intros v w Hv Hw. apply in_rev, Hz in Hv. apply in_rev, Hz in Hw. apply near_single; try tauto; lra. }
  pose proof (NoDup_rev (Hn (- (10 / 27)))) as D.
  destruct (rev (zeros (- (10 / 27)))) as [|u [|w [|x r]]]; try reflexivity. exfalso. assert (u = w) by (apply S; cbn; auto). subst. inversion D as [|? ? NI]. apply NI. cbn. auto.
Qed.
