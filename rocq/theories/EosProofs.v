(* Proofs about equations of state. *)
From Coq Require Import List ZArith Bool Arith Reals Lra Lia.
From Verif Require Import StencilModel RealLib EosModel EosSpec.
Import ListNotations.
Local Open Scope R_scope.

(* ---- calculus ---- *)
Lemma dl_ext f g x l : (forall y, f y = g y) -> derivable_pt_lim f x l -> derivable_pt_lim g x l.
Proof. intros E H eps He. destruct (H eps He) as [d Hd]. exists d. intros h. rewrite <- !E. apply Hd. Qed.
Lemma dl_eq f x l l' : l = l' -> derivable_pt_lim f x l -> derivable_pt_lim f x l'.
Proof. now intros ->. Qed.
Lemma dl_mult f g x l m : derivable_pt_lim f x l -> derivable_pt_lim g x m -> derivable_pt_lim (fun y => f y * g y) x (l * g x + f x * m).
Proof. intros. now apply (derivable_pt_lim_mult f g). Qed.
Lemma dl_plus f g x l m : derivable_pt_lim f x l -> derivable_pt_lim g x m -> derivable_pt_lim (fun y => f y + g y) x (l + m).
Proof. intros. now apply (derivable_pt_lim_plus f g). Qed.
Lemma dl_minus f g x l m : derivable_pt_lim f x l -> derivable_pt_lim g x m -> derivable_pt_lim (fun y => f y - g y) x (l - m).
Proof. intros. now apply (derivable_pt_lim_minus f g). Qed.
Lemma dl_div f g x l m : g x <> 0 -> derivable_pt_lim f x l -> derivable_pt_lim g x m -> derivable_pt_lim (fun y => f y / g y) x ((l * g x - m * f x) / Rsqr (g x)).
Proof. intros. now apply (derivable_pt_lim_div f g). Qed.
Lemma dl_const k x : derivable_pt_lim (fun _ => k) x 0.
Proof. apply (derivable_pt_lim_const k). Qed.
Lemma dl_id x : derivable_pt_lim (fun y => y) x 1.
Proof. apply derivable_pt_lim_id. Qed.
Lemma dl_comp f g x l m : derivable_pt_lim f x l -> derivable_pt_lim g (f x) m -> derivable_pt_lim (fun y => g (f y)) x (m * l).
Proof. intros. now apply (derivable_pt_lim_comp f g). Qed.
Lemma dl_pow f x l n : derivable_pt_lim f x l -> derivable_pt_lim (fun y => f y ^ n) x (INR n * f x ^ pred n * l).
Proof. intros H. apply (dl_comp f (fun y => y ^ n)); auto. apply derivable_pt_lim_pow. Qed.
Lemma dl_ln x : 0 < x -> derivable_pt_lim ln x (/ x).
Proof. apply derivable_pt_lim_ln. Qed.
Lemma dl_inv x : x <> 0 -> derivable_pt_lim (fun y => / y) x (- / x ^ 2).
Proof.
  intros H. apply (dl_ext (fun y => 1 / y)); [intros; unfold Rdiv; ring|].
  eapply dl_eq; [|apply dl_div; [exact H|apply dl_const|apply dl_id]]. unfold Rsqr. field. exact H.
Qed.
(* monotone by the sign of the derivative *)
Lemma mean_value f f' lo hi x y : has_derivative_on lo hi f f' -> lo < x -> x < y -> y < hi -> exists c, x < c < y /\ f y - f x = f' c * (y - x).
Proof.
  intros H Hx Hxy Hy. destruct (MVT_cor2 f f' x y Hxy) as (c & E & Hc); [intros c Hc; apply H; lra|]. exists c. auto.
Qed.
Lemma grows f f' lo hi x y : has_derivative_on lo hi f f' -> lo < x -> x < y -> y < hi -> (forall c, x < c < y -> 0 < f' c) -> f x < f y.
Proof. intros H Hx Hxy Hy Hp. destruct (mean_value f f' lo hi x y H Hx Hxy Hy) as (c & Hc & E). specialize (Hp c Hc). nra. Qed.
Lemma shrinks f f' lo hi x y : has_derivative_on lo hi f f' -> lo < x -> x < y -> y < hi -> (forall c, x < c < y -> f' c < 0) -> f y < f x.
Proof. intros H Hx Hxy Hy Hp. destruct (mean_value f f' lo hi x y H Hx Hxy Hy) as (c & Hc & E). specialize (Hp c Hc). nra. Qed.

(* ---- van der Waals ---- *)
Definition vdw (RT a b rho : R) : R := RT * rho / (1 - b * rho) - a * rho ^ 2.
Lemma vdw_value rho Rg T a b : rho <> 0 -> b * rho <> 1 -> van_der_walls_eos rho Rg T a b = Some (vdw (Rg * T) a b rho).
Proof.
  intros H1 H2. unfold van_der_walls_eos. rewrite rdiv_ok by auto. cbn [obind].
  assert (N : 1 / rho - b <> 0). { intros E. apply H2. assert (1 / rho = b) by lra. rewrite <- H. field. auto. }
  rewrite rdiv_ok by auto. cbn [obind]. f_equal. unfold vdw. field. repeat split; auto. lra.
Qed.
Lemma vdw_domain b rho : 0 < b -> 0 < rho < / b -> 0 < 1 - b * rho < 1.
Proof. intros Hb [H1 H2]. assert (b * rho < b * / b) by (apply Rmult_lt_compat_l; lra). rewrite Rinv_r in H by lra. split; nra. Qed.
Lemma vdw_difference RT a b x y : 1 - b * x <> 0 -> 1 - b * y <> 0 ->
  vdw RT a b y - vdw RT a b x = (y - x) * (RT - a * (x + y) * ((1 - b * x) * (1 - b * y))) / ((1 - b * x) * (1 - b * y)).
Proof. intros. unfold vdw. field. auto. Qed.
Lemma spinodal_bound t : 0 <= t <= 2 -> t * (1 - t / 2) ^ 2 <= 8 / 27.
Proof. intros H. assert (8 / 27 - t * (1 - t / 2) ^ 2 = (2 / 3 - t) ^ 2 * (2 / 3 - t / 4)) by field. assert (0 <= (2 / 3 - t) ^ 2) by apply pow2_ge_0. nra. Qed.
Lemma vdw_increasing RT a b : 0 < a -> 0 < b -> 8 * a / (27 * b) <= RT -> increasing_on 0 (/ b) (vdw RT a b).
Proof.
  intros Ha Hb HT x y Hx Hxy Hy. destruct (vdw_domain b x Hb) as [X1 X2]; [lra|]. destruct (vdw_domain b y Hb) as [Y1 Y2]; [lra|].
  apply Rminus_gt_0_lt. rewrite vdw_difference by lra. apply Rdiv_lt_0_compat; [|nra]. apply Rmult_lt_0_compat; [lra|].
  set (t := b * (x + y)). assert (Ht : 0 <= t <= 2) by (unfold t; nra).
  pose proof (spinodal_bound t Ht) as B.
  assert (P : (1 - b * x) * (1 - b * y) < (1 - t / 2) ^ 2).
  { assert ((1 - t / 2) ^ 2 - (1 - b * x) * (1 - b * y) = (b * (y - x)) ^ 2 / 4) by (unfold t; field). assert (0 < b * (y - x)) by (apply Rmult_lt_0_compat; lra). nra. }
  assert (E : a * (x + y) = a / b * t) by (unfold t; field; lra). rewrite E.
  assert (0 < a / b) by (apply Rdiv_lt_0_compat; lra). assert (Ht0 : 0 < t) by (unfold t; nra).
  assert (a / b * (t * ((1 - b * x) * (1 - b * y))) < a / b * (8 / 27)).
  { apply Rmult_lt_compat_l; [lra|]. eapply Rlt_le_trans; [|exact B]. apply Rmult_lt_compat_l; lra. }
  replace (8 * a / (27 * b)) with (a / b * (8 / 27)) in HT by (field; lra). lra.
Qed.
Lemma vdw_not_increasing RT a b : 0 < a -> 0 < b -> 0 <= RT < 8 * a / (27 * b) -> exists x y, 0 < x /\ x < y /\ y < / b /\ vdw RT a b y < vdw RT a b x.
Proof.
  intros Ha Hb [HT0 HT]. set (tau := RT * b / a). assert (Et : RT = a / b * tau) by (unfold tau; field; lra).
  assert (Hab : 0 < a / b) by (apply Rdiv_lt_0_compat; lra).
  assert (T0 : 0 <= tau). { destruct (Rle_lt_dec 0 tau); [auto|]. exfalso. nra. }
  assert (T1 : tau < 8 / 27). { apply Rmult_lt_reg_l with (a / b); [auto|]. rewrite <- Et. replace (a / b * (8 / 27)) with (8 * a / (27 * b)) by (field; lra). exact HT. }
  set (k := 8 / 27 - tau). assert (K : 0 < k <= 8 / 27) by (unfold k; lra).
  exists ((1 / 3 - k) / b), ((1 / 3 + k) / b). assert (Hi : 0 < / b) by now apply Rinv_0_lt_compat.
  split; [apply Rdiv_lt_0_compat; lra|]. split; [unfold Rdiv; apply Rmult_lt_compat_r; lra|]. split; [unfold Rdiv; rewrite <- (Rmult_1_l (/ b)) at 2; apply Rmult_lt_compat_r; lra|].
  assert (E1 : 1 - b * ((1 / 3 - k) / b) = 2 / 3 + k) by (field; lra). assert (E2 : 1 - b * ((1 / 3 + k) / b) = 2 / 3 - k) by (field; lra).
  apply Rminus_lt. rewrite vdw_difference by (rewrite ?E1, ?E2; lra). rewrite E1, E2.
  replace ((1 / 3 + k) / b - (1 / 3 - k) / b) with (2 * k / b) by (field; lra).
  replace (a * ((1 / 3 - k) / b + (1 / 3 + k) / b)) with (a / b * (2 / 3)) by (field; lra). rewrite Et.
  replace (2 * k / b * (a / b * tau - a / b * (2 / 3) * ((2 / 3 + k) * (2 / 3 - k))) / ((2 / 3 + k) * (2 / 3 - k)))
    with (- ((2 * k / b) * (a / b) * ((8 / 27 - tau) - 2 / 3 * k ^ 2) / ((2 / 3 + k) * (2 / 3 - k)))) by (field; repeat split; lra).
  fold k. apply Ropp_lt_gt_0_contravar. apply Rdiv_lt_0_compat; [|nra]. apply Rmult_lt_0_compat; [|nra].
  apply Rmult_lt_0_compat; [|auto]. apply Rdiv_lt_0_compat; lra.
Qed.
(* antiderivative of p / rho^2 *)
Lemma vdw_integral RT a b rho : 0 < b -> 0 < rho < / b -> derivable_pt_lim (fun x => RT * ln (x / (1 - b * x)) - a * x) rho (vdw RT a b rho / rho ^ 2).
Proof.
  intros Hb H. pose proof (vdw_domain b rho Hb H) as [D1 D2].
  assert (Dd : derivable_pt_lim (fun x => 1 - b * x) rho (- b)).
  { eapply dl_eq; [|apply dl_minus; [apply dl_const|apply (dl_mult (fun _ => b)); [apply dl_const|apply dl_id]]]. ring. }
  eapply dl_eq; [|apply dl_minus; [apply dl_mult; [apply dl_const|apply (dl_comp (fun x => x / (1 - b * x)) ln); [apply dl_div; [|apply dl_id|exact Dd]|apply dl_ln]]|apply dl_mult; [apply dl_const|apply dl_id]]].
  - unfold vdw, Rsqr. field. repeat split; lra.
  - lra.
  - apply Rdiv_lt_0_compat; lra.
Qed.
(* first and second derivative at the critical point *)
Lemma vdw_derivative RT a b rho : 1 - b * rho <> 0 -> derivable_pt_lim (vdw RT a b) rho (RT / (1 - b * rho) ^ 2 - 2 * a * rho).
Proof.
  intros H. assert (Dd : derivable_pt_lim (fun x => 1 - b * x) rho (- b)).
  { eapply dl_eq; [|apply dl_minus; [apply dl_const|apply (dl_mult (fun _ => b)); [apply dl_const|apply dl_id]]]. ring. }
  unfold vdw. eapply dl_eq; [|apply dl_minus; [apply dl_div; [exact H|apply dl_mult; [apply dl_const|apply dl_id]|exact Dd]|apply dl_mult; [apply dl_const|apply dl_pow, dl_id]]].
  unfold Rsqr. cbn [INR pred pow]. field. exact H.
Qed.
Lemma vdw_second RT a b rho : 1 - b * rho <> 0 -> derivable_pt_lim (fun x => RT / (1 - b * x) ^ 2 - 2 * a * x) rho (2 * b * RT / (1 - b * rho) ^ 3 - 2 * a).
Proof.
  intros H. assert (Dd : derivable_pt_lim (fun x => 1 - b * x) rho (- b)).
  { eapply dl_eq; [|apply dl_minus; [apply dl_const|apply (dl_mult (fun _ => b)); [apply dl_const|apply dl_id]]]. ring. }
  eapply dl_eq; [|apply dl_minus; [apply dl_div; [|apply dl_const|apply (dl_pow (fun x => 1 - b * x)); exact Dd]|apply (dl_mult (fun _ => 2 * a)); [apply dl_const|apply dl_id]]].
  - unfold Rsqr. cbn [INR pred pow]. field. exact H.
  - now apply pow_nonzero.
Qed.

(* ---- Carnahan-Starling ---- *)
Definition cs (RT a b rho : R) : R := let e := b * rho / 4 in RT * rho * (1 + e + e ^ 2 - e ^ 3) / (1 - e) ^ 3 - a * rho ^ 2.
Lemma cs_value rho Rg T a b : b * rho <> 4 -> carnahan_starling_eos rho Rg T a b = Some (cs (Rg * T) a b rho).
Proof.
  intros H. unfold carnahan_starling_eos. assert (N : 1 - b * rho / 4 <> 0) by lra. rewrite rdiv_ok by now apply pow_nonzero. cbn [obind]. f_equal. unfold cs. field. lra.
Qed.
Lemma cs_derivative RT a b rho : b * rho <> 4 ->
  derivable_pt_lim (cs RT a b) rho (let e := b * rho / 4 in RT * (1 + 4 * e + 4 * e ^ 2 - 4 * e ^ 3 + e ^ 4) / (1 - e) ^ 4 - 2 * a * rho).
Proof.
  intros H. assert (De : derivable_pt_lim (fun x => b * x / 4) rho (b / 4)).
  { apply (dl_ext (fun x => b / 4 * x)); [intros; field|]. eapply dl_eq; [|apply (dl_mult (fun _ => b / 4)); [apply dl_const|apply dl_id]]. ring. }
  assert (N : 1 - b * rho / 4 <> 0) by lra.
  unfold cs. cbv zeta. eapply dl_eq; [|apply dl_minus; [apply dl_div; [now apply pow_nonzero| |]|apply dl_mult; [apply dl_const|apply dl_pow, dl_id]]].
  2:{ apply dl_mult; [apply dl_mult; [apply dl_const|apply dl_id]|].
      apply dl_minus; [apply dl_plus; [apply dl_plus; [apply dl_const|exact De]|apply (dl_pow (fun x => b * x / 4)); exact De]|apply (dl_pow (fun x => b * x / 4)); exact De]. }
  2:{ apply (dl_pow (fun x => 1 - b * x / 4)). apply dl_minus; [apply dl_const|exact De]. }
  unfold Rsqr. cbn [INR pred pow]. field. lra.
Qed.
Lemma cs_integral RT a b rho : 0 < b -> 0 < rho < 4 / b ->
  derivable_pt_lim (fun x => let e := b * x / 4 in RT * (ln x + (4 * e - 3 * e ^ 2) / (1 - e) ^ 2) - a * x) rho (cs RT a b rho / rho ^ 2).
Proof.
  intros Hb H. assert (H4 : b * rho < 4). { apply Rmult_lt_reg_r with (/ b); [now apply Rinv_0_lt_compat|]. replace (b * rho * / b) with rho by (field; lra). unfold Rdiv in H. lra. }
  assert (De : derivable_pt_lim (fun x => b * x / 4) rho (b / 4)).
  { apply (dl_ext (fun x => b / 4 * x)); [intros; field|]. eapply dl_eq; [|apply (dl_mult (fun _ => b / 4)); [apply dl_const|apply dl_id]]. ring. }
  assert (N : 1 - b * rho / 4 <> 0) by lra. cbv zeta.
  eapply dl_eq; [|apply dl_minus; [apply dl_mult; [apply dl_const|apply dl_plus; [apply dl_ln; lra|apply dl_div; [now apply pow_nonzero| |]]]|apply dl_mult; [apply dl_const|apply dl_id]]].
  2:{ apply dl_minus; [apply dl_mult; [apply dl_const|exact De]|apply dl_mult; [apply dl_const|apply (dl_pow (fun x => b * x / 4)); exact De]]. }
  2:{ apply (dl_pow (fun x => 1 - b * x / 4)). apply dl_minus; [apply dl_const|exact De]. }
  unfold cs, Rsqr. cbn [INR pred pow]. field. lra.
Qed.
Lemma cs_bound e : 0 <= e <= 1 -> 8 * e * (1 - e) ^ 4 < 3774 / 10000 * (1 + 4 * e + 4 * e ^ 2 - 4 * e ^ 3 + e ^ 4).
Proof.
  intros H. set (q := 3774 / 10000 * (1 + 4 * e + 4 * e ^ 2 - 4 * e ^ 3 + e ^ 4) - 8 * e * (1 - e) ^ 4).
  assert (Q : q = (e - 3 / 23) ^ 2 * ((1349050991 / 60835000) * e ^ 0 + (-54846243 / 1322500) * e ^ 1 + (3483401 / 115000) * e ^ 2 + (-8 / 1) * e ^ 3) + ((1960161 / 16090857500) * e ^ 0 + (34547 / 349801250) * e ^ 1)) by (unfold q; field).
  enough (0 < q) by (unfold q in *; lra). rewrite Q.
  assert (0 <= (e - 3 / 23) ^ 2) by apply pow2_ge_0.
  assert (0 <= (1349050991 / 60835000) * e ^ 0 + (-54846243 / 1322500) * e ^ 1 + (3483401 / 115000) * e ^ 2 + (-8 / 1) * e ^ 3).
  { assert (0 <= (1 - e) ^ 2) by apply pow2_ge_0. assert (0 <= (1 - e) * (1 - e) ^ 2) by (apply Rmult_le_pos; [lra|auto]). nra. }
  nra.
Qed.
