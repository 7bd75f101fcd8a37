From Coq Require Import List ZArith Bool Arith Reals Lra Lia.
From Verif Require Import InitModel InitSpec.
Import ListNotations.
Local Open Scope R_scope.

Lemma tanh_interface w z : w <> 0 -> (1 + tanh (z / (2 * w))) / 2 = 1 / (1 + exp (- (z / w))).
Proof.
  intros Hw. unfold tanh, sinh, cosh. set (y := z / (2 * w)). replace (- (z / w)) with (- y + - y) by (unfold y; field; exact Hw). rewrite exp_plus. pose proof (exp_pos y) as P. pose proof (exp_pos (- y)) as Q. assert (E : exp y * exp (- y) = 1) by (rewrite <- exp_plus; replace (y + - y) with 0 by ring; apply exp_0).
  set (u := exp y) in *. set (v := exp (- y)) in *. assert (0 < v * v) by (apply Rmult_lt_0_compat; assumption). transitivity (u / (u + v)); [field; lra|]. apply (Rmult_eq_reg_r (u + v)); [|lra]. transitivity u; [field; lra|]. transitivity ((u + v) / (1 + v * v)); [|field; lra]. replace (u + v) with (u * (1 + v * v)) by (transitivity (u + (u * v) * v); [ring|rewrite E; ring]). field. lra.
Qed.
Lemma interface_mirror w a x : interface w a (2 * a - x) = 1 - interface w a x.
Proof.
  unfold interface. replace (2 * a - x - a) with (- (x - a)) by ring. unfold Rdiv at 2. rewrite Ropp_mult_distr_l_reverse, Ropp_involutive. fold ((x - a) / w). set (y := (x - a) / w). pose proof (exp_pos y) as P. rewrite exp_Ropp. field. split; lra.
Qed.
Lemma interface_range w a x : 0 < interface w a x < 1.
Proof.
  unfold interface. set (y := - ((x - a) / w)). pose proof (exp_pos y). split; [apply Rdiv_lt_0_compat; lra|]. apply (Rmult_lt_reg_r (1 + exp y)); [lra|]. unfold Rdiv. rewrite Rmult_assoc, Rinv_l by lra. lra.
Qed.
Lemma interface_inc w a x x' : 0 < w -> x < x' -> interface w a x < interface w a x'.
Proof.
  intros Hw H. unfold interface. pose proof (exp_pos (- ((x - a) / w))). pose proof (exp_pos (- ((x' - a) / w))). unfold Rdiv at 1 3. rewrite !Rmult_1_l. apply Rinv_lt_contravar; [apply Rmult_lt_0_compat; lra|]. apply Rplus_lt_compat_l. apply exp_increasing. apply Ropp_lt_contravar. apply Rmult_lt_compat_r; [apply Rinv_0_lt_compat; exact Hw|lra].
Qed.
Lemma interface_shift w a b x : interface w b x = interface w a (x - (b - a)).
Proof. unfold interface. do 5 f_equal. ring. Qed.
Lemma tanh_sum w a b x : w <> 0 -> (1 + tanh ((x - a) / (2 * w))) / 2 + (1 + tanh ((- x + b) / (2 * w))) / 2 - 1 = interface w a x - interface w b x.
Proof.
  intros Hw. rewrite !tanh_interface by exact Hw. fold (interface w a x). replace (1 / (1 + exp (- ((- x + b) / w)))) with (interface w b (2 * b - x)) by (unfold interface; do 5 f_equal; ring). rewrite interface_mirror. ring.
Qed.
Lemma interface_tail w a x : 0 < w -> interface w a x < exp ((x - a) / w).
Proof.
  intros Hw. unfold interface. set (y := (x - a) / w). rewrite exp_Ropp. pose proof (exp_pos y) as P. replace (1 / (1 + / exp y)) with (exp y / (1 + exp y)) by (field; lra). apply (Rmult_lt_reg_r (1 + exp y)); [lra|]. unfold Rdiv. rewrite Rmult_assoc, Rinv_l by lra. pose proof (Rmult_lt_0_compat _ _ P P). lra.
Qed.

(* counting *)
Lemma count_between (a b : Z) n s : forall v, v = Z.of_nat s -> length (filter (fun x => (a <? x)%Z && (x <? b)%Z) (map Z.of_nat (seq s n))) = Z.to_nat (Z.min b (v + Z.of_nat n) - Z.max (a + 1) v).
Proof.
  revert s. induction n as [|n IH]; intros s v ->; [cbn; lia|]. cbn [seq map filter]. specialize (IH (Datatypes.S s) _ eq_refl). destruct (Z.ltb_spec a (Z.of_nat s)), (Z.ltb_spec (Z.of_nat s) b); cbn [andb length]; rewrite IH; lia.
Qed.
Lemma filter_length_compl {A} (f g : A -> bool) l : (forall x, In x l -> g x = negb (f x)) -> (length (filter f l) + length (filter g l) = length l)%nat.
Proof. induction l as [|x l IH]; intros H; [reflexivity|]. cbn [filter length]. rewrite (H x (or_introl eq_refl)). assert (H' : forall y, In y l -> g y = negb (f y)) by (intros; apply H; right; assumption). specialize (IH H'). destruct (f x); cbn [negb length]; lia. Qed.
Lemma filter_eq_in {A} (f g : A -> bool) l : (forall x, In x l -> f x = g x) -> filter f l = filter g l.
Proof. induction l as [|x l IH]; intros H; [reflexivity|]. cbn [filter]. rewrite (H x (or_introl eq_refl)), IH by (intros; apply H; right; assumption). reflexivity. Qed.
