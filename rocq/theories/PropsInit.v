(* C76: initial profiles of order parameters. *)
From Coq Require Import List ZArith Bool Arith Reals Lra Lia.
From Verif Require Import InitModel InitSpec InitProofs.
Import ListNotations.
Local Open Scope R_scope.

(* one phase between the positions and another one outside: the two fill every cell, no cell has both, other phases keep their values *)
Theorem C76_sharp_pair : forall num nx p q a b phi, (p < num)%nat -> (q < num)%nat -> p <> q ->
  let phi' := init_sharp_interface num nx q (Some a) (Some b) true (init_sharp_interface num nx p (Some a) (Some b) false phi) in
  forall x, (a < IZR x < b -> phi' x p = 1 /\ phi' x q = 0) /\ (~ (a < IZR x < b) -> phi' x p = 0 /\ phi' x q = 1) /\ (forall r, r <> p -> r <> q -> phi' x r = phi x r).
Proof.
  intros num nx p q a b phi Hp Hq N phi' x. unfold phi', init_sharp_interface, positions. rewrite (proj2 (Nat.leb_gt _ _) Hp), (proj2 (Nat.leb_gt _ _) Hq), !Nat.eqb_refl. rewrite (proj2 (Nat.eqb_neq p q) N).
  split; [|split].
  - intros [H1 H2]. destruct (Rlt_dec a (IZR x)); [|lra]. destruct (Rlt_dec (IZR x) b); [|lra]. split; reflexivity.
  - intros H. destruct (Rlt_dec a (IZR x)); [|split; reflexivity]. destruct (Rlt_dec (IZR x) b); [exfalso; apply H; split; assumption|split; reflexivity].
  - intros r H1 H2. rewrite (proj2 (Nat.eqb_neq r q) H2), (proj2 (Nat.eqb_neq r p) H1). reflexivity.
Qed.
Print Assumptions C76_sharp_pair.

(* a phase without an order parameter of its own (the last one) is left to the others: nothing is changed *)
Theorem C76_last_phase : forall num nx p x1 x2 inverse width phi, (num <= p)%nat -> init_sharp_interface num nx p x1 x2 inverse phi = phi /\ init_tanh num nx p x1 x2 width phi = phi.
Proof. intros num nx p x1 x2 i w phi H. unfold init_sharp_interface, init_tanh. rewrite (proj2 (Nat.leb_le _ _) H). destruct (positions nx x1 x2). split; reflexivity. Qed.
Print Assumptions C76_last_phase.
(* without positions the interfaces are at a quarter and three quarters, if the number of cells is divisible by 4 *)
Theorem C76_default_positions : forall m p num inverse width phi, let nx := (4 * m)%Z in
  init_sharp_interface num nx p None None inverse phi = init_sharp_interface num nx p (Some (IZR nx / 4)) (Some (3 * IZR nx / 4)) inverse phi /\
  init_tanh num nx p None None width phi = init_tanh num nx p (Some (IZR nx / 4)) (Some (3 * IZR nx / 4)) width phi.
Proof.
  intros m p num i w phi nx. assert (D : (nx / 4 = m)%Z) by (unfold nx; rewrite Z.mul_comm; apply Z.div_mul; lia). assert (E1 : IZR nx / 4 = IZR m) by (unfold nx; rewrite mult_IZR; field). assert (E2 : 3 * IZR nx / 4 = 3 * IZR m) by (unfold nx; rewrite mult_IZR; field).
  unfold init_sharp_interface, init_tanh, positions. rewrite D, E1, E2. split; reflexivity.
Qed.
Print Assumptions C76_default_positions.

(* the number of cells between two positions given by cell indices is one less than their distance *)
Theorem C76_sharp_count : forall num p (nx : nat) a b phi, (p < num)%nat -> (0 <= a < b)%Z -> (b <= Z.of_nat nx)%Z ->
  count (fun x => init_sharp_interface num (Z.of_nat nx) p (Some (IZR a)) (Some (IZR b)) false phi x p) 1 (cells nx) = Z.to_nat (b - a - 1) /\
  count (fun x => init_sharp_interface num (Z.of_nat nx) p (Some (IZR a)) (Some (IZR b)) false phi x p) 0 (cells nx) = (nx - Z.to_nat (b - a - 1))%nat.
Proof.
  intros num p nx a b phi Hp Hab Hb. unfold count.
  assert (V : forall x, init_sharp_interface num (Z.of_nat nx) p (Some (IZR a)) (Some (IZR b)) false phi x p = if (a <? x)%Z && (x <? b)%Z then 1 else 0).
  { intros x. unfold init_sharp_interface, positions. rewrite (proj2 (Nat.leb_gt _ _) Hp), Nat.eqb_refl. destruct (Rlt_dec (IZR a) (IZR x)) as [L|L].
    - apply lt_IZR in L. rewrite (proj2 (Z.ltb_lt _ _) L). destruct (Rlt_dec (IZR x) (IZR b)) as [M|M]; [apply lt_IZR in M; rewrite (proj2 (Z.ltb_lt _ _) M); reflexivity|]. destruct (Z.ltb_spec x b) as [Q|Q]; [exfalso; apply M; apply IZR_lt; exact Q|reflexivity].
    - destruct (Z.ltb_spec a x) as [Q|Q]; [exfalso; apply L; apply IZR_lt; exact Q|reflexivity]. }
  assert (C1 : length (filter (fun x => if Req_EM_T (init_sharp_interface num (Z.of_nat nx) p (Some (IZR a)) (Some (IZR b)) false phi x p) 1 then true else false) (cells nx)) = Z.to_nat (b - a - 1)).
  { rewrite (filter_eq_in _ (fun x => (a <? x)%Z && (x <? b)%Z)). { unfold cells. rewrite (count_between a b nx 0 0 eq_refl). lia. } intros x _. rewrite V. destruct ((a <? x)%Z && (x <? b)%Z); destruct (Req_EM_T _ _); try lra; reflexivity. }
  split; [exact C1|]. match goal with |- ?l = _ => assert (S : (Z.to_nat (b - a - 1) + l = nx)%nat); [|lia] end. rewrite <- C1 at 1.
  rewrite filter_length_compl; [unfold cells; rewrite map_length, seq_length; reflexivity|]. intros x _. rewrite V. destruct ((a <? x)%Z && (x <? b)%Z); destruct (Req_EM_T _ _), (Req_EM_T _ _); try lra; reflexivity.
Qed.
Print Assumptions C76_sharp_count.
(* so with the default positions the two phases do not fill one half each *)
Theorem C76_half_refuted : forall num p (m : nat) phi, (p < num)%nat -> (0 < m)%nat ->
  count (fun x => init_sharp_interface num (Z.of_nat (4 * m)) p None None false phi x p) 1 (cells (4 * m)) = (2 * m - 1)%nat /\
  count (fun x => init_sharp_interface num (Z.of_nat (4 * m)) p None None false phi x p) 0 (cells (4 * m)) = (2 * m + 1)%nat.
Proof.
  intros num p m phi Hp Hm. assert (Q1 : (0 <= Z.of_nat m < 3 * Z.of_nat m)%Z) by lia. assert (Q2 : (3 * Z.of_nat m <= Z.of_nat (4 * m))%Z) by lia. destruct (C76_sharp_count num p (4 * m) (Z.of_nat m) (3 * Z.of_nat m) phi Hp Q1 Q2) as [A B].
  replace (Z.to_nat (3 * Z.of_nat m - Z.of_nat m - 1)) with (2 * m - 1)%nat in A, B by lia. replace (4 * m - (2 * m - 1))%nat with (2 * m + 1)%nat in B by lia.
  assert (E : init_sharp_interface num (Z.of_nat (4 * m)) p None None false phi = init_sharp_interface num (Z.of_nat (4 * m)) p (Some (IZR (Z.of_nat m))) (Some (IZR (3 * Z.of_nat m))) false phi).
  { unfold init_sharp_interface, positions. replace (Z.of_nat (4 * m) / 4)%Z with (Z.of_nat m) by (replace (Z.of_nat (4 * m)) with (Z.of_nat m * 4)%Z by lia; symmetry; apply Z.div_mul; lia). rewrite mult_IZR. reflexivity. }
  rewrite E. split; assumption.
Qed.
Print Assumptions C76_half_refuted.

(* the smooth profile is the difference of two interfaces of the given width, it lies between 0 and 1, is symmetric and has its maximum between the positions *)
Theorem C76_tanh_interfaces : forall num nx p a b w phi x, (p < num)%nat -> w <> 0 -> init_tanh num nx p (Some a) (Some b) w phi x p = interface w a (IZR x) - interface w b (IZR x) /\ (forall r, r <> p -> init_tanh num nx p (Some a) (Some b) w phi x r = phi x r).
Proof.
  intros num nx p a b w phi x Hp Hw. unfold init_tanh, positions. rewrite (proj2 (Nat.leb_gt _ _) Hp), Nat.eqb_refl. split; [exact (tanh_sum w a b (IZR x) Hw)|]. intros r N. rewrite (proj2 (Nat.eqb_neq r p) N). reflexivity.
Qed.
Print Assumptions C76_tanh_interfaces.
Theorem C76_tanh_range : forall num nx p a b w phi x, (p < num)%nat -> 0 < w -> a < b -> 0 < init_tanh num nx p (Some a) (Some b) w phi x p < 1.
Proof.
  intros num nx p a b w phi x Hp Hw H. assert (Nw : w <> 0) by lra. rewrite (proj1 (C76_tanh_interfaces num nx p a b w phi x Hp Nw)). pose proof (interface_range w a (IZR x)). pose proof (interface_range w b (IZR x)). assert (interface w b (IZR x) < interface w a (IZR x)); [|lra]. rewrite (interface_shift w a b). apply interface_inc; lra.
Qed.
Print Assumptions C76_tanh_range.
Theorem C76_tanh_symmetric : forall num nx p a b w phi x y, (p < num)%nat -> 0 < w -> IZR x + IZR y = a + b -> init_tanh num nx p (Some a) (Some b) w phi x p = init_tanh num nx p (Some a) (Some b) w phi y p.
Proof.
  intros num nx p a b w phi x y Hp Hw H. assert (Nw : w <> 0) by lra. rewrite !(fun z => proj1 (C76_tanh_interfaces num nx p a b w phi z Hp Nw)). replace (IZR y) with (a + b - IZR x) by lra. rewrite (interface_shift w a b (a + b - IZR x)), (interface_shift w b a (a + b - IZR x)).
  replace (a + b - IZR x - (b - a)) with (2 * a - IZR x) by ring. replace (a + b - IZR x - (a - b)) with (2 * b - IZR x) by ring. rewrite !interface_mirror. ring.
Qed.
Print Assumptions C76_tanh_symmetric.
(* near the first position it is the interface of a single transition, up to the tail of the other one *)
Theorem C76_tanh_tail : forall num nx p a b w phi x, (p < num)%nat -> 0 < w -> Rabs (init_tanh num nx p (Some a) (Some b) w phi x p - interface w a (IZR x)) < exp (- ((b - IZR x) / w)).
Proof.
  intros num nx p a b w phi x Hp Hw. assert (Nw : w <> 0) by lra. rewrite (proj1 (C76_tanh_interfaces num nx p a b w phi x Hp Nw)). pose proof (interface_range w b (IZR x)). pose proof (interface_tail w b (IZR x) Hw) as T. replace ((IZR x - b) / w) with (- ((b - IZR x) / w)) in T by (field; lra). rewrite Rabs_left; lra.
Qed.
Print Assumptions C76_tanh_tail.
(* positions in the wrong order are not an error: the order parameter becomes negative everywhere *)
Theorem C76_tanh_order_refuted : forall num nx p a b w phi x, (p < num)%nat -> 0 < w -> b < a -> init_tanh num nx p (Some a) (Some b) w phi x p < 0.
Proof.
  intros num nx p a b w phi x Hp Hw H. assert (Nw : w <> 0) by lra. rewrite (proj1 (C76_tanh_interfaces num nx p a b w phi x Hp Nw)). assert (interface w a (IZR x) < interface w b (IZR x)); [|lra]. rewrite (interface_shift w b a). apply interface_inc; lra.
Qed.
Print Assumptions C76_tanh_order_refuted.
(* with the first position in the right half and no second one given, the second lies beyond the domain and there is only one interface *)
Theorem C76_second_position_refuted : forall num (nx : nat) p a phi x, (p < num)%nat -> 0 < a -> INR nx <= 3 * a -> In x (cells nx) -> init_sharp_interface num (Z.of_nat nx) p (Some a) None false phi x p = (if Rlt_dec a (IZR x) then 1 else 0).
Proof.
  intros num nx p a phi x Hp Ha H I. unfold cells in I. apply in_map_iff in I. destruct I as (k & <- & I). apply in_seq in I. unfold init_sharp_interface, positions. rewrite (proj2 (Nat.leb_gt _ _) Hp), Nat.eqb_refl. destruct (Rlt_dec a _); [|reflexivity]. destruct (Rlt_dec _ (3 * a)) as [|N]; [reflexivity|]. exfalso. apply N. rewrite <- INR_IZR_INZ. apply Rlt_le_trans with (INR nx); [apply lt_INR; lia|exact H].
Qed.
Print Assumptions C76_second_position_refuted.

(* 12 cells: 5 of the one phase and 7 of the other *)
Example C76_example : forall phi, count (fun x => init_sharp_interface 2 12 0 None None false phi x 0) 1 (cells 12) = 5%nat /\ count (fun x => init_sharp_interface 2 12 0 None None false phi x 0) 0 (cells 12) = 7%nat.
Proof. intros phi. exact (C76_half_refuted 2 0 3 phi (Nat.lt_0_succ 1) (Nat.lt_0_succ 2)). Qed.
Example C76_tanh_example : 0 < init_tanh 1 12 0 (Some 3) (Some 9) 1 (fun _ _ => 0) 5 0 < 1 /\ init_tanh 1 12 0 (Some 3) (Some 9) 1 (fun _ _ => 0) 5 0 = init_tanh 1 12 0 (Some 3) (Some 9) 1 (fun _ _ => 0) 7 0.
Proof. split; [apply C76_tanh_range; [lia|lra|lra]|apply C76_tanh_symmetric; [lia|lra|lra]]. Qed.
