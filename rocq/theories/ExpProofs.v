From Coq Require Import List ZArith Bool Reals Lia Lra.
From Verif Require Import EnergyModel InitModel ExpModel ExpSpec.
Import ListNotations.
Local Open Scope R_scope.

Lemma zrange_length a b : length (zrange a b) = Z.to_nat (b - a).
Proof. unfold zrange. now rewrite map_length, seq_length. Qed.
Lemma cells_long nx : (40 <= nx)%Z -> simulated_cells nx = zrange (nx / 4 - 10) (nx / 4 + 10).
Proof.
  intros H. unfold simulated_cells, numpy_slice, vis_width. change (20 / 2)%Z with 10%Z. pose proof (Z.div_mod nx 4 ltac:(lia)). pose proof (Z.mod_pos_bound nx 4 ltac:(lia)).
  cbv zeta. destruct (Z.ltb_spec (nx / 4 - 10) 0); [lia|]. destruct (Z.ltb_spec (nx / 4 + 10) 0); [lia|]. f_equal; lia.
Qed.
Lemma cells_short nx : (0 < nx < 40)%Z -> length (simulated_cells nx) = Z.to_nat (Z.min nx (nx / 4 + 10) - Z.max 0 (nx + nx / 4 - 10)).
Proof.
  intros H. unfold simulated_cells, numpy_slice, vis_width. change (20 / 2)%Z with 10%Z. pose proof (Z.div_mod nx 4 ltac:(lia)). pose proof (Z.mod_pos_bound nx 4 ltac:(lia)).
  cbv zeta. rewrite zrange_length. destruct (Z.ltb_spec (nx / 4 - 10) 0); [|lia]. destruct (Z.ltb_spec (nx / 4 + 10) 0); [lia|]. f_equal. lia.
Qed.
Lemma int_pos x : 0 <= x -> IZR (int_of x) <= x < IZR (int_of x) + 1.
Proof. intros H. unfold int_of. destruct (Rle_dec 0 x); [|lra]. destruct (base_Int_part x). lra. Qed.
Lemma zrange_cons a b : (a < b)%Z -> zrange a b = a :: zrange (a + 1) b.
Proof.
  intros H. unfold zrange. replace (Z.to_nat (b - a)) with (S (Z.to_nat (b - (a + 1)))) by lia. cbn [seq map]. f_equal; [lia|]. rewrite <- seq_shift, map_map. apply map_ext. intros k. lia.
Qed.
Lemma deviations f g a m : fold_right Rplus 0 (map (fun p => Rabs (fst p - snd p)) (combine (map f (zrange a (a + Z.of_nat m))) (map (fun k => g (k + a)%Z) (zrange 0 (Z.of_nat m))))) = sum_deviation f g a m.
Proof.
  assert (G : forall m a c, fold_right Rplus 0 (map (fun p => Rabs (fst p - snd p)) (combine (map f (zrange (c + a) (c + a + Z.of_nat m))) (map (fun k => g (k + a)%Z) (zrange c (c + Z.of_nat m))))) = sum_deviation f g (c + a)%Z m).
  { clear. induction m as [|m IH]; intros a c; [unfold zrange; now rewrite !Z.add_0_r, !Z.sub_diag|]. rewrite (zrange_cons (c + a)), (zrange_cons c) by lia. cbn [map combine fold_right fst snd sum_deviation]. f_equal.
    specialize (IH a (c + 1)%Z). replace (c + a + Z.of_nat (S m))%Z with (c + 1 + a + Z.of_nat m)%Z by lia. replace (c + Z.of_nat (S m))%Z with (c + 1 + Z.of_nat m)%Z by lia. replace (c + a + 1)%Z with (c + 1 + a)%Z by lia. exact IH. }
  specialize (G m a 0%Z). now rewrite !Z.add_0_l in G.
Qed.
Lemma sum_deviation_pos f g a n : 0 <= sum_deviation f g a n.
Proof. revert a. induction n as [|n IH]; intros a; cbn; [lra|]. pose proof (Rabs_pos (f a - g a)). specialize (IH (a + 1)%Z). lra. Qed.
Lemma sum_deviation_zero f g a n : sum_deviation f g a n = 0 <-> forall x, (a <= x < a + Z.of_nat n)%Z -> f x = g x.
Proof.
  revert a. induction n as [|n IH]; intros a; cbn [sum_deviation]; [split; [intros _ x H; lia|reflexivity]|]. pose proof (Rabs_pos (f a - g a)). pose proof (sum_deviation_pos f g (a + 1) n). split.
  - intros E x Hx. assert (A : Rabs (f a - g a) = 0) by lra. assert (B : sum_deviation f g (a + 1) n = 0) by lra. destruct (Z.eq_dec x a) as [->|N].
    + destruct (Req_dec (f a - g a) 0) as [Q|Q]; [lra|]. now apply Rabs_no_R0 in Q.
    + apply (proj1 (IH (a + 1)%Z)); [exact B|lia].
  - intros H'. rewrite (H' a) by lia. rewrite (proj2 (IH (a + 1)%Z)); [|intros x Hx; apply H'; lia]. rewrite Rminus_diag_eq by reflexivity. rewrite Rabs_R0. lra.
Qed.
Lemma tanh_test_ok nx phi w : (40 <= nx)%Z -> tanh_test nx phi w = Some (sum_deviation phi (fun x => analytic_interface_profile w (IZR x - (IZR (nx / 4) + 1 / 2))) (nx / 4 - 10) 20 / 20).
Proof.
  intros H. unfold tanh_test. rewrite cells_long by exact H. unfold analytic_profile, vis_width. change (20 / 2)%Z with 10%Z. rewrite <- (deviations phi _ (nx / 4 - 10) 20).
  replace (nx / 4 - 10 + Z.of_nat 20)%Z with (nx / 4 + 10)%Z by lia. change (Z.of_nat 20) with 20%Z.
  replace (map (fun k => analytic_interface_profile w (IZR (k + (nx / 4 - 10)) - (IZR (nx / 4) + 1 / 2))) (zrange 0 20)) with (map (fun k => analytic_interface_profile w (IZR (k - 10) - 1 / 2)) (zrange 0 20)).
  2: { apply map_ext. intros k. f_equal. rewrite plus_IZR, !minus_IZR. lra. }
  set (A := map _ (zrange 0 20)). assert (LA : length A = 20%nat) by (unfold A; rewrite map_length, zrange_length; reflexivity).
  set (B := map phi _). assert (LB : length B = 20%nat) by (unfold B; rewrite map_length, zrange_length; lia).
  unfold average_deviation. rewrite map_length, combine_length, LA, LB. destruct B as [|b [|b' B']]; [discriminate|discriminate|]. cbn [Nat.eqb Nat.min]. f_equal. f_equal. cbn [INR]. lra.
Qed.
