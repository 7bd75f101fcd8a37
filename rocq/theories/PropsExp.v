(* C80: the one-dimensional experiments compare the right cells and run for whole rounds. *)
From Coq Require Import List ZArith Bool Reals Lia Lra.
From Verif Require Import EnergyModel InitModel ExpModel ExpSpec ExpProofs.
Import ListNotations.
Local Open Scope R_scope.

(* With at least 40 cells the result is the average deviation, in the twenty cells around the interface, from the profile centred between the cells nx // 4 and nx // 4 + 1 ... *)
Theorem C80_deviation : forall nx phi w, (40 <= nx)%Z ->
  tanh_test nx phi w = Some (sum_deviation phi (fun x => analytic_interface_profile w (IZR x - (IZR (nx / 4) + 1 / 2))) (nx / 4 - 10) 20 / 20).
Proof. exact tanh_test_ok. Qed.
Print Assumptions C80_deviation.

(* ... and this is where the sharp interface of the first phase is set. *)
Theorem C80_centre : forall num nx p phi, (p < num)%nat -> (4 <= nx)%Z -> step_between (fun x => init_sharp_interface num nx p None None false phi x p) (nx / 4) 0 1.
Proof.
  intros num nx p phi Hp H. pose proof (Z.div_mod nx 4 ltac:(lia)). pose proof (Z.mod_pos_bound nx 4 ltac:(lia)). assert (1 <= IZR (nx / 4)) by (apply IZR_le; lia).
  unfold step_between, init_sharp_interface, positions. rewrite (proj2 (Nat.leb_gt _ _) Hp), Nat.eqb_refl, plus_IZR. split.
  - destruct (Rlt_dec _ _); [lra|reflexivity].
  - destruct (Rlt_dec _ _); [|lra]. destruct (Rlt_dec _ _); [reflexivity|lra].
Qed.
Print Assumptions C80_centre.

(* The result is zero exactly for the analytic profile. *)
Theorem C80_zero : forall nx phi w, (40 <= nx)%Z ->
  (tanh_test nx phi w = Some 0 <-> forall x, (nx / 4 - 10 <= x < nx / 4 + 10)%Z -> phi x = analytic_interface_profile w (IZR x - (IZR (nx / 4) + 1 / 2))).
Proof.
  intros nx phi w H. rewrite tanh_test_ok by exact H. set (g := fun x => analytic_interface_profile w (IZR x - (IZR (nx / 4) + 1 / 2))). pose proof (sum_deviation_zero phi g (nx / 4 - 10) 20) as Z0. replace (nx / 4 - 10 + Z.of_nat 20)%Z with (nx / 4 + 10)%Z in Z0 by lia. split.
  - intros E. apply (proj1 Z0). assert (E' : forall a b : R, Some a = Some b -> a = b) by congruence. apply E' in E. clear E'. set (s := sum_deviation _ _ _ _) in *. clearbody s. lra.
  - intros E. f_equal. rewrite (proj2 Z0 E). lra.
Qed.
Print Assumptions C80_zero.

(* In shorter domains the window begins before the first cell, so that numpy counts from the end: from 20 to 39 cells nothing is left, and the comparison is a ValueError ... *)
Theorem C80_short_refuted : forall nx phi w, (20 <= nx < 40)%Z -> simulated_cells nx = [] /\ tanh_test nx phi w = None.
Proof.
  intros nx phi w H. assert (E : simulated_cells nx = []).
  { apply length_zero_iff_nil. rewrite cells_short by lia. pose proof (Z.div_mod nx 4 ltac:(lia)). pose proof (Z.mod_pos_bound nx 4 ltac:(lia)). lia. }
  split; [exact E|]. unfold tanh_test. rewrite E. reflexivity.
Qed.
Print Assumptions C80_short_refuted.

(* ... with 19 cells a single cell, more than eight cells away from the interface, is compared with the whole profile. *)
Theorem C80_single_cell_refuted : forall phi w, simulated_cells 19 = [13%Z] /\ exists d, tanh_test 19 phi w = Some d.
Proof. intros phi w. split; [reflexivity|]. eexists. reflexivity. Qed.
Print Assumptions C80_single_cell_refuted.

(* After one round the interface is at most a quarter of a cell too far, and less than one time step short of that. *)
Theorem C80_round : forall nx v, (0 <= nx)%Z -> 0 < v -> 1 / 4 - v < excess nx v 1 (round_time_steps nx v) <= 1 / 4.
Proof.
  intros nx v H Hv. apply IZR_le in H. unfold excess, round_time_steps. set (q := (IZR nx + 1 / 4) / v). assert (Q : v * q = IZR nx + 1 / 4) by (unfold q; field; lra). assert (0 <= q) by (unfold q; apply Rmult_le_pos; [lra|left; now apply Rinv_0_lt_compat]).
  destruct (int_pos q) as [A B]; [assumption|]. cbn [INR]. split; nra.
Qed.
Print Assumptions C80_round.

(* The excess adds up over the rounds, so that later profiles are captured away from the position of the first one. *)
Theorem C80_rounds_refuted : forall nx v k, (0 <= nx)%Z -> 0 < v < 1 / 4 -> (0 < k)%nat ->
  0 < INR k * (1 / 4 - v) < excess nx v k (Z.of_nat k * round_time_steps nx v).
Proof.
  intros nx v k H Hv Hk. destruct (C80_round nx v H ltac:(lra)) as [A _]. assert (0 < INR k) by now apply lt_0_INR. split; [apply Rmult_lt_0_compat; lra|]. unfold excess in *. cbn [INR] in A. rewrite mult_IZR, <- INR_IZR_INZ.
  replace (v * (INR k * IZR (round_time_steps nx v)) - INR k * IZR nx) with (INR k * (v * IZR (round_time_steps nx v) - 1 * IZR nx)) by ring. now apply Rmult_lt_compat_l.
Qed.
Print Assumptions C80_rounds_refuted.

(* With a negative velocity no time step is made. *)
Theorem C80_negative_refuted : forall nx v, (0 <= nx)%Z -> v < 0 -> (round_time_steps nx v <= 0)%Z.
Proof.
  intros nx v H Hv. apply IZR_le in H. unfold round_time_steps, int_of. assert (Q : 0 < - ((IZR nx + 1 / 4) / v)). { replace (- ((IZR nx + 1 / 4) / v)) with ((IZR nx + 1 / 4) * / - v) by (field; lra). apply Rmult_lt_0_compat; [lra|]. apply Rinv_0_lt_compat. lra. }
  destruct (Rle_dec _ _); [lra|]. destruct (base_Int_part (- ((IZR nx + 1 / 4) / v))) as [A B]. assert (-1 < IZR (Int_part (- ((IZR nx + 1 / 4) / v)))) by lra. apply (lt_IZR (-1)) in H0. lia.
Qed.
Print Assumptions C80_negative_refuted.

(* Defaults: three rounds at a velocity of 1/20 in 100 cells end more than half a cell too far. *)
Example C80_example : 6 / 10 < excess 100 (1 / 20) 3 (3 * round_time_steps 100 (1 / 20)) /\ simulated_cells 100 = zrange 15 35.
Proof. split; [|reflexivity]. destruct (C80_rounds_refuted 100 (1 / 20) 3) as [_ A]; [lia|lra|lia|]. cbn [INR] in A. change (Z.of_nat 3) with 3%Z in A. lra. Qed.
