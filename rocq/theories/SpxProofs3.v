(* A concrete pair of cells, computed step by step. *)
From Coq Require Import List Bool Arith ZArith Reals Lra Lia.
From Verif Require Import RealLib NphSpec NphProofs SpxModel SpxSpec SpxProofs SpxProofs2.
Import ListNotations.
Local Open Scope R_scope.

Definition vec3 (a b c : R) : nat -> R := fun i => match i with O => a | S O => b | _ => c end.
Definition ex55_c1 := vec3 (- (1/10)) (6/10) (5/10).
Definition ex55_c2 := vec3 (6/10) (- (1/10)) (5/10).
Definition ex55_thr : R := 1/1000.

Lemma loop_pass n k a w : (a < n)%nat -> 0 <= vals w a -> while_loop n (S k) a w = while_loop n k (S a) w.
Proof.
  intros Ha Hv. cbn [while_loop]. rewrite (proj2 (Nat.ltb_lt a n) Ha). unfold body. destruct (Rlt_dec (vals w a) 0); [lra|]. reflexivity.
Qed.

Lemma loop_neg n k a w c : (a < n)%nat -> vals w a < 0 ->
  distribute n a (set_bit (handled w) a) (local_phases w - 1)%Z (vals w) = Some c ->
  while_loop n (S k) a w = while_loop n k 0%nat {| vals := set_phase c a 0; handled := set_bit (handled w) a; local_phases := local_phases w - 1 |}.
Proof.
  intros Ha Hv E. cbn [while_loop]. rewrite (proj2 (Nat.ltb_lt a n) Ha). unfold body. destruct (Rlt_dec (vals w a) 0); [|lra].
  cbv zeta. rewrite E. reflexivity.
Qed.

Lemma loop_end n k a w : (n <= a)%nat -> while_loop n k a w = Some w.
Proof. intros H. destruct k; cbn [while_loop]; rewrite (proj2 (Nat.ltb_ge a n) H); reflexivity. Qed.

Lemma mark_none thr n w : (forall a, (a < n)%nat -> vals w a <= - thr \/ thr <= vals w a) -> mark_zeros thr n w = w.
Proof.
  intros H. unfold mark_zeros. assert (G : forall l, (forall a, In a l -> (a < n)%nat) -> fold_left (mark_zero thr) l w = w).
  { induction l as [|a l IH]; intros Hl; [reflexivity|]. cbn [fold_left].
    replace (mark_zero thr w a) with w; [apply IH; intros b Hb; apply Hl; right; exact Hb|].
    unfold mark_zero. destruct (Rlt_dec (- thr) (vals w a)); [|reflexivity]. destruct (Rlt_dec (vals w a) thr); [|reflexivity].
    exfalso. destruct (H a (Hl a (or_introl eq_refl))); lra. }
  apply G. intros a Ha. apply in_seq in Ha. lia.
Qed.

Ltac small a := destruct a as [|[|[|]]]; [| | |lia].

Lemma ex55_first : exists y m, project_cell ex55_thr 3%nat (fun _ => false) ex55_c1 = Some (y, m) /\ m = set_bit (fun _ => false) 0%nat.
Proof.
  unfold project_cell. rewrite mark_none.
  2:{ intros a Ha. cbn [vals]. unfold ex55_thr. small a; cbn; lra. }
  change (fuel_bound 3%nat) with 16%nat.
  assert (E : exists c, distribute 3%nat 0%nat (set_bit (fun _ => false) 0%nat) (Z.of_nat 3%nat - 1)%Z ex55_c1 = Some c /\ c 1%nat = 55/100 /\ c 2%nat = 45/100).
  { unfold distribute. cbn [seq fold_left obind]. change (set_bit (fun _ => false) 0%nat 0%nat) with true. change (set_bit (fun _ => false) 0%nat 1%nat) with false.
    change (set_bit (fun _ => false) 0%nat 2%nat) with false. cbv iota. change (Z.of_nat 3%nat - 1)%Z with 2%Z.
    unfold rdiv. destruct (Req_EM_T 2 0); [lra|]. cbn [obind]. cbn [obind]. eexists. split; [reflexivity|]. cbn. split; lra. }
  destruct E as (c & E & C1 & C2).
  rewrite (loop_neg 3%nat 15%nat 0%nat _ c); [|lia|cbn; lra|exact E].
  rewrite (loop_pass 3%nat 14%nat 0%nat); [|lia|cbn; lra]. rewrite (loop_pass 3%nat 13%nat 1%nat); [|lia|cbn; lra]. rewrite (loop_pass 3%nat 12%nat 2%nat); [|lia|cbn; lra].
  rewrite loop_end by lia. cbn [obind vals handled]. unfold normalize. cbv zeta.
  destruct (Req_EM_T _ 0) as [Hz|Hz]; [exfalso; cbn in Hz; lra|]. cbn [obind]. eexists _, _. split; reflexivity.
Qed.

Lemma ex55_second m : m = set_bit (fun _ => false) 0%nat -> exists y m', project_cell ex55_thr 3%nat m ex55_c2 = Some (y, m') /\
  y 0%nat = 12/21 /\ y 1%nat = 0 /\ y 2%nat = 9/21.
Proof.
  intros ->. unfold project_cell. rewrite mark_none.
  2:{ intros a Ha. cbn [vals]. unfold ex55_thr. small a; cbn; lra. }
  change (fuel_bound 3%nat) with 16%nat. rewrite (loop_pass 3%nat 15%nat 0%nat); [|lia|cbn; lra].
  set (m := set_bit (fun _ => false) 0%nat).
  assert (E : exists c, distribute 3%nat 1%nat (set_bit m 1%nat) (Z.of_nat 3%nat - 1)%Z ex55_c2 = Some c /\ c 0%nat = 6/10 /\ c 2%nat = 45/100).
  { unfold distribute. cbn [seq fold_left obind]. change (set_bit m 1%nat 0%nat) with true. change (set_bit m 1%nat 1%nat) with true.
    change (set_bit m 1%nat 2%nat) with false. cbv iota. change (Z.of_nat 3%nat - 1)%Z with 2%Z.
    cbn [obind]. unfold rdiv. destruct (Req_EM_T 2 0); [lra|]. cbn [obind]. eexists. split; [reflexivity|]. cbn. split; lra. }
  destruct E as (c & E & C0 & C2).
  rewrite (loop_neg 3%nat 14%nat 1%nat _ c); [|lia|cbn; lra|exact E].
  rewrite (loop_pass 3%nat 13%nat 0%nat); [|lia|cbn; lra]. rewrite (loop_pass 3%nat 12%nat 1%nat); [|lia|cbn; lra]. rewrite (loop_pass 3%nat 11%nat 2%nat); [|lia|cbn; lra].
  rewrite loop_end by lia. cbn [obind vals handled]. unfold normalize. cbv zeta.
  destruct (Req_EM_T _ 0) as [Hz|Hz]; [exfalso; cbn in Hz; lra|]. clear Hz. cbn [obind]. eexists _, _. split; [reflexivity|].
  assert (S : rsum (map (set_phase c 1%nat 0) (seq 0%nat 3%nat)) = 105/100) by (cbn; lra). rewrite S. cbn. rewrite C0, C2. repeat split; lra.
Qed.
