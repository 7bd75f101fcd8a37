(* Every listing of faces has a responsible rule; errors; concrete cells. *)
From Coq Require Import String List ZArith Bool Arith Lia Permutation.
From Verif Require Import StencilModel StencilProofs AccessModel StreamModel StreamSpec AccessProofs StreamProofs RaceProofs StreamProofs2
  GridModel GridProofs BoundSpec InbModel InbSpec InbProofs InbProofs2 InbProofs3.
Import ListNotations.

Definition leaves_b (N : list positive) (x d n : vec) : bool :=
  existsb (fun k => (vec_eqb n (axis_vec (length N) k 1) && (nth k (map Zpos N) 0 - 1 <=? nth k x 0 + nth k d 0)) ||
                    (vec_eqb n (axis_vec (length N) k (-1)) && (nth k x 0 + nth k d 0 <? 1)))%Z%bool (seq 0 (length N)).

Lemma vec_eqb_true a b : vec_eqb a b = true <-> a = b.
Proof. unfold vec_eqb. destruct (vec_eq_dec a b); split; congruence. Qed.

Lemma leaves_b_iff N x d n : leaves_b N x d n = true <-> leaves_through N x d n.
Proof.
  unfold leaves_b, leaves_through. rewrite existsb_exists. split.
  - intros (k & Hk & H). apply in_seq in Hk. exists k. split; [lia|].
    apply orb_prop in H as [H|H]; apply andb_prop in H as [H1 H2]; apply vec_eqb_true in H1; [left|right]; (split; [exact H1|lia]).
  - intros (k & Hk & [(-> & H)|(-> & H)]); exists k; (split; [apply in_seq; lia|]); apply orb_true_iff; [left|right];
      apply andb_true_iff; (split; [apply vec_eqb_true; reflexivity|lia]).
Qed.

Definition face_rule {V} (N : list positive) (S : stencil) (dflt : brule V) (spec : list (side V)) (x : cell (torus N)) (i : nat) : brule V :=
  fold_left (fun acc b => if leaves_b N (proj1_sig x) (dir S i) (fst b) then snd b i else acc) spec dflt.

Lemma face_rule_responsible {V} N S (dflt : brule V) spec : responsible N S spec (face_rule N S dflt spec).
Proof.
  intros x i before n r after Hx Hi -> Hl Hn. unfold face_rule. rewrite fold_left_app. cbn [fold_left fst snd].
  rewrite (proj2 (leaves_b_iff N _ _ n) Hl). clear Hl.
  assert (G : forall acc, fold_left (fun acc b => if leaves_b N (proj1_sig x) (dir S i) (fst b) then snd b i else acc) after acc = acc).
  { induction after as [|[n' r'] after IH]; intros acc; [reflexivity|]. cbn [fold_left fst snd].
    destruct (leaves_b N (proj1_sig x) (dir S i) n') eqn:E.
    - exfalso. apply leaves_b_iff in E. exact (Hn n' r' (or_introl eq_refl) E).
    - apply IH. intros n1 r1 H. apply (Hn n1 r1). right; exact H. }
  apply G.
Qed.

Lemma kernel_both N V p S spec xs C m : is_inplace p = true ->
  exists e, kernel_with_boundaries N V p BOTH S spec xs C m = Err e.
Proof.
  intros Hip. unfold kernel_with_boundaries. destruct (get_accessor p BOTH) as [a|e]; [|eexists; reflexivity].
  cbn [rbind]. destruct (acc_read a S) as [rs|e]; [|eexists; reflexivity]. cbn [rbind].
  destruct (acc_write a S) as [ws|e]; [|eexists; reflexivity]. cbn [rbind].
  unfold between_timesteps. rewrite Hip. eexists; reflexivity.
Qed.

Lemma kernel_bad_face N V p t S n r xs C m x : supported p (ldim (torus N)) S t -> In x xs ->
  fold_right Z.add 0%Z (map Z.abs n) <> 1%Z ->
  kernel_with_boundaries N V p t S [(n, r)] xs C m = Err AssertionError.
Proof.
  intros HP Hx Hn. unfold kernel_with_boundaries. rewrite (between_seq (torus N) S p t HP).
  pose proof (reads_of_seq p _ S t HP) as HR. pose proof (writes_of_seq p _ S t HP) as HW.
  unfold reads_of, writes_of in *.
  destruct (get_accessor p t) as [a|]; [|discriminate]. cbn [rbind] in HR, HW. cbn [rbind]. rewrite HR, HW. cbn [rbind fst snd].
  destruct xs as [|y xs]; [destruct Hx|]. cbn [foldM]. cbv zeta. cbn [foldM].
  unfold boundary_conditional at 1. unfold border_conditions. cbn [fst]. rewrite face_axis_bad by exact Hn. reflexivity.
Qed.
