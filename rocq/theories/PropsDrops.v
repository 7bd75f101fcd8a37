(* C79: initial concentrations of the set-ups of liquid lenses and drops between two phases. *)
From Coq Require Import List Bool Arith Lia.
From Verif Require Import DropsModel DropsSpec DropsProofs.
Import ListNotations.

(* Every cell starts with exactly one phase, whatever the fields contained before. *)
Theorem C79_pure : forall nx ny st x y, x < nx -> y < ny ->
  (exists phase, pure 3 (liquid_lens_setup (nx, ny) st x y) phase) /\ (exists phase, pure 4 (create_two_drops_between_phases (nx, ny) st x y) phase).
Proof.
  intros nx ny st x y Hx Hy. split.
  - rewrite (lens_cases nx ny st x y _ _ _ _ _ Hx Hy (cut_tenths 3 nx) (cut_tenths 7 nx) (cut_tenths 3 ny) (cut_tenths 5 ny) (cut_tenths 7 ny)).
    destruct (_ && _ && _ && _); [exists 2; pure_tac|]. destruct (_ <=? _); [exists 0|exists 1]; pure_tac.
  - rewrite (drops_cases nx ny st x y _ _ _ _ _ _ _ Hx Hy (cut_tenths 2 nx) (cut_tenths 4 nx) (cut_tenths 7 nx) (cut_tenths 8 nx) (cut_tenths 3 ny) (cut_tenths 5 ny) (cut_tenths 7 ny)).
    destruct (_ && _ && _ && _); [exists 3; pure_tac|]. destruct (_ && _ && _ && _); [exists 2; pure_tac|]. destruct (_ <=? _); [exists 0|exists 1]; pure_tac.
Qed.
Print Assumptions C79_pure.

(* Liquid lens: phase 2 in the middle, phase 0 above and phase 1 below, as in the picture of the docstring. *)
Theorem C79_lens : forall nx ny st x y l r b m t, x < nx -> y < ny -> at_tenths 3 nx l -> at_tenths 7 nx r -> at_tenths 3 ny b -> at_tenths 5 ny m -> at_tenths 7 ny t ->
  let c := liquid_lens_setup (nx, ny) st x y in
  (l <= x < r /\ b <= y < t -> pure 3 c 2) /\ (~ (l <= x < r /\ b <= y < t) -> m <= y -> pure 3 c 0) /\ (~ (l <= x < r /\ b <= y < t) -> y < m -> pure 3 c 1).
Proof.
  intros nx ny st x y l r b m t Hx Hy L R B M T. cbv zeta. rewrite (lens_cases nx ny st x y l r b m t) by assumption.
  repeat split; try (intros; bools; try lia; reflexivity); try lia; intros; destruct q as [|[|[|q]]]; bools; try lia; reflexivity.
Qed.
Print Assumptions C79_lens.

(* Two drops: phase 2 on the left, phase 3 on the right. *)
Theorem C79_two_drops : forall nx ny st x y l r l' r' b m t, x < nx -> y < ny -> at_tenths 2 nx l -> at_tenths 4 nx r -> at_tenths 7 nx l' -> at_tenths 8 nx r' -> at_tenths 3 ny b -> at_tenths 5 ny m -> at_tenths 7 ny t ->
  let c := create_two_drops_between_phases (nx, ny) st x y in
  (l <= x < r /\ b <= y < t -> pure 4 c 2) /\ (l' <= x < r' /\ b <= y < t -> pure 4 c 3) /\
  (~ ((l <= x < r \/ l' <= x < r') /\ b <= y < t) -> m <= y -> pure 4 c 0) /\ (~ ((l <= x < r \/ l' <= x < r') /\ b <= y < t) -> y < m -> pure 4 c 1).
Proof.
  intros nx ny st x y l r l' r' b m t Hx Hy L R L' R' B M T. cbv zeta. rewrite (drops_cases nx ny st x y l r l' r' b m t) by assumption. assert (r <= l') by (unfold at_tenths in *; lia).
  repeat split; try (intros; bools; try lia; reflexivity); try lia; intros; destruct q as [|[|[|[|q]]]]; bools; try lia; reflexivity.
Qed.
Print Assumptions C79_two_drops.

(* In domains of at least five cells the lens exists, reaches over the interface and has both phases above and below it. *)
Theorem C79_position : forall nx ny b m t, 5 <= ny -> at_tenths 3 ny b -> at_tenths 5 ny m -> at_tenths 7 ny t -> 0 < b /\ b < m /\ m < t /\ t < ny /\
  (forall l r, 5 <= nx -> at_tenths 3 nx l -> at_tenths 7 nx r -> 0 < l < r /\ r < nx).
Proof. intros nx ny b m t H B M T. unfold at_tenths in *. repeat split; lia. Qed.
Print Assumptions C79_position.

(* The drops are apart, also over the periodic border, and do not touch the ghost layers, in domains of at least ten cells with g = 0 or 1 ghost layers. *)
Theorem C79_apart : forall n g l r l' r', 10 <= n -> g <= 1 -> at_tenths 2 (n + 2 * g) l -> at_tenths 4 (n + 2 * g) r -> at_tenths 7 (n + 2 * g) l' -> at_tenths 8 (n + 2 * g) r' ->
  g < l < r /\ l' < r' < n + g /\ r + 3 <= l' /\ r' + 2 <= l + n.
Proof. intros n g l r l' r' H G L R L' R'. unfold at_tenths in *. repeat split; lia. Qed.
Print Assumptions C79_apart.

(* The picture of the docstring shows two equal drops; the second one is half as wide as the first. *)
Theorem C79_equal_drops_refuted : forall k l r l' r', 0 < k -> at_tenths 2 (10 * k) l -> at_tenths 4 (10 * k) r -> at_tenths 7 (10 * k) l' -> at_tenths 8 (10 * k) r' -> r - l = 2 * (r' - l') /\ r' - l' <> r - l.
Proof. intros k l r l' r' H L R L' R'. unfold at_tenths in *. lia. Qed.
Print Assumptions C79_equal_drops_refuted.

(* The lens is not always in the middle of the interface: with six cells in y, two of them below and one above. *)
Theorem C79_middle_refuted : ~ (forall ny b m t, at_tenths 3 ny b -> at_tenths 5 ny m -> at_tenths 7 ny t -> m - b = t - m).
Proof. intros H. specialize (H 6 1 3 4). unfold at_tenths in H. lia. Qed.
Print Assumptions C79_middle_refuted.

Example C79_example : at_tenths 3 200 60 /\ at_tenths 7 200 140 /\ at_tenths 3 120 36 /\ at_tenths 5 120 60 /\ at_tenths 7 120 84 /\ at_tenths 7 400 280 /\ at_tenths 8 400 320 /\ at_tenths 2 10 2 /\ at_tenths 4 10 4.
Proof. unfold at_tenths. repeat split; lia. Qed.
