From Coq Require Import List Bool Arith Lia.
From Verif Require Import DropsModel DropsSpec.
Import ListNotations.

Lemma cut_tenths t n : at_tenths t n (cut t n).
Proof. unfold at_tenths, cut. pose proof (Nat.div_mod (t * n) 10 ltac:(lia)). pose proof (Nat.mod_upper_bound (t * n) 10 ltac:(lia)). lia. Qed.
Lemma tenths_unique t n p : at_tenths t n p -> cut t n = p.
Proof. intros H. pose proof (cut_tenths t n) as H'. unfold at_tenths in *. lia. Qed.
Lemma lens_cases nx ny st x y l r b m t : x < nx -> y < ny -> at_tenths 3 nx l -> at_tenths 7 nx r -> at_tenths 3 ny b -> at_tenths 5 ny m -> at_tenths 7 ny t ->
  liquid_lens_setup (nx, ny) st x y = if (l <=? x) && (x <? r) && (b <=? y) && (y <? t) then [0; 0; 1] else if m <=? y then [1; 0; 0] else [0; 1; 0].
Proof.
  intros Hx Hy L R B M T. apply tenths_unique in L, R, B, M, T. unfold liquid_lens_setup, set_concentration, in_cut. cbn [fst snd andb]. rewrite L, R, B, M, T.
  replace (x <? nx) with true by (symmetry; now apply Nat.ltb_lt). replace (y <? ny) with true by (symmetry; now apply Nat.ltb_lt). cbn [andb].
  destruct (l <=? x), (x <? r), (b <=? y), (y <? t); cbn [andb]; try reflexivity; destruct (Nat.leb_spec m y), (Nat.ltb_spec y m); cbn [andb]; try reflexivity; lia.
Qed.
Lemma drops_cases nx ny st x y l r l' r' b m t : x < nx -> y < ny -> at_tenths 2 nx l -> at_tenths 4 nx r -> at_tenths 7 nx l' -> at_tenths 8 nx r' -> at_tenths 3 ny b -> at_tenths 5 ny m -> at_tenths 7 ny t ->
  create_two_drops_between_phases (nx, ny) st x y = if (l' <=? x) && (x <? r') && (b <=? y) && (y <? t) then [0; 0; 0; 1] else if (l <=? x) && (x <? r) && (b <=? y) && (y <? t) then [0; 0; 1; 0]
    else if m <=? y then [1; 0; 0; 0] else [0; 1; 0; 0].
Proof.
  intros Hx Hy L R L' R' B M T. apply tenths_unique in L, R, L', R', B, M, T. unfold create_two_drops_between_phases, set_concentration, in_cut. cbn [fst snd andb]. rewrite L, R, L', R', B, M, T.
  replace (x <? nx) with true by (symmetry; now apply Nat.ltb_lt). replace (y <? ny) with true by (symmetry; now apply Nat.ltb_lt). cbn [andb].
  destruct (l' <=? x), (x <? r'), (l <=? x), (x <? r), (b <=? y), (y <? t); cbn [andb]; try reflexivity; destruct (Nat.leb_spec m y), (Nat.ltb_spec y m); cbn [andb]; try reflexivity; lia.
Qed.
Ltac pure_tac := split; [reflexivity|split; [lia|split; [reflexivity|let q := fresh in let H := fresh in let N := fresh in intros q H N; destruct q as [|[|[|[|q]]]]; try lia; reflexivity]]].
Ltac bools := repeat match goal with
  | |- context [?a <=? ?b] => destruct (Nat.leb_spec a b)
  | |- context [?a <? ?b] => destruct (Nat.ltb_spec a b) end; cbn [andb].
