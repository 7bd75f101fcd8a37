(* Finite difference stencils on polynomials: the canonical stencils. *)
From Coq Require Import String List ZArith Bool Arith Reals Lra Lia Permutation.
From Verif Require Import StencilModel RealLib LinLib TransSpec AcModel AcSpec.
Import ListNotations.
Local Open Scope R_scope.

Definition grad_op (g : Z -> R) (S : stencil) (a : nat) (phi : vec -> R) : R := rsum (map (fun c => entry c a * g (norm2 c) * phi c) S).
Definition lap_op (g : Z -> R) (S : stencil) (phi : vec -> R) : R := rsum (map (fun c => g (norm2 c) * phi c) S).
Definition d1 (a : nat) (x : list R) (e : list nat) : R := peval (pderiv a [(1, e)]) x.
Definition d3 (D a : nat) (x : list R) (e : list nat) : R := peval (pderiv a (plap D [(1, e)])) x.
Definition d2 (D : nat) (x : list R) (e : list nat) : R := peval (plap D [(1, e)]) x.
Definition d4 (D : nat) (x : list R) (e : list nat) : R := peval (plap D (plap D [(1, e)])) x.
Definition mono_field (x : list R) (e : list nat) (o : vec) : R := rmono (radd x (vecR o)) e.

Definition gD2Q9 (n : Z) : R := if Z.eqb n 1 then 4 / 12 else 1 / 12.
Definition gD3Q15 (n : Z) : R := if Z.eqb n 1 then 8 / 24 else 1 / 24.
Definition gD3Q19 (n : Z) : R := if Z.eqb n 1 then 2 / 12 else 1 / 12.
Definition gD3Q27 (n : Z) : R := if Z.eqb n 1 then 16 / 72 else if Z.eqb n 2 then 4 / 72 else 1 / 72.
Definition lD2Q9 (n : Z) : R := if Z.eqb n 0 then - (20 / 6) else if Z.eqb n 1 then 4 / 6 else 1 / 6.
Definition lD3Q15 (n : Z) : R := if Z.eqb n 0 then - (256 / 72) else if Z.eqb n 1 then 28 / 72 else 11 / 72.
Definition lD3Q19 (n : Z) : R := if Z.eqb n 0 then - (24 / 6) else if Z.eqb n 1 then 2 / 6 else 1 / 6.
Definition lD3Q27 (n : Z) : R := if Z.eqb n 0 then - (152 / 36) else if Z.eqb n 1 then 16 / 36 else if Z.eqb n 2 then 4 / 36 else 1 / 36.

Ltac solve_mono := clear; cbv -[Rplus Rmult Ropp Rinv Rdiv Rminus IZR pow R0 R1]; change R1 with 1; change R0 with 0; field.
Ltac exps2 e He Hs :=
  let i := fresh "i" in let j := fresh "j" in
  destruct e as [|i [|j [|]]]; try discriminate He; cbn [list_sum fold_right] in Hs;
  do 6 (destruct i as [|i]; [do 6 (destruct j as [|j]; [solve [exfalso; lia | solve_mono]|]); exfalso; lia|]); exfalso; lia.
Ltac exps3 e He Hs :=
  let i := fresh "i" in let j := fresh "j" in let k := fresh "k" in
  destruct e as [|i [|j [|k [|]]]]; try discriminate He; cbn [list_sum fold_right] in Hs;
  do 6 (destruct i as [|i]; [do 6 (destruct j as [|j]; [do 6 (destruct k as [|k]; [solve [exfalso; lia | solve_mono]|]); exfalso; lia|]); exfalso; lia|]); exfalso; lia.
Ltac axes2 a Ha := destruct a as [|[|a]]; [| |exfalso; lia].
Ltac axes3 a Ha := destruct a as [|[|[|a]]]; [| | |exfalso; lia].
Ltac point2 x Hx := let x0 := fresh "x0" in let x1 := fresh "x1" in destruct x as [|x0 [|x1 [|]]]; try discriminate Hx; clear Hx.
Ltac point3 x Hx := let x0 := fresh "x0" in let x1 := fresh "x1" in let x2 := fresh "x2" in destruct x as [|x0 [|x1 [|x2 [|]]]]; try discriminate Hx; clear Hx.

Definition grad_good (D : nat) (g : Z -> R) (S : stencil) : Prop := forall a x e, (a < D)%nat -> length x = D -> length e = D -> (list_sum e <= 4)%nat ->
  grad_op g S a (mono_field x e) = d1 a x e + 1 / 6 * d3 D a x e.
Definition lap_good (D : nat) (g : Z -> R) (S : stencil) : Prop := forall x e, length x = D -> length e = D -> (list_sum e <= 5)%nat ->
  lap_op g S (mono_field x e) = d2 D x e + 1 / 12 * d4 D x e.
Lemma grad_D2Q9 : grad_good 2 gD2Q9 D2Q9_walberla.
Proof. intros a x e Ha Hx He Hs. point2 x Hx. axes2 a Ha; exps2 e He Hs. Qed.
Lemma grad_D3Q15 : grad_good 3 gD3Q15 D3Q15_walberla.
Proof. intros a x e Ha Hx He Hs. point3 x Hx. axes3 a Ha; exps3 e He Hs. Qed.
Lemma grad_D3Q19 : grad_good 3 gD3Q19 D3Q19_walberla.
Proof. intros a x e Ha Hx He Hs. point3 x Hx. axes3 a Ha; exps3 e He Hs. Qed.
Lemma grad_D3Q27 : grad_good 3 gD3Q27 D3Q27_walberla.
Proof. intros a x e Ha Hx He Hs. point3 x Hx. axes3 a Ha; exps3 e He Hs. Qed.
Lemma lap_D2Q9 : lap_good 2 lD2Q9 D2Q9_walberla.
Proof. intros x e Hx He Hs. point2 x Hx. exps2 e He Hs. Qed.
Lemma lap_D3Q19 : lap_good 3 lD3Q19 D3Q19_walberla.
Proof. intros x e Hx He Hs. point3 x Hx. exps3 e He Hs. Qed.
Lemma lap_D3Q27 : lap_good 3 lD3Q27 D3Q27_walberla.
Proof. intros x e Hx He Hs. point3 x Hx. exps3 e He Hs. Qed.
(* fifteen directions: up to the third degree *)
Lemma lap_D3Q15 : forall x e, length x = 3%nat -> length e = 3%nat -> (list_sum e <= 3)%nat -> lap_op lD3Q15 D3Q15_walberla (mono_field x e) = d2 3 x e.
Proof. intros x e Hx He Hs. point3 x Hx. exps3 e He Hs. Qed.
