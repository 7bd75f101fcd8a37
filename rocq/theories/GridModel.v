(* Cell grids: any mixture of unbounded axes (None) and periodic axes with N cells (Some N).
   This is the index space a pystencils field addresses with relative offsets; a periodic axis
   is what periodicity handling makes of the array (see CommModel.v for the ghost-layer
   implementation of periodicity). *)
From Coq Require Import String List ZArith Bool Arith Lia Eqdep_dec.
From Verif Require Import StencilModel StencilProofs StreamModel.
Import ListNotations.
Local Open Scope Z_scope.

Definition gshape := list (option positive).

Definition wrap (o : option positive) (z : Z) : Z :=
  match o with None => z | Some N => z mod (Zpos N) end.

Definition in_axis (o : option positive) (z : Z) : bool :=
  match o with None => true | Some N => (0 <=? z) && (z <? Zpos N) end.

Fixpoint in_grid (s : gshape) (x : vec) : bool :=
  match s, x with
  | [], [] => true
  | o :: s', z :: x' => in_axis o z && in_grid s' x'
  | _, _ => false
  end.

Definition gcell (s : gshape) : Type := { x : vec | in_grid s x = true }.

Fixpoint gshift_raw (s : gshape) (x v : vec) : vec :=
  match s with
  | [] => []
  | o :: s' => wrap o (hd 0 x + hd 0 v) :: gshift_raw s' (tl x) (tl v)
  end.

Lemma in_axis_wrap o z : in_axis o (wrap o z) = true.
Proof.
  destruct o as [N|]; simpl; [|reflexivity].
  pose proof (Z.mod_pos_bound z (Zpos N) eq_refl). lia.
Qed.

Lemma wrap_id o z : in_axis o z = true -> wrap o z = z.
Proof. destruct o as [N|]; simpl; [|reflexivity]. intros H. apply Z.mod_small. lia. Qed.

Lemma gshift_in s x v : in_grid s (gshift_raw s x v) = true.
Proof.
  revert x v; induction s as [|o s IH]; intros x v; simpl; [reflexivity|].
  rewrite in_axis_wrap, IH. reflexivity.
Qed.

Definition gshift (s : gshape) (x : gcell s) (v : vec) : gcell s :=
  exist _ (gshift_raw s (proj1_sig x) v) (gshift_in s (proj1_sig x) v).

Lemma gcell_eq s (x y : gcell s) : proj1_sig x = proj1_sig y -> x = y.
Proof.
  destruct x as [x Hx], y as [y Hy]; simpl. intros ->. f_equal.
  apply UIP_dec. apply bool_dec.
Qed.

Definition gcell_eq_dec s (x y : gcell s) : {x = y} + {x <> y}.
Proof.
  destruct (vec_eq_dec (proj1_sig x) (proj1_sig y)) as [E|E].
  - left. apply gcell_eq. exact E.
  - right. intros ->. apply E. reflexivity.
Defined.

Lemma in_grid_length s x : in_grid s x = true -> length x = length s.
Proof.
  revert x; induction s as [|o s IH]; intros [|z x]; simpl; try discriminate; [reflexivity|].
  intros H. apply andb_prop in H as [_ H]. f_equal. apply IH; exact H.
Qed.

Lemma gshift_zero s (x : gcell s) : gshift s x (vzero (length s)) = x.
Proof.
  apply gcell_eq. destruct x as [x Hx]; simpl.
  revert x Hx; induction s as [|o s IH]; intros [|z x]; simpl; try discriminate; [reflexivity|].
  intros H. apply andb_prop in H as [H1 H2]. f_equal.
  - rewrite Z.add_0_r. apply wrap_id; exact H1.
  - apply IH; exact H2.
Qed.

Lemma wrap_add o a b : wrap o (wrap o a + b) = wrap o (a + b).
Proof. destruct o as [N|]; simpl; [|reflexivity]. apply Zplus_mod_idemp_l. Qed.

Lemma gshift_add s (x : gcell s) a b : length a = length s -> length b = length s ->
  gshift s (gshift s x a) b = gshift s x (vadd a b).
Proof.
  intros Ha Hb. apply gcell_eq. destruct x as [x Hx]; simpl. clear Hx.
  revert x a b Ha Hb; induction s as [|o s IH]; intros x a b Ha Hb; simpl; [reflexivity|].
  destruct a as [|z a]; [discriminate|]. destruct b as [|w b]; [discriminate|].
  simpl in Ha, Hb. rewrite vadd_cons. cbn [hd tl]. f_equal.
  - rewrite wrap_add. f_equal. lia.
  - apply IH; lia.
Qed.

Definition grid (s : gshape) : lattice :=
  {| ldim := length s; cell := gcell s; cell_eq_dec := gcell_eq_dec s;
     shift := gshift s; shift_zero := gshift_zero s; shift_add := gshift_add s |}.

(* all cells of a fully periodic grid, and of a box within any grid *)
Fixpoint box_raw (lo hi : list Z) : list vec :=
  match lo, hi with
  | l :: lo', h :: hi' =>
      flat_map (fun z => map (cons z) (box_raw lo' hi'))
               (map (fun k => l + Z.of_nat k) (seq 0 (Z.to_nat (h - l))))
  | _, _ => [[]]
  end.

Definition attach (s : gshape) (l : list vec) : list (gcell s) :=
  flat_map (fun x => match bool_dec (in_grid s x) true with
                     | left H => [exist _ x H] | right _ => [] end) l.

Definition torus_shape (N : list positive) : gshape := map Some N.
Definition torus (N : list positive) : lattice := grid (torus_shape N).
Definition torus_cells (N : list positive) : list (cell (torus N)) :=
  attach (torus_shape N) (box_raw (map (fun _ => 0) N) (map Zpos N)).
