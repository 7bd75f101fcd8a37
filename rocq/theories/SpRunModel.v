(* Model: list-based simulations.  The kernels of sparse/update_rule_sparse.py run over the first num_fluid_cells entries of the lists
   (src/dst arrays swapped after every step, as update_rule_sparse.py:23-24 describes and tests/test_sparse_lbm.ipynb does). *)
From Coq Require Import List ZArith Bool Arith.
From Verif Require Import StencilModel SparseModel.
Import ListNotations.

Section Run.
  Variables (S : stencil) (shape : list nat) (flags : coord -> Z) (fluid_flag other_mask : Z) (V : Type).
  Definition set_slot (a : nat) (v : V) (arr : nat -> V) : nat -> V := fun b => if (b =? a)%nat then v else arr b.
  (* dst(i) = value, the assignments of one cell (update_rule_sparse.py:48-56) *)
  Definition store_cell (l : list_layout) (n : nat) (vals : list V) (dst : nat -> V) : nat -> V :=
    fold_left (fun d iv => set_slot (list_access S shape flags fluid_flag other_mask l n (fst iv)) (snd iv) d) (combine (seq 0 (length vals)) vals) dst.
  (* kernel stream_pull_collide over the fluid cells; [collide n]: the collision rule, which may read further data of cell n *)
  Definition sparse_sweep (l : list_layout) (collide : nat -> list V -> list V) (idx : nat -> nat -> nat) (src dst : nat -> V) : nat -> V :=
    fold_left (fun d n => store_cell l n (sparse_update S shape flags fluid_flag other_mask l SStreamPullCollide (collide n) idx src n) d)
      (seq 0 (length (fluid_coordinates shape flags fluid_flag))) dst.
  (* update_rule_sparse.py:73-87: the setter kernel over the fluid cells, [f0 n] the populations of list cell n *)
  Definition sparse_setter (l : list_layout) (f0 : nat -> list V) (arr : nat -> V) : nat -> V :=
    fold_left (fun d n => store_cell l n (f0 n) d) (seq 0 (length (fluid_coordinates shape flags fluid_flag))) arr.
  (* n steps, the two arrays swapped after each; [collide t n]: collision of step t *)
  Fixpoint sparse_run (l : list_layout) (collide : nat -> nat -> list V -> list V) (idx : nat -> nat -> nat) (n : nat) (arr tmp : nat -> V) : (nat -> V) * (nat -> V) :=
    match n with
    | O => (arr, tmp)
    | Datatypes.S n' => let '(a, t) := sparse_run l collide idx n' arr tmp in (sparse_sweep l (collide n') idx a t, a)
    end.
  (* pdfs.center_vector of list cell n (update_rule_sparse.py:59-70) *)
  Definition sparse_cell (l : list_layout) (arr : nat -> V) (n : nat) : list V :=
    map (fun i => arr (list_access S shape flags fluid_flag other_mask l n i)) (seq 0 (length S)).
End Run.
