(* Model of src/lbmpy/fieldaccess.py:90-133, PeriodicTwoFieldsAccessor: pull streaming with periodicity
   built into the loads. *)
From Coq Require Import String List ZArith Bool Arith.
From Verif Require Import StencilModel AccessModel StreamModel GridModel CommModel.
Import ListNotations.
Local Open Scope Z_scope.

(* fieldaccess.py:109-129, one component of the pull direction [e = -d_k]; [per]: periodicity of the axis,
   [M]: field.spatial_shape of the axis (including ghost layers), [ctr]: loop counter of the axis. *)
Definition per_component (gl M : Z) (per : bool) (e ctr : Z) : res Z :=
  if negb per then Ok e
  else
    let lower := gl in
    let upper := M - 1 - gl in
    let diff := upper - lower in
    if e =? 0 then Ok 0
    else if e =? 1 then Ok (if ctr <? upper then e else - diff)
    else if e =? -1 then Ok (if lower <? ctr then e else diff)
    else Err NotImplementedError.

(* fieldaccess.py:107-129: the loop over the components; indexing the periodicity tuple, the
   shape and the loop counters with coord_id *)
Fixpoint per_offset (gl : Z) (shape : list Z) (per : list bool) (pull x : vec) {struct pull} : res vec :=
  match pull with
  | [] => Ok []
  | e :: pull' =>
      match per with
      | [] => Err IndexError
      | b :: per' =>
          match shape, x with
          | M :: shape', c :: x' =>
              rbind (per_component gl M b e c) (fun o =>
              rbind (per_offset gl shape' per' pull' x') (fun os => Ok (o :: os)))
          | _, _ => Err IndexError
          end
      end
  end.

(* fieldaccess.py:103-129: read accesses evaluated at the cell with loop counters x *)
Definition per_reads (gl : Z) (shape : list Z) (per : list bool) (S : stencil) (x : vec) : res (list access) :=
  mapM (fun p => rbind (per_offset gl shape per (vneg (snd p)) x) (fun o => Ok (mkacc o (fst p)))) (enum S).

(* fieldaccess.py:131-133 *)
Definition per_writes (S : stencil) : res (list access) := center_accesses S.

(* the two-field update kernel with these accesses, followed by the field swap
   (creationfunctions.py kernel_type = PeriodicTwoFieldsAccessor; updatekernels.py:87-120) *)
Section Kernel.
  Context (D : nat) (V : Type).
  Notation L := (zlat D).
  Fixpoint per_kernel (gl : Z) (shape : list Z) (per : list bool) (S : stencil)
      (C : cell L -> list V -> list V) (src : mem L V) (xs : list (cell L)) (dst : mem L V) : res (mem L V) :=
    match xs with
    | [] => Ok dst
    | x :: xs' =>
        rbind (per_reads gl shape per S (proj1_sig x)) (fun rs =>
        rbind (per_writes S) (fun ws =>
          per_kernel gl shape per S C src xs' (store L V dst x ws (C x (load L V src x rs)))))
    end.
  Fixpoint per_run (gl : Z) (shape : list Z) (per : list bool) (S : stencil) (xs : nat -> list (cell L))
      (C : nat -> cell L -> list V -> list V) (n : nat) (s : state L V) : res (state L V) :=
    match n with
    | O => Ok s
    | Datatypes.S n' =>
        rbind (per_run gl shape per S xs C n' s) (fun s =>
        rbind (per_kernel gl shape per S (C n') (src s) (xs n') (tmp s)) (fun m =>
          Ok {| src := m; tmp := src s |}))
    end.
  (* the cells such a kernel loops over: no ghost layers *)
  Definition domain_cells (N : list Z) (gl : Z) : list (cell L) := interior_cells D N gl.
End Kernel.
