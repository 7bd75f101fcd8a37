(* Model of the memory effect of generated LBM kernels: update kernels
   (src/lbmpy/updatekernels.py), macroscopic setter/getter kernels
   (src/lbmpy/macroscopic_value_kernels.py) and boundary kernels built on
   src/lbmpy/advanced_streaming/indexing.py. *)
From Coq Require Import List ZArith Bool String Arith.
From Verif Require Import StencilModel AccessModel.
Import ListNotations.
Local Open Scope Z_scope.

(* The set of cells together with relative addressing.  [shift x v] is the cell addressed by the
   relative offset v from cell x.  Instances ([grid]) are below: any mixture of
   unbounded and periodic axes. *)
Record lattice := {
  ldim : nat;
  cell : Type;
  cell_eq_dec : forall x y : cell, {x = y} + {x <> y};
  shift : cell -> vec -> cell;
  shift_zero : forall x, shift x (vzero ldim) = x;
  shift_add : forall x a b, List.length a = ldim -> List.length b = ldim ->
              shift (shift x a) b = shift x (vadd a b)
}.
Arguments shift {l} x v.
Arguments cell_eq_dec {l} x y.

Section Kernels.
  Context (L : lattice) (V : Type).

  (* One pdf array. *)
  Definition mem := cell L -> nat -> V.

  Definition upd (m : mem) (c : cell L) (k : nat) (v : V) : mem :=
    fun c' k' => if cell_eq_dec c c' then if Nat.eqb k k' then v else m c' k' else m c' k'.

  (* Load / store the slots addressed by an access list from cell x (in list order). *)
  Definition load (m : mem) (x : cell L) (accs : list access) : list V :=
    map (fun a => m (shift x (off a)) (idx a)) accs.

  Definition store (m : mem) (x : cell L) (accs : list access) (vals : list V) : mem :=
    fold_left (fun m p => upd m (shift x (off (fst p))) (idx (fst p)) (snd p)) (combine accs vals) m.

  (* macroscopic_value_kernels.py:14-26 get_field_accesses for a Field argument *)
  Definition get_field_accesses (p : pattern) (prev : timestep) (S : stencil) (pre_collision : bool)
    : res (list access) :=
    rbind (get_accessor p prev) (fun a =>
      if pre_collision then acc_read a S else acc_write a S).

  (* macroscopic_value_kernels.py:29-45: the setter kernel writes the populations [f x] (there the
     equilibrium of the given density/velocity) of every cell to the accesses of the previous
     time step.  [xs]: the cells the kernel loops over, in loop order. *)
  Definition setter (p : pattern) (prev : timestep) (S : stencil) (pre : bool)
      (xs : list (cell L)) (f : cell L -> list V) (m : mem) : res mem :=
    rbind (get_field_accesses p prev S pre) (fun ws =>
      Ok (fold_left (fun m x => store m x ws (f x)) xs m)).

  (* macroscopic_value_kernels.py:48-61: the populations the getter kernel computes from. *)
  Definition getter (p : pattern) (prev : timestep) (S : stencil) (pre : bool)
      (m : mem) (x : cell L) : res (list V) :=
    rbind (get_field_accesses p prev S pre) (fun rs => Ok (load m x rs)).

  (* Simulation state: the pdf field and the temporary field used by two-field patterns. *)
  Record state := { src : mem; tmp : mem }.

  (* updatekernels.py:13-58 create_lbm_kernel (as assignments: KernelModel.v) + lbstep.py:316,349: one update kernel call at
     time step [t] with the field swap.  In-place: loads, collision and stores act on the one array.
     Two-field: loads from src, stores to tmp, then src and tmp are swapped.
     [C x f]: the collision rule at cell x. *)
  Definition update (p : pattern) (t : timestep) (S : stencil) (xs : list (cell L))
      (C : cell L -> list V -> list V) (s : state) : res state :=
    rbind (get_accessor p t) (fun a =>
    rbind (acc_read a S) (fun rs =>
    rbind (acc_write a S) (fun ws =>
      if is_inplace p
      then Ok {| src := fold_left (fun m x => store m x ws (C x (load m x rs))) xs (src s);
                 tmp := tmp s |}
      else Ok {| src := fold_left (fun m x => store m x ws (C x (load (src s) x rs))) xs (tmp s);
                 tmp := src s |}))).

  (* indexing.py:36-48: accesses of the proxy fields f_out and f_in between two time steps *)
  Definition between_timesteps (p : pattern) (prev : timestep) (S : stencil)
    : res (list access * list access) :=
    match prev with
    | BOTH => if is_inplace p then Err ValueError else
        rbind (writes_of p prev S) (fun o => rbind (reads_of p (ts_next prev) S) (fun i => Ok (o, i)))
    | _ => rbind (writes_of p prev S) (fun o => rbind (reads_of p (ts_next prev) S) (fun i => Ok (o, i)))
    end.

  (* A field access in a boundary rule: proxy field f_out or f_in, a cell offset relative to
     the boundary link's fluid cell, and a direction index. *)
  Inductive pacc := FOut (o : vec) (j : nat) | FIn (o : vec) (j : nat).

  (* A boundary rule at one link: the accesses it reads, and the function of the values read.
     Its result is assigned to f_in(inv_dir[dir]) (boundaryconditions.py, every Boundary class). *)
  Record brule := { b_reads : list pacc; b_fun : list V -> V }.

  (* indexing.py:97-132: a proxy access is replaced by the pdf access of the corresponding
     list, shifted by the proxy's own offset ([get_shifted] adds offsets).  Out-of-range index: error. *)
  Definition resolve (outs ins : list access) (a : pacc) : res access :=
    match a with
    | FOut o j => match nth_error outs j with
                  | Some b => Ok (mkacc (vadd (off b) o) (idx b)) | None => Err IndexError end
    | FIn o j => match nth_error ins j with
                 | Some b => Ok (mkacc (vadd (off b) o) (idx b)) | None => Err IndexError end
    end.

  (* boundaryhandling.py:159-199: the boundary kernel runs over a list of links (fluid cell x,
     direction index i pointing to the boundary cell).  Each link reads its proxies and assigns
     f_in(inv i). *)
  Definition link := (cell L * nat)%type.
  Definition bc_link (S : stencil) (outs ins : list access)
      (rule : cell L -> nat -> brule) (m : mem) (l : link) : res mem :=
    let (x, i) := l in
    rbind (mapM (resolve outs ins) (b_reads (rule x i))) (fun rs =>
    match nth_error S i with
    | None => Err IndexError
    | Some d =>
      rbind (st_inverse_index S d) (fun k =>
      rbind (resolve outs ins (FIn (vzero (dimD S)) k)) (fun w =>
        Ok (upd m (shift x (off w)) (idx w) (b_fun (rule x i) (load m x rs)))))
    end).

  Fixpoint foldM {A B} (f : A -> B -> res A) (l : list B) (a : A) : res A :=
    match l with
    | [] => Ok a
    | b :: l' => rbind (f a b) (foldM f l')
    end.

  Definition boundary (p : pattern) (prev : timestep) (S : stencil)
      (rule : cell L -> nat -> brule) (links : list link) (s : state) : res state :=
    rbind (between_timesteps p prev S) (fun oi =>
    rbind (foldM (bc_link S (fst oi) (snd oi) rule) links (src s)) (fun m =>
      Ok {| src := m; tmp := tmp s |})).

  (* One time step: boundary handling between [prev] and the next time step, then the kernel
     (lbstep.py:349-357, scenarios.py time loops).  [n] numbers the steps; collision, boundary rule, link
     order and loop order may all depend on n. *)
  Definition one_step (p : pattern) (S : stencil)
      (xs : nat -> list (cell L)) (links : nat -> list link)
      (C : nat -> cell L -> list V -> list V) (rule : nat -> cell L -> nat -> brule)
      (n : nat) (ps : timestep * state) : res (timestep * state) :=
    let (prev, s) := ps in
    rbind (boundary p prev S (rule n) (links n) s) (fun s1 =>
    rbind (update p (ts_next prev) S (xs n) (C n) s1) (fun s2 =>
      Ok (ts_next prev, s2))).

  Fixpoint run (p : pattern) (S : stencil)
      (xs : nat -> list (cell L)) (links : nat -> list link)
      (C : nat -> cell L -> list V -> list V) (rule : nat -> cell L -> nat -> brule)
      (n : nat) (ps : timestep * state) : res (timestep * state) :=
    match n with
    | O => Ok ps
    | S n' => rbind (run p S xs links C rule n' ps) (one_step p S xs links C rule n')
    end.

  (* Setter, n time steps, getter at cell x. *)
  Definition simulate (p : pattern) (t0 : timestep) (S : stencil)
      (xs0 : list (cell L)) (xs : nat -> list (cell L)) (links : nat -> list link)
      (C : nat -> cell L -> list V -> list V) (rule : nat -> cell L -> nat -> brule)
      (f0 : cell L -> list V) (m_src m_tmp : mem) (n : nat) (x : cell L) : res (list V) :=
    rbind (setter p t0 S false xs0 f0 m_src) (fun m =>
    rbind (run p S xs links C rule n (t0, {| src := m; tmp := m_tmp |})) (fun ts =>
      getter p (fst ts) S false (src (snd ts)) x)).
End Kernels.

Arguments src {L V}.
Arguments tmp {L V}.
Arguments b_reads {V}.
Arguments b_fun {V}.
