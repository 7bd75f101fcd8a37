(* Model of src/lbmpy/fieldaccess.py and src/lbmpy/advanced_streaming/utility.py:
   which slot of the pdf array every population is read from / written to. *)
From Coq Require Import List ZArith Bool String Arith.
From Verif Require Import StencilModel.
Import ListNotations.
Local Open Scope Z_scope.

(* pystencils field access [field[off](idx)]: relative cell offset and index component. *)
Record access := mkacc { off : vec; idx : nat }.

(* An accessor class: read list, write list, [is_inplace] flag (fieldaccess.py:22-48). *)
Record accessor := { acc_read : stencil -> res (list access);
                     acc_write : stencil -> res (list access);
                     acc_inplace : bool }.

(* [field(i)] for i in range(stencil.Q) *)
Definition center_accesses (S : stencil) : res (list access) :=
  Ok (map (fun i => mkacc (vzero (dimD S)) i) (seq 0 (sizeQ S))).

(* fieldaccess.py:54-63 *)
Definition collide_only_inplace : accessor :=
  {| acc_read := center_accesses; acc_write := center_accesses; acc_inplace := true |}.

(* fieldaccess.py:66-75 *)
Definition stream_pull_two_fields : accessor :=
  {| acc_read := fun S => Ok (map (fun p => mkacc (vneg (snd p)) (fst p)) (enum S));
     acc_write := center_accesses;
     acc_inplace := false |}.

(* fieldaccess.py:78-87 *)
Definition stream_push_two_fields : accessor :=
  {| acc_read := center_accesses;
     acc_write := fun S => Ok (map (fun p => mkacc (snd p) (fst p)) (enum S));
     acc_inplace := false |}.

(* fieldaccess.py:136-145 *)
Definition aa_even : accessor :=
  {| acc_read := center_accesses;
     acc_write := fun S => mapM (fun d => rbind (st_inverse_index S d) (fun k =>
                    Ok (mkacc (vzero (dimD S)) k))) S;
     acc_inplace := true |}.

(* fieldaccess.py:148-157 *)
Definition aa_odd : accessor :=
  {| acc_read := fun S => mapM (fun d => rbind (st_inverse_index S d) (fun k =>
                    Ok (mkacc (vneg d) k))) S;
     acc_write := fun S => Ok (map (fun p => mkacc (snd p) (fst p)) (enum S));
     acc_inplace := true |}.

(* tuple(max(e, 0) for e in d) and tuple(max(-e, 0) for e in d) *)
Definition vpos (d : vec) : vec := map (fun e => Z.max e 0) d.
Definition vneg_pos (d : vec) : vec := map (fun e => Z.max (- e) 0) d.

(* fieldaccess.py:160-169 *)
Definition esotwist_even : accessor :=
  {| acc_read := fun S => Ok (map (fun p => mkacc (vneg_pos (snd p)) (fst p)) (enum S));
     acc_write := fun S => mapM (fun d => rbind (st_inverse_index S d) (fun k =>
                    Ok (mkacc (vpos d) k))) S;
     acc_inplace := true |}.

(* fieldaccess.py:172-181 *)
Definition esotwist_odd : accessor :=
  {| acc_read := fun S => mapM (fun d => rbind (st_inverse_index S d) (fun k =>
                    Ok (mkacc (vpos (vneg d)) k))) S;
     acc_write := fun S => Ok (map (fun p => mkacc (vpos (snd p)) (fst p)) (enum S));
     acc_inplace := true |}.

(* fieldaccess.py:371-388.  For any other Q the exception is built but not raised, so the
   function returns None and the caller's [.index] raises AttributeError. *)
Definition get_lehmann_stencil (S : stencil) : option stencil :=
  match sizeQ S with
  | 9%nat => Some D2Q9_lehmann
  | 15%nat => Some D3Q15_lehmann
  | 19%nat => Some D3Q19_lehmann
  | 27%nat => Some D3Q27_lehmann
  | _ => None
  end.

(* lehmann_stencil.index(d) % 2 == 0 *)
Definition lehmann_even (S : stencil) (d : vec) : res bool :=
  match get_lehmann_stencil S with
  | None => Err AttributeError
  | Some L => rbind (st_index L d) (fun k => Ok (Nat.even k))
  end.

(* The loop shared by the eight esopull / esopush methods: [field.center] first, then for
   every i > 0 one access chosen by the parity of the position of d in the Lehmann stencil. *)
Definition eso_accesses (S : stencil)
    (f : bool -> nat -> vec -> res access) : res (list access) :=
  rbind (mapM (fun p => rbind (lehmann_even S (snd p)) (fun b => f b (fst p) (snd p)))
              (tl (enum S)))
        (fun l => Ok (mkacc (vzero (dimD S)) 0%nat :: l)).

Definition with_inv (S : stencil) (d : vec) (o : vec) : res access :=
  rbind (st_inverse_index S d) (fun k => Ok (mkacc o k)).

(* fieldaccess.py:184-214 *)
Definition esopull_even : accessor :=
  {| acc_read := fun S => eso_accesses S (fun b i d =>
       if b then Ok (mkacc (vneg d) i)
       else Ok (mkacc (vzero (dimD S)) i));
     acc_write := fun S => eso_accesses S (fun b i d =>
       if b then with_inv S d (vzero (dimD S))
       else with_inv S d d);
     acc_inplace := true |}.

(* fieldaccess.py:217-247 *)
Definition esopull_odd : accessor :=
  {| acc_read := fun S => eso_accesses S (fun b i d =>
       if b then with_inv S d (vneg d)
       else with_inv S d (vzero (dimD S)));
     acc_write := fun S => eso_accesses S (fun b i d =>
       if b then Ok (mkacc (vzero (dimD S)) i)
       else Ok (mkacc d i));
     acc_inplace := true |}.

(* fieldaccess.py:250-281 *)
Definition esopush_even : accessor :=
  {| acc_read := fun S => eso_accesses S (fun b i d =>
       if b then with_inv S d (vzero (dimD S))
       else with_inv S d (vneg d));
     acc_write := fun S => eso_accesses S (fun b i d =>
       if b then Ok (mkacc d i)
       else Ok (mkacc (vzero (dimD S)) i));
     acc_inplace := true |}.

(* fieldaccess.py:284-316 *)
Definition esopush_odd : accessor :=
  {| acc_read := fun S => eso_accesses S (fun b i d =>
       if b then Ok (mkacc (vzero (dimD S)) i)
       else Ok (mkacc (vneg d) i));
     acc_write := fun S => eso_accesses S (fun b i d =>
       if b then with_inv S d d
       else with_inv S d (vzero (dimD S)));
     acc_inplace := true |}.

(* utility.py:18-29 *)
Inductive timestep := EVEN | ODD | BOTH.
Definition ts_next (t : timestep) : timestep :=
  match t with EVEN => ODD | ODD => EVEN | BOTH => BOTH end.
Definition ts_idx (t : timestep) : nat := match t with EVEN => 0 | ODD => 1 | BOTH => 0 end.

(* utility.py:40 streaming_patterns, as a datatype plus the string conversion *)
Inductive pattern := PUSH | PULL | AA | ESOTWIST | ESOPULL | ESOPUSH.
Definition parse_pattern (s : string) : res pattern :=
  if String.eqb s "push" then Ok PUSH
  else if String.eqb s "pull" then Ok PULL
  else if String.eqb s "aa" then Ok AA
  else if String.eqb s "esotwist" then Ok ESOTWIST
  else if String.eqb s "esopull" then Ok ESOPULL
  else if String.eqb s "esopush" then Ok ESOPUSH
  else Err ValueError.

(* utility.py:61-65 (the ValueError for unknown strings is [parse_pattern]'s) *)
Definition is_inplace (p : pattern) : bool :=
  match p with AA | ESOTWIST | ESOPULL | ESOPUSH => true | PUSH | PULL => false end.

(* utility.py:42-49 *)
Definition even_accessors (p : pattern) : accessor :=
  match p with
  | PULL => stream_pull_two_fields | PUSH => stream_push_two_fields
  | AA => aa_even | ESOTWIST => esotwist_even
  | ESOPULL => esopull_even | ESOPUSH => esopush_even
  end.

(* utility.py:51-58 *)
Definition odd_accessors (p : pattern) : accessor :=
  match p with
  | PULL => stream_pull_two_fields | PUSH => stream_push_two_fields
  | AA => aa_odd | ESOTWIST => esotwist_odd
  | ESOPULL => esopull_odd | ESOPUSH => esopush_odd
  end.

(* utility.py:68-79 *)
Definition get_accessor (p : pattern) (t : timestep) : res accessor :=
  match t with
  | BOTH => if is_inplace p then Err ValueError else Ok (odd_accessors p)
  | EVEN => Ok (even_accessors p)
  | ODD => Ok (odd_accessors p)
  end.

(* utility.py:82-83 *)
Definition get_timesteps (p : pattern) : list timestep :=
  if is_inplace p then [EVEN; ODD] else [BOTH].

Definition reads_of (p : pattern) (t : timestep) (S : stencil) : res (list access) :=
  rbind (get_accessor p t) (fun a => acc_read a S).
Definition writes_of (p : pattern) (t : timestep) (S : stencil) : res (list access) :=
  rbind (get_accessor p t) (fun a => acc_write a S).
