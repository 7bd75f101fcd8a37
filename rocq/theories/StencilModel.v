(* Model of src/lbmpy/stencils.py and of the pystencils stencil helpers it uses. *)
From Coq Require Import List ZArith Bool String Arith.
Import ListNotations.
Local Open Scope Z_scope.

(* Exceptions are values.  One constructor per Python exception class that the modelled
   functions can raise. *)
Inductive exc := ValueError | KeyError | IndexError | AssertionError | AttributeError
               | NotImplementedError | TypeError | RecursionError | ImportError | PlainException
               | StopIteration | UnboundLocalError | ZeroDivisionError | RuntimeError.

Inductive res (A : Type) := Ok (a : A) | Err (e : exc).
Arguments Ok {A} a.
Arguments Err {A} e.

Definition rbind {A B} (r : res A) (f : A -> res B) : res B :=
  match r with Ok a => f a | Err e => Err e end.

(* [mapM f l]: Python list comprehension whose element expression may raise. *)
Fixpoint mapM {A B} (f : A -> res B) (l : list A) : res (list B) :=
  match l with
  | [] => Ok []
  | a :: l' => rbind (f a) (fun b => rbind (mapM f l') (fun bs => Ok (b :: bs)))
  end.

(* [enumerate] *)
Definition enum {A} (l : list A) : list (nat * A) := combine (seq 0 (List.length l)) l.

(* A lattice velocity / cell offset is a tuple of integers. *)
Definition vec := list Z.
Definition stencil := list vec.

Definition vec_eq_dec : forall a b : vec, {a = b} + {a <> b} := list_eq_dec Z.eq_dec.
Definition vec_eqb (a b : vec) : bool := if vec_eq_dec a b then true else false.

(* pystencils.stencil.inverse_direction: componentwise negation (external, trusted). *)
Definition vneg (d : vec) : vec := map Z.opp d.

(* componentwise sum of two tuples (zip) *)
Definition vadd (a b : vec) : vec := map (fun p => fst p + snd p) (combine a b).

(* tuple([0] * D) *)
Definition vzero (D : nat) : vec := repeat 0 D.

(* Python tuple.index: position of the first equal element, ValueError if absent.
   Used by stencils.py:78 and 83. *)
Fixpoint index_of (d : vec) (l : list vec) : option nat :=
  match l with
  | [] => None
  | e :: l' => if vec_eqb d e then Some 0%nat else option_map S (index_of d l')
  end.

(* stencils.py:49-55  D and Q *)
Definition dimD (S : stencil) : nat := List.length (nth 0 S []).
Definition sizeQ (S : stencil) : nat := List.length S.

(* stencils.py:76-78  LBStencil.index: assertion on the length, then tuple.index *)
Definition st_index (S : stencil) (d : vec) : res nat :=
  if Nat.eqb (List.length d) (dimD S)
  then match index_of d S with Some i => Ok i | None => Err ValueError end
  else Err AssertionError.

(* stencils.py:80-83  LBStencil.inverse_index *)
Definition st_inverse_index (S : stencil) (d : vec) : res nat :=
  if Nat.eqb (List.length d) (dimD S)
  then match index_of (vneg d) S with Some i => Ok i | None => Err ValueError end
  else Err AssertionError.

(* pystencils.stencil.is_valid (external, trusted): all entries have the same length. *)
Definition same_lengths (S : stencil) : bool :=
  forallb (fun d => Nat.eqb (List.length d) (dimD S)) S.

Fixpoint has_dup (l : list vec) : bool :=
  match l with
  | [] => false
  | a :: l' => existsb (vec_eqb a) l' || has_dup l'
  end.

(* An LBStencil object: entries and ordering (None for tuple stencils). *)
Record lbstencil := { entries : stencil; ordering : option string }.

(* stencils.py:24-47 for the tuple case (ordering := None; validity and duplicate checks).
   stencils.py:46 indexes entry 0, so the empty tuple raises IndexError. *)
Definition lbstencil_of_tuple (S : stencil) : res lbstencil :=
  if negb (same_lengths S) then Err ValueError
  else if has_dup S then Err ValueError
  else match S with
       | [] => Err IndexError
       | _ => Ok {| entries := S; ordering := None |}
       end.

(* stencils.py:133 *)
Definition D2Q9_walberla : stencil :=
  [[0; 0]; [0; 1]; [0; (-1)]; [(-1); 0]; [1; 0]; [(-1); 1];
   [1; 1]; [(-1); (-1)]; [1; (-1)]].

(* stencils.py:136 *)
Definition D2Q9_counterclockwise : stencil :=
  [[0; 0]; [1; 0]; [0; 1]; [(-1); 0]; [0; (-1)]; [1; 1];
   [(-1); 1]; [(-1); (-1)]; [1; (-1)]].

(* stencils.py:139 *)
Definition D2Q9_braunschweig : stencil :=
  [[0; 0]; [(-1); 1]; [(-1); 0]; [(-1); (-1)]; [0; (-1)]; [1; (-1)];
   [1; 0]; [1; 1]; [0; 1]].

(* stencils.py:142 *)
Definition D2Q9_uk : stencil :=
  [[0; 0]; [1; 0]; [(-1); 0]; [0; 1]; [0; (-1)]; [1; 1];
   [(-1); (-1)]; [(-1); 1]; [1; (-1)]].

(* stencils.py:146 *)
Definition D2Q9_lehmann : stencil :=
  [[0; 0]; [1; 0]; [(-1); 0]; [0; 1]; [0; (-1)]; [1; 1];
   [(-1); (-1)]; [1; (-1)]; [(-1); 1]].

(* stencils.py:152 *)
Definition D2V17_walberla : stencil :=
  [[0; 0]; [0; (-1)]; [(-1); 0]; [1; 0]; [0; 1]; [(-1); (-1)];
   [1; (-1)]; [(-1); 1]; [1; 1]; [(-2); (-2)]; [2; (-2)]; [(-2); 2];
   [2; 2]; [0; (-3)]; [(-3); 0]; [3; 0]; [0; 3]].

(* stencils.py:158 *)
Definition D2V37_walberla : stencil :=
  [[0; 0]; [0; (-1)]; [(-1); 0]; [1; 0]; [0; 1]; [(-1); (-1)];
   [1; (-1)]; [(-1); 1]; [1; 1]; [0; (-2)]; [(-2); 0]; [2; 0];
   [0; 2]; [(-1); (-2)]; [1; (-2)]; [(-2); (-1)]; [2; (-1)]; [(-2); 1];
   [2; 1]; [(-1); 2]; [1; 2]; [(-2); (-2)]; [2; (-2)]; [(-2); 2];
   [2; 2]; [0; (-3)]; [(-3); 0]; [3; 0]; [0; 3]; [(-1); (-3)];
   [1; (-3)]; [(-3); (-1)]; [3; (-1)]; [(-3); 1]; [3; 1]; [(-1); 3];
   [1; 3]].

(* stencils.py:168 *)
Definition D3Q7_walberla : stencil :=
  [[0; 0; 0]; [0; 1; 0]; [0; (-1); 0]; [(-1); 0; 0]; [1; 0; 0]; [0; 0; 1];
   [0; 0; (-1)]].

(* stencils.py:175 *)
Definition D3Q15_walberla : stencil :=
  [[0; 0; 0]; [0; 1; 0]; [0; (-1); 0]; [(-1); 0; 0]; [1; 0; 0]; [0; 0; 1];
   [0; 0; (-1)]; [1; 1; 1]; [(-1); 1; 1]; [1; (-1); 1]; [(-1); (-1); 1]; [1; 1; (-1)];
   [(-1); 1; (-1)]; [1; (-1); (-1)]; [(-1); (-1); (-1)]].

(* stencils.py:180 *)
Definition D3Q15_premnath : stencil :=
  [[0; 0; 0]; [1; 0; 0]; [(-1); 0; 0]; [0; 1; 0]; [0; (-1); 0]; [0; 0; 1];
   [0; 0; (-1)]; [1; 1; 1]; [(-1); 1; 1]; [1; (-1); 1]; [(-1); (-1); 1]; [1; 1; (-1)];
   [(-1); 1; (-1)]; [1; (-1); (-1)]; [(-1); (-1); (-1)]].

(* stencils.py:184 *)
Definition D3Q15_lehmann : stencil :=
  [[0; 0; 0]; [1; 0; 0]; [(-1); 0; 0]; [0; 1; 0]; [0; (-1); 0]; [0; 0; 1];
   [0; 0; (-1)]; [1; 1; 1]; [(-1); (-1); (-1)]; [1; 1; (-1)]; [(-1); (-1); 1]; [1; (-1); 1];
   [(-1); 1; (-1)]; [(-1); 1; 1]; [1; (-1); (-1)]].

(* stencils.py:188 *)
Definition D3Q15_fakhari : stencil :=
  [[0; 0; 0]; [1; 0; 0]; [(-1); 0; 0]; [0; 1; 0]; [0; (-1); 0]; [0; 0; 1];
   [0; 0; (-1)]; [1; 1; 1]; [(-1); (-1); (-1)]; [(-1); 1; 1]; [1; (-1); (-1)]; [1; (-1); 1];
   [(-1); 1; (-1)]; [1; 1; (-1)]; [(-1); (-1); 1]].

(* stencils.py:194 *)
Definition D3Q19_walberla : stencil :=
  [[0; 0; 0]; [0; 1; 0]; [0; (-1); 0]; [(-1); 0; 0]; [1; 0; 0]; [0; 0; 1];
   [0; 0; (-1)]; [(-1); 1; 0]; [1; 1; 0]; [(-1); (-1); 0]; [1; (-1); 0]; [0; 1; 1];
   [0; (-1); 1]; [(-1); 0; 1]; [1; 0; 1]; [0; 1; (-1)]; [0; (-1); (-1)]; [(-1); 0; (-1)];
   [1; 0; (-1)]].

(* stencils.py:199 *)
Definition D3Q19_counterclockwise : stencil :=
  [[0; 0; 0]; [1; 0; 0]; [(-1); 0; 0]; [0; 1; 0]; [0; (-1); 0]; [0; 0; 1];
   [0; 0; (-1)]; [1; 1; 0]; [(-1); (-1); 0]; [1; 0; 1]; [(-1); 0; (-1)]; [0; 1; 1];
   [0; (-1); (-1)]; [1; (-1); 0]; [(-1); 1; 0]; [1; 0; (-1)]; [(-1); 0; 1]; [0; 1; (-1)];
   [0; (-1); 1]].

(* stencils.py:204 *)
Definition D3Q19_braunschweig : stencil :=
  [[0; 0; 0]; [1; 0; 0]; [(-1); 0; 0]; [0; 1; 0]; [0; (-1); 0]; [0; 0; 1];
   [0; 0; (-1)]; [1; 1; 0]; [(-1); (-1); 0]; [1; (-1); 0]; [(-1); 1; 0]; [1; 0; 1];
   [(-1); 0; (-1)]; [1; 0; (-1)]; [(-1); 0; 1]; [0; 1; 1]; [0; (-1); (-1)]; [0; 1; (-1)];
   [0; (-1); 1]].

(* stencils.py:209 *)
Definition D3Q19_premnath : stencil :=
  [[0; 0; 0]; [1; 0; 0]; [(-1); 0; 0]; [0; 1; 0]; [0; (-1); 0]; [0; 0; 1];
   [0; 0; (-1)]; [1; 1; 0]; [(-1); 1; 0]; [1; (-1); 0]; [(-1); (-1); 0]; [1; 0; 1];
   [(-1); 0; 1]; [1; 0; (-1)]; [(-1); 0; (-1)]; [0; 1; 1]; [0; (-1); 1]; [0; 1; (-1)];
   [0; (-1); (-1)]].

(* stencils.py:214 *)
Definition D3Q19_lehmann : stencil :=
  [[0; 0; 0]; [1; 0; 0]; [(-1); 0; 0]; [0; 1; 0]; [0; (-1); 0]; [0; 0; 1];
   [0; 0; (-1)]; [1; 1; 0]; [(-1); (-1); 0]; [1; 0; 1]; [(-1); 0; (-1)]; [0; 1; 1];
   [0; (-1); (-1)]; [1; (-1); 0]; [(-1); 1; 0]; [1; 0; (-1)]; [(-1); 0; 1]; [0; 1; (-1)];
   [0; (-1); 1]].

(* stencils.py:221 *)
Definition D3Q27_walberla : stencil :=
  [[0; 0; 0]; [0; 1; 0]; [0; (-1); 0]; [(-1); 0; 0]; [1; 0; 0]; [0; 0; 1];
   [0; 0; (-1)]; [(-1); 1; 0]; [1; 1; 0]; [(-1); (-1); 0]; [1; (-1); 0]; [0; 1; 1];
   [0; (-1); 1]; [(-1); 0; 1]; [1; 0; 1]; [0; 1; (-1)]; [0; (-1); (-1)]; [(-1); 0; (-1)];
   [1; 0; (-1)]; [1; 1; 1]; [(-1); 1; 1]; [1; (-1); 1]; [(-1); (-1); 1]; [1; 1; (-1)];
   [(-1); 1; (-1)]; [1; (-1); (-1)]; [(-1); (-1); (-1)]].

(* stencils.py:228 *)
Definition D3Q27_premnath : stencil :=
  [[0; 0; 0]; [1; 0; 0]; [(-1); 0; 0]; [0; 1; 0]; [0; (-1); 0]; [0; 0; 1];
   [0; 0; (-1)]; [1; 1; 0]; [(-1); 1; 0]; [1; (-1); 0]; [(-1); (-1); 0]; [1; 0; 1];
   [(-1); 0; 1]; [1; 0; (-1)]; [(-1); 0; (-1)]; [0; 1; 1]; [0; (-1); 1]; [0; 1; (-1)];
   [0; (-1); (-1)]; [1; 1; 1]; [(-1); 1; 1]; [1; (-1); 1]; [(-1); (-1); 1]; [1; 1; (-1)];
   [(-1); 1; (-1)]; [1; (-1); (-1)]; [(-1); (-1); (-1)]].

(* stencils.py:235 *)
Definition D3Q27_fakhari : stencil :=
  [[0; 0; 0]; [1; 0; 0]; [(-1); 0; 0]; [0; 1; 0]; [0; (-1); 0]; [0; 0; 1];
   [0; 0; (-1)]; [1; 1; 1]; [(-1); 1; 1]; [1; (-1); 1]; [(-1); (-1); 1]; [1; 1; (-1)];
   [(-1); 1; (-1)]; [1; (-1); (-1)]; [(-1); (-1); (-1)]; [1; 1; 0]; [(-1); 1; 0]; [1; (-1); 0];
   [(-1); (-1); 0]; [1; 0; 1]; [(-1); 0; 1]; [1; 0; (-1)]; [(-1); 0; (-1)]; [0; 1; 1];
   [0; (-1); 1]; [0; 1; (-1)]; [0; (-1); (-1)]].

(* stencils.py:242 *)
Definition D3Q27_lehmann : stencil :=
  [[0; 0; 0]; [1; 0; 0]; [(-1); 0; 0]; [0; 1; 0]; [0; (-1); 0]; [0; 0; 1];
   [0; 0; (-1)]; [1; 1; 0]; [(-1); (-1); 0]; [1; 0; 1]; [(-1); 0; (-1)]; [0; 1; 1];
   [0; (-1); (-1)]; [1; (-1); 0]; [(-1); 1; 0]; [1; 0; (-1)]; [(-1); 0; 1]; [0; 1; (-1)];
   [0; (-1); 1]; [1; 1; 1]; [(-1); (-1); (-1)]; [1; 1; (-1)]; [(-1); (-1); 1]; [1; (-1); 1];
   [(-1); 1; (-1)]; [(-1); 1; 1]; [1; (-1); (-1)]].

(* stencils.py:249 *)
Definition D3Q27_braunschweig : stencil :=
  [[0; 0; 0]; [1; 0; 0]; [(-1); 0; 0]; [0; 1; 0]; [0; (-1); 0]; [0; 0; 1];
   [0; 0; (-1)]; [1; 1; 0]; [(-1); (-1); 0]; [1; (-1); 0]; [(-1); 1; 0]; [1; 0; 1];
   [(-1); 0; (-1)]; [1; 0; (-1)]; [(-1); 0; 1]; [0; 1; 1]; [0; (-1); (-1)]; [0; 1; (-1)];
   [0; (-1); 1]; [1; 1; 1]; [(-1); 1; 1]; [1; (-1); 1]; [(-1); (-1); 1]; [1; 1; (-1)];
   [(-1); 1; (-1)]; [1; (-1); (-1)]; [(-1); (-1); (-1)]].

(* stencils.py:131-257: the dictionary of predefined stencils, keyed by name and ordering *)
Definition predefined_table : list (string * string * stencil) :=
  [("D2Q9", "walberla", D2Q9_walberla);
   ("D2Q9", "counterclockwise", D2Q9_counterclockwise);
   ("D2Q9", "braunschweig", D2Q9_braunschweig);
   ("D2Q9", "uk", D2Q9_uk);
   ("D2Q9", "lehmann", D2Q9_lehmann);
   ("D2V17", "walberla", D2V17_walberla);
   ("D2V37", "walberla", D2V37_walberla);
   ("D3Q7", "walberla", D3Q7_walberla);
   ("D3Q15", "walberla", D3Q15_walberla);
   ("D3Q15", "premnath", D3Q15_premnath);
   ("D3Q15", "lehmann", D3Q15_lehmann);
   ("D3Q15", "fakhari", D3Q15_fakhari);
   ("D3Q19", "walberla", D3Q19_walberla);
   ("D3Q19", "counterclockwise", D3Q19_counterclockwise);
   ("D3Q19", "braunschweig", D3Q19_braunschweig);
   ("D3Q19", "premnath", D3Q19_premnath);
   ("D3Q19", "lehmann", D3Q19_lehmann);
   ("D3Q27", "walberla", D3Q27_walberla);
   ("D3Q27", "premnath", D3Q27_premnath);
   ("D3Q27", "fakhari", D3Q27_fakhari);
   ("D3Q27", "lehmann", D3Q27_lehmann);
   ("D3Q27", "braunschweig", D3Q27_braunschweig)]%string.

(* stencils.py:130-266 (lookup; KeyError is turned into ValueError) *)
Definition predefined_stencils (name ord : string) : res stencil :=
  match find (fun e => String.eqb (fst (fst e)) name && String.eqb (snd (fst e)) ord) predefined_table with
  | Some e => Ok (snd e)
  | None => Err ValueError
  end.

(* stencils.py:24-47 for the string / enum case *)
Definition lbstencil_of_name (name ord : string) : res lbstencil :=
  rbind (predefined_stencils name ord) (fun S =>
  if negb (same_lengths S) then Err ValueError
  else if has_dup S then Err ValueError
  else Ok {| entries := S; ordering := Some ord |}).

Definition opt_string_eqb (a b : option string) : bool :=
  match a, b with
  | None, None => true
  | Some x, Some y => String.eqb x y
  | _, _ => false
  end.

(* pystencils.stencil.have_same_entries (external, trusted): equal lengths and
   no element of the first outside the second. *)
Definition have_same_entries (S1 S2 : stencil) : bool :=
  Nat.eqb (List.length S1) (List.length S2) && forallb (fun d => existsb (vec_eqb d) S2) S1.

(* stencils.py:91-92  __eq__ *)
Definition lbstencil_eq (a b : lbstencil) : bool :=
  opt_string_eqb (ordering a) (ordering b) && have_same_entries (entries a) (entries b).

(* stencils.py:100-101  __hash__ is the hash of the tuple of entries; [tuple_hash] is Python's
   tuple hash, left abstract where it is used. *)
Definition lbstencil_hash {H} (tuple_hash : stencil -> H) (a : lbstencil) : H :=
  tuple_hash (entries a).
