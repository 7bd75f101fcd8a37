(* Model of the initial concentrations of phasefield/experiments2D.py: liquid_lens_setup and create_two_drops_between_phases.
   A state gives the concentrations of each cell.  PhaseFieldStep.set_concentration (phasefieldstep.py:262-270) is modelled in terms of the
   concentrations, before they are transformed to order parameters.  Relative slices are cut off as in normalize_slice of pystencils,
   with exact numbers instead of floats.  Sizes and coordinates include the ghost layers: data_handling.iterate includes them by default. *)
From Coq Require Import List Bool Arith.
Import ListNotations.

Definition state := nat -> nat -> list nat.
(* a relative position, a number of tenths: make_slice with floats, experiments2D.py:53-55, 92-95, and normalize_slice of pystencils *)
Definition cut (tenths size : nat) : nat := tenths * size / 10.
(* one slice [start, stop) of relative positions; None: open *)
Definition in_cut (start stop : option nat) (size i : nat) : bool :=
  match start with None => true | Some s => cut s size <=? i end && match stop with None => i <? size | Some s => i <? cut s size end.

(* set_concentration on a part of the domain, phasefieldstep.py:262-270 *)
Definition set_concentration (domain : nat * nat) (sx sy : option nat * option nat) (concentration : list nat) (st : state) : state :=
  fun x y => if in_cut (fst sx) (snd sx) (fst domain) x && in_cut (fst sy) (snd sy) (snd domain) y then concentration else st x y.

(* liquid_lens_setup, experiments2D.py:53-55 *)
Definition liquid_lens_setup (domain : nat * nat) (st : state) : state :=
  let st1 := set_concentration domain (None, None) (Some 5, None) [1; 0; 0] st in
  let st2 := set_concentration domain (None, None) (None, Some 5) [0; 1; 0] st1 in
  set_concentration domain (Some 3, Some 7) (Some 3, Some 7) [0; 0; 1] st2.

(* create_two_drops_between_phases, experiments2D.py:92-95 *)
Definition create_two_drops_between_phases (domain : nat * nat) (st : state) : state :=
  let st1 := set_concentration domain (None, None) (Some 5, None) [1; 0; 0; 0] st in
  let st2 := set_concentration domain (None, None) (None, Some 5) [0; 1; 0; 0] st1 in
  let st3 := set_concentration domain (Some 2, Some 4) (Some 3, Some 7) [0; 0; 1; 0] st2 in
  set_concentration domain (Some 7, Some 8) (Some 3, Some 7) [0; 0; 0; 1] st3.
