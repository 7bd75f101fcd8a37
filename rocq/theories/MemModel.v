(* Model of max_domain_size_info.py: which domain sizes fit into memories.
   Sizes are real numbers instead of floats. *)
From Coq Require Import String Ascii List ZArith Bool Arith Reals.
Import ListNotations.
Local Open Scope R_scope.

(* numbers to the power of 1/2 and 1/3, max_domain_size_info.py:61,68; None: a negative number, for which Python returns a complex number *)
Definition root (k : nat) (x : R) : option R :=
  if Rlt_dec x 0 then None else Some (if Req_EM_T x 0 then 0 else Rpower x (1 / INR k)).

(* square_size and cube_size, max_domain_size_info.py:47-68.  None: division by zero (or a complex number) *)
Definition edge_length (dim : nat) (memory_size : R) (pdfs array_number itemsize : nat) : option R :=
  let num_doubles := memory_size / INR itemsize in
  if Nat.eqb itemsize 0 then None else if Nat.eqb (pdfs * array_number) 0 then None else
  let cells := num_doubles / INR (pdfs * array_number) in
  root dim cells.
Definition square_size := edge_length 2.
Definition cube_size := edge_length 3.

(* str.lower and str.strip (ASCII strings; white space is the blank, tab and line breaks), max_domain_size_info.py:74 *)
Definition lower_char (c : ascii) : ascii := let n := nat_of_ascii c in if (65 <=? n)%nat && (n <=? 90)%nat then ascii_of_nat (n + 32) else c.
Definition is_space (c : ascii) : bool := let n := nat_of_ascii c in (n =? 32)%nat || ((9 <=? n)%nat && (n <=? 13)%nat).
Fixpoint drop_spaces (l : list ascii) : list ascii := match l with c :: l' => if is_space c then drop_spaces l' else l | [] => [] end.
Definition strip (l : list ascii) : list ascii := rev (drop_spaces (rev (drop_spaces l))).

(* float(m[:-2]), max_domain_size_info.py:83.  Simplification: signs, exponents, underscores, inf and nan are not modelled, they count as errors here.
   Digits with at most one point and at least one digit; white space around is ignored. *)
Definition digit (c : ascii) : option nat := let n := nat_of_ascii c in if (48 <=? n)%nat && (n <=? 57)%nat then Some (n - 48)%nat else None.
Fixpoint digits_value (acc : nat) (l : list ascii) : option nat :=
  match l with [] => Some acc | c :: l' => match digit c with Some d => digits_value (10 * acc + d) l' | None => None end end.
Fixpoint split_point (l : list ascii) : list ascii * option (list ascii) :=
  match l with
  | [] => ([], None)
  | c :: l' => if Ascii.eqb c "."%char then ([], Some l') else let '(a, b) := split_point l' in (c :: a, b)
  end.
Definition parse_float (l : list ascii) : option R :=
  match split_point (strip l) with
  | ([], None) => None
  | (a, None) => option_map INR (digits_value 0 a)
  | ([], Some []) => None
  | (a, Some b) =>
      match digits_value 0 a, digits_value 0 b with
      | Some x, Some y => Some (INR x + INR y / 10 ^ length b)
      | _, _ => None
      end
  end.

(* convert_memory_size, max_domain_size_info.py:71-86: an argument is a string or a number.  None: ValueError *)
Inductive memory := Text (s : string) | Bytes (n : R).
Definition factor_of (unit : list ascii) : option R :=
  match unit with
  | [k; b] => if Ascii.eqb b "b"%char then
      if Ascii.eqb k "k"%char then Some 1024 else if Ascii.eqb k "m"%char then Some (1024 ^ 2) else if Ascii.eqb k "g"%char then Some (1024 ^ 3) else None
      else None
  | _ => None
  end.
Definition convert_memory_size (m : memory) : option R :=
  match m with
  | Text s =>
      let l := strip (map lower_char (list_ascii_of_string s)) in
      match factor_of (skipn (length l - 2) l), parse_float (firstn (length l - 2) l) with
      | Some f, Some q => Some (q * f)
      | _, _ => None
      end
  | Bytes n => Some n
  end.

(* cache_domain_size_overview, max_domain_size_info.py:89-102: one row for each memory: name, size as given, the three edge lengths *)
Definition overview_row (array_number itemsize : nat) (e : string * memory) : option (string * memory * list R) :=
  match convert_memory_size (snd e) with
  | None => None
  | Some m =>
      match square_size m 9 array_number itemsize, cube_size m 19 array_number itemsize, cube_size m 27 array_number itemsize with
      | Some a, Some b, Some c => Some (fst e, snd e, [a; b; c])
      | _, _, _ => None
      end
  end.
Fixpoint cache_domain_size_overview (array_number itemsize : nat) (l : list (string * memory)) : option (list (string * memory * list R)) :=
  match l with
  | [] => Some []
  | e :: l' =>
      match overview_row array_number itemsize e, cache_domain_size_overview array_number itemsize l' with
      | Some r, Some rs => Some (r :: rs)
      | _, _ => None
      end
  end.

(* to_str of _build_table, max_domain_size_info.py:145-151: a float with one decimal, format ".1f": tenths, to the nearest.
   Simplification: of two nearest the larger one. *)
Definition printed_tenths (x : R) : Z := (up (10 * x + 1 / 2) - 1)%Z.
