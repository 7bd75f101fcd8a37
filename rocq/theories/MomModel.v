(* Model of the exponent-tuple part of src/lbmpy/moments.py. *)
From Coq Require Import String List ZArith Bool Arith Ascii DecimalString.
From Verif Require Import StencilModel.
Import ListNotations.

(* python's sum(tuple) *)
Definition nsum (e : list nat) : nat := fold_right Nat.add 0 e.
Definition tuple_eqb (a b : list nat) : bool := if list_eq_dec Nat.eq_dec a b then true else false.
Definition tuple_in (a : list nat) (l : list (list nat)) : bool := existsb (tuple_eqb a) l.
Definition nat_in (a : nat) (l : list nat) : bool := existsb (Nat.eqb a) l.

(* Iteration over set(elements): CPython iterates small non-negative ints in ascending order. *)
Fixpoint insert_set (a : nat) (l : list nat) : list nat :=
  match l with
  | [] => [a]
  | b :: l' => if a <? b then a :: l else if a =? b then l else b :: insert_set a l'
  end.
Definition set_of (l : list nat) : list nat := fold_right insert_set [] l.

(* list.remove: first occurrence *)
Fixpoint remove_first (a : nat) (l : list nat) : list nat :=
  match l with [] => [] | b :: l' => if a =? b then l' else b :: remove_first a l' end.

(* moments.py:778-794 __unique_permutations; recursion on the number of elements *)
Fixpoint unique_permutations_n (n : nat) (elements : list nat) : list (list nat) :=
  match n with
  | O => []
  | S n' =>
    match elements with
    | [a] => [[a]]
    | _ => flat_map (fun first => map (cons first) (unique_permutations_n n' (remove_first first elements))) (set_of elements)
    end
  end.
(* moments.py:81-83 *)
Definition moment_permutations (e : list nat) : list (list nat) := unique_permutations_n (length e) e.

(* moments.py:55-69; Counter values in order of first occurrence, the order does not matter *)
Definition counter_values (e : list nat) : list nat := map (fun a => count_occ Nat.eq_dec e a) (nodup Nat.eq_dec e).
Definition moment_multiplicity (e : list nat) : nat :=
  fold_left (fun result d => result / fact d) (counter_values e) (fact (length e)).

(* moments.py:761-775 __unique: order preserving removal of duplicates (seen = previous items) *)
Fixpoint unique_from (seen : list (list nat)) (l : list (list nat)) : list (list nat) :=
  match l with
  | [] => []
  | a :: l => if tuple_in a seen then unique_from seen l else a :: unique_from (a :: seen) l
  end.
Definition unique (l : list (list nat)) : list (list nat) := unique_from [] l.

(* moments.py:72-78; the result is a set, listed without duplicates *)
Definition pick_representative_moments (moments : list (list nat)) : list (list nat) :=
  let to_remove := flat_map (fun m => tl (moment_permutations m)) moments in
  filter (fun m => negb (tuple_in m to_remove)) (unique moments).

(* moments.py:105-110 *)
Definition extend_moments_with_permutations (l : list (list nat)) : list (list nat) := unique (flat_map moment_permutations l).

(* sorted(l, reverse=True) == l *)
Fixpoint is_descending (l : list nat) : bool :=
  match l with a :: ((b :: _) as l') => (b <=? a) && is_descending l' | _ => true end.

(* moments.py:829-845 recursive_helper: [k] positions are left, the part of current_list already filled is the prefix
   added by the callers; tuple_length 0 raises IndexError (current_list[-1]) *)
Fixpoint fixed_sum_helper (allowed : list nat) (k : nat) (total : nat) : list (list nat) :=
  match k with
  | O => []
  | 1 => if nat_in total allowed then [[total]] else []
  | S k' => flat_map (fun i => if i <=? total then map (cons i) (fixed_sum_helper allowed k' (total - i)) else []) allowed
  end.
(* moments.py:797-847; allowed_values None: range(0, tuple_sum + 1) *)
Definition fixed_sum_tuples (len : nat) (sum : nat) (allowed : option (list nat)) (ordered : bool) : res (list (list nat)) :=
  let allowed := match allowed with Some (a :: l) => a :: l | _ => seq 0 (sum + 1) end in
  if negb (nat_in 0 allowed) then Err AssertionError
  else match len with
       | O => if nat_in sum allowed then Err IndexError else Ok []
       | _ => Ok (filter (fun t => implb ordered (is_descending t)) (fixed_sum_helper allowed len sum))
       end.

(* moments.py:86-91; the two assertions on each item are part of the model *)
Definition moments_of_order (order dim : nat) (include_permutations : bool) : res (list (list nat)) :=
  rbind (fixed_sum_tuples dim order None (negb include_permutations)) (fun items =>
  if forallb (fun t => (length t =? dim) && (nsum t =? order)) items then Ok items else Err AssertionError).

(* moments.py:94-97 *)
Definition moments_up_to_order (order dim : nat) (include_permutations : bool) : res (list (list nat)) :=
  rbind (mapM (fun o => moments_of_order o dim include_permutations) (seq 0 (order + 1))) (fun ls => Ok (concat ls)).

(* itertools.product *)
Fixpoint product (ls : list (list nat)) : list (list nat) :=
  match ls with [] => [[]] | l :: ls => flat_map (fun a => map (cons a) (product ls)) l end.
(* moments.py:100-102 *)
Definition moments_up_to_component_order (order dim : nat) : list (list nat) := product (repeat (seq 0 (order + 1)) dim).
(* moments.py:113-118 *)
Definition contained_moments (e : list nat) (min_order : nat) (exclude_original : bool) : list (list nat) :=
  filter (fun t => (min_order <=? nsum t) && (negb exclude_original || negb (tuple_eqb t e)))
         (product (map (fun i => seq 0 (i + 1)) e)).

(* moments.py:217-218 (tuple case) *)
Definition is_even_tuple (e : list nat) : bool := Nat.eqb (nsum e mod 2) 0.

(* moments.py:226-238 *)
Fixpoint indices_from (i : nat) (e : list nat) : list nat :=
  match e with [] => [] | n :: e => repeat i n ++ indices_from (S i) e end.
Definition get_moment_indices (e : list nat) : list nat := indices_from 0 e.

(* result[i] += 1; IndexError outside *)
Fixpoint incr (i : nat) (l : list nat) : res (list nat) :=
  match l, i with
  | [], _ => Err IndexError
  | x :: l, O => Ok (S x :: l)
  | x :: l, S i => rbind (incr i l) (fun l => Ok (x :: l))
  end.
(* moments.py:241-245 *)
Definition get_exponent_tuple_from_indices (idx : list nat) (dim : nat) : res (list nat) :=
  fold_left (fun r i => rbind r (incr i)) idx (Ok (repeat 0 dim)).

(* moments.py:269-290 *)
Definition non_aliased_moment (e : list nat) : list nat := map (fun n => if 2 <? n then 2 - n mod 2 else n) e.

(* str(int) *)
Definition str_nat (n : nat) : string := NilEmpty.string_of_uint (Nat.to_uint n).
(* moments.py:196-197 *)
Definition statistical_quantity_symbol (name : string) (e : list nat) : string :=
  append name (append "_" (fold_right append EmptyString (map str_nat e))).

(* moments.py:187-193: dictionary order -> moments, as association list in order of first occurrence *)
Fixpoint group_insert (o : nat) (m : list nat) (d : list (nat * list (list nat))) : list (nat * list (list nat)) :=
  match d with
  | [] => [(o, [m])]
  | (o', ms) :: d => if Nat.eqb o o' then (o', ms ++ [m]) :: d else (o', ms) :: group_insert o m d
  end.
Definition sort_moments_into_groups_of_same_order (l : list (list nat)) : list (nat * list (list nat)) :=
  fold_left (fun d m => group_insert (nsum m) m d) l [].
