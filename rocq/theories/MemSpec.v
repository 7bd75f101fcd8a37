(* Memory needed by a domain. *)
From Coq Require Import String Ascii List ZArith Reals.
From Verif Require Import MemModel.
Import ListNotations.
Local Open Scope R_scope.

(* bytes of the arrays of a cubic domain with n cells per edge *)
Definition bytes_needed (dim pdfs array_number itemsize n : nat) : nat := n ^ dim * pdfs * array_number * itemsize.
Definition fits (dim pdfs array_number itemsize : nat) (memory : R) (n : nat) : Prop := INR (bytes_needed dim pdfs array_number itemsize n) <= memory.

(* decimal number of a non-empty list of digits *)
Fixpoint decimal (l : list nat) : nat := match l with [] => 0 | d :: l' => d * 10 ^ length l' + decimal l' end.
Definition digit_char (d : nat) : ascii := ascii_of_nat (48 + d).
Definition text_of (l : list ascii) : string := string_of_list_ascii l.
