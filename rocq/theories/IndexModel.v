(* Model of src/lbmpy/advanced_streaming/indexing.py (BetweenTimestepsIndexing) for run-time
   direction variables: translation arrays. *)
From Coq Require Import String List ZArith Bool Arith.
From Verif Require Import StencilModel AccessModel StreamModel.
Import ListNotations.
Local Open Scope Z_scope.

(* f_dir: 'in' or 'out'; a key (f_dir, inv) names one translation array *)
Inductive fdir := DIn | DOut.
Definition key := (fdir * bool)%type.
Definition key_eqb (a b : key) : bool :=
  match a, b with
  | (DIn, x), (DIn, y) | (DOut, x), (DOut, y) => Bool.eqb x y
  | _, _ => false
  end.

(* indexing.py:48 self._accesses *)
Record indexing := { ix_stencil : stencil; ix_out : list access; ix_in : list access }.
Definition accesses_of (b : indexing) (f : fdir) : list access :=
  match f with DIn => ix_in b | DOut => ix_out b end.

(* indexing.py:36-53 *)
Definition mk_indexing (p : pattern) (prev : timestep) (S : stencil) : res indexing :=
  rbind (between_timesteps p prev S) (fun oi =>
    Ok {| ix_stencil := S; ix_out := fst oi; ix_in := snd oi |}).

(* utility.py:94-95 *)
Definition inverse_dir_index (S : stencil) (i : nat) : res nat :=
  match nth_error S i with
  | None => Err IndexError
  | Some d => st_index S (vneg d)
  end.

Definition get_or {A} (o : option A) (e : exc) : res A := match o with Some a => Ok a | None => Err e end.

(* indexing.py:138-150 *)
Definition translated_accesses (b : indexing) (k : key) : res (list access) :=
  let accs := accesses_of b (fst k) in
  if snd k
  then rbind (mapM (inverse_dir_index (ix_stencil b)) (seq 0 (sizeQ (ix_stencil b)))) (fun invs =>
       mapM (fun j => get_or (nth_error accs j) IndexError) invs)
  else Ok accs.

Definition translated (b : indexing) (k : key) : res (list nat * list (list Z)) :=
  rbind (translated_accesses b k) (fun accs =>
  rbind (mapM (fun d => mapM (fun a => get_or (nth_error (off a) d) IndexError) accs)
              (seq 0 (dimD (ix_stencil b)))) (fun offs =>
    Ok (map idx accs, offs))).

(* indexing.py:152-163, for one key *)
Definition nat_list_eqb (a b : list nat) : bool := if list_eq_dec Nat.eq_dec a b then true else false.
Definition offs_eqb (a b : list (list Z)) : bool :=
  if list_eq_dec (list_eq_dec Z.eq_dec) a b then true else false.
Definition trivial_index (b : indexing) (k : key) : res bool :=
  rbind (translated b k) (fun io => Ok (nat_list_eqb (fst io) (seq 0 (sizeQ (ix_stencil b))))).
Definition trivial_offset (b : indexing) (k : key) : res bool :=
  rbind (translated b k) (fun io =>
    Ok (offs_eqb (snd io) (repeat (repeat 0 (sizeQ (ix_stencil b))) (dimD (ix_stencil b))))).

(* indexing.py:76-91: a symbolic slot: index and offsets either trivial or looked up in an array at
   the run-time direction *)
Inductive sym_index := IxDir | IxArray (k : key).
Inductive sym_offsets := OffZero | OffArrays (k : key).
Record symbols := { sy_index : sym_index; sy_offs : sym_offsets }.
(* the sets _required_index_arrays / _required_offset_arrays *)
Record required := { req_index : list key; req_offs : list key }.

Definition array_symbols (b : indexing) (k : key) (r : required) : res (symbols * required) :=
  rbind (trivial_index b k) (fun ti =>
  rbind (trivial_offset b k) (fun to =>
    Ok ({| sy_index := if ti then IxDir else IxArray k;
           sy_offs := if to then OffZero else OffArrays k |},
        {| req_index := if ti then req_index r else k :: req_index r;
           req_offs := if to then req_offs r else k :: req_offs r |}))).

(* indexing.py:97-132: a proxy access f_out(idx) / f_in(idx), shifted by its own offset; the index is
   the run-time direction or an integer literal, optionally wrapped in inv_dir[.].  Non-negative
   literals only (Python would wrap negative ones around). *)
Inductive pidx := RunTime | Literal (n : nat).
Record proxy := { px_key : key; px_idx : pidx; px_shift : vec }.
(* what the proxy is replaced by: a fixed access (line 127) or a symbolic one (lines 129-130) *)
Inductive subst := SubAcc (a : access) | SubSym (sv : symbols * vec).

Definition substitute_one (b : indexing) (q : proxy) (r : required) : res (subst * required) :=
  match px_idx q with
  | Literal n =>
      rbind (if snd (px_key q) then inverse_dir_index (ix_stencil b) n else Ok n) (fun j =>
      rbind (get_or (nth_error (accesses_of b (fst (px_key q))) j) IndexError) (fun a =>
        Ok (SubAcc (mkacc (vadd (off a) (px_shift q)) (idx a)), r)))
  | RunTime => rbind (array_symbols b (px_key q) r) (fun sr => Ok (SubSym (fst sr, px_shift q), snd sr))
  end.

Fixpoint substitute (b : indexing) (ps : list proxy) (r : required) : res (list subst * required) :=
  match ps with
  | [] => Ok ([], r)
  | q :: ps' => rbind (substitute_one b q r) (fun sr =>
                rbind (substitute b ps' (snd sr)) (fun lr =>
                  Ok (fst sr :: fst lr, snd lr)))
  end.

(* indexing.py:165-181: the arrays emitted into the kernel *)
Record code_node := { cn_index : list (key * list nat); cn_offs : list (key * list (list Z)) }.
Definition create_code_node (b : indexing) (r : required) : res code_node :=
  rbind (mapM (fun k => rbind (translated b k) (fun io => Ok (k, fst io))) (req_index r)) (fun is_ =>
  rbind (mapM (fun k => rbind (translated b k) (fun io => Ok (k, snd io))) (req_offs r)) (fun os =>
    Ok {| cn_index := is_; cn_offs := os |})).

(* run time: evaluation of a substituted access for direction value [i]; an undefined array or an
   out-of-bounds lookup is an error *)
Definition lookup {A} (k : key) (l : list (key * A)) : res A :=
  match find (fun e => key_eqb k (fst e)) l with Some e => Ok (snd e) | None => Err KeyError end.

Definition eval_symbols (S : stencil) (cn : code_node) (i : nat) (sv : symbols * vec) : res access :=
  rbind (match sy_index (fst sv) with
         | IxDir => Ok i
         | IxArray k => rbind (lookup k (cn_index cn)) (fun l => get_or (nth_error l i) IndexError)
         end) (fun ix =>
  rbind (match sy_offs (fst sv) with
         | OffZero => Ok (vzero (dimD S))
         | OffArrays k => rbind (lookup k (cn_offs cn)) (fun ls =>
                          mapM (fun l => get_or (nth_error l i) IndexError) ls)
         end) (fun o => Ok (mkacc (vadd o (snd sv)) ix))).

Definition eval_subst (S : stencil) (cn : code_node) (i : nat) (s : subst) : res access :=
  match s with SubAcc a => Ok a | SubSym sv => eval_symbols S cn i sv end.
