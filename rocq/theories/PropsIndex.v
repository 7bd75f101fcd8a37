From Coq Require Import String List ZArith Bool Arith.
From Verif Require Import StencilModel StencilProofs2 AccessModel StreamModel StreamSpec IndexModel IndexProofs.
Import ListNotations.

(* C04: whatever boundary rule is written in terms of the proxies f_out / f_in, for a direction that is
   only known at run time (or a literal one), possibly inverted, the generated access evaluates to the
   memory slot which the write (previous step) / read (next step) accessor of the pattern gives
   for that direction, shifted by the proxy's own offset. *)
Theorem C04_translation_arrays p D S t ps :
  supported p D S t ->
  (forall q n, In q ps -> px_idx q = Literal n -> n < length S) ->
  exists b subs r cn, mk_indexing p t S = Ok b /\
    substitute b ps {| req_index := []; req_offs := [] |} = Ok (subs, r) /\
    create_code_node b r = Ok cn /\ length subs = length ps /\
    forall n q i j, nth_error ps n = Some q -> i < length S ->
      (let k := match px_idx q with Literal m => m | RunTime => i end in
       if snd (px_key q) then opposite S k j else j = k) ->
      exists s lst a, nth_error subs n = Some s /\
        (match fst (px_key q) with DOut => writes_of p t S | DIn => reads_of p (ts_next t) S end) = Ok lst /\
        nth_error lst j = Some a /\
        eval_subst S cn i s = Ok (mkacc (vadd (off a) (px_shift q)) (idx a)).
Proof. exact (translation_arrays_correct p D S t ps). Qed.
Print Assumptions C04_translation_arrays.

(* non-vacuity: the AA pattern on D2Q9 *)
Example C04_hyp : supported AA 2 D2Q9_walberla EVEN.
Proof. split; [apply symmetric_b_sound; vm_compute; reflexivity|discriminate]. Qed.

(* the arrays are really used: f_in(dir) after an even AA step on D2Q9 *)
Example C04_ex :
  exists b subs r cn, mk_indexing AA EVEN D2Q9_walberla = Ok b /\
    substitute b [{| px_key := (DIn, false); px_idx := RunTime; px_shift := [0%Z; 0%Z] |}]
       {| req_index := []; req_offs := [] |} = Ok (subs, r) /\
    create_code_node b r = Ok cn /\ req_index r <> [] /\ req_offs r <> [] /\
    (exists s, subs = [s] /\ eval_subst D2Q9_walberla cn 1 s = Ok (mkacc [0%Z; (-1)%Z] 2)).
Proof.
  do 4 eexists. split; [vm_compute; reflexivity|]. split; [vm_compute; reflexivity|].
  split; [vm_compute; reflexivity|]. split; [discriminate|]. split; [discriminate|].
  eexists. split; [reflexivity|]. vm_compute. reflexivity.
Qed.
