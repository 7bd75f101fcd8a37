From Coq Require Import List Arith Bool Lia.
From Verif Require Import StepModel StepSpec StepProofs.
Import ListNotations.
Section P.
  Context {B M O : Type} (p : parts B M O).
  Lemma time_step_reference s : data_of p (time_step p s) = reference_step p (data_of p s).
  Proof.
    unfold time_step, do_stream, do_collide, do_stream_collide, do_boundary, do_sync, set_kernel_macro, kernel_macro, swap, tmp, data_of, reference_step.
    destruct s as [a b c h m d o t]; destruct c; destruct (two_kernels p), (gpu p); cbn;
      match goal with |- context[collide p ?x ?y ?z] => destruct (collide p x y z) as [[? ?] ?]
      | |- context[stream_collide p ?x ?y ?z ?w] => destruct (stream_collide p x y z w) as [[? ?] ?] end; reflexivity.
  Qed.
  Lemma iter_reference n s : data_of p (iter n (time_step p) s) = reference_steps p n (data_of p s).
  Proof.
    assert (I : forall n s, iter (Datatypes.S n) (time_step p) s = time_step p (iter n (time_step p) s)).
    { clear. induction n; intros s; auto. cbn [iter] in *. apply IHn. }
    induction n; auto. rewrite I, time_step_reference, IHn. reflexivity.
  Qed.
  (* the populations after run n *)
  Lemma run_reference n s : gpu p = false ->
    let '(cur, spare, _, o) := reference_steps p n (data_of p s) in
    get_buf (pdf (run p n s)) (run p n s) = cur /\ get_buf (tmp (run p n s)) (run p n s) = spare /\ rest (run p n s) = o /\
    macro (run p n s) = getter p o cur (snd (fst (reference_steps p n (data_of p s)))).
  Proof.
    intros G. rewrite run_run_old. unfold run_old, pre_run. rewrite G. cbv zeta.
    pose proof (iter_reference n s) as H. destruct (reference_steps p n (data_of p s)) as [[[cur spare] m] o].
    unfold data_of in H. rewrite G in H. unfold post_run. rewrite G.
    set (t := iter n (time_step p) s) in *. destruct t as [a b c h m' d o' k]. destruct c; cbn in *; injection H as <- <- <- <-; auto.
  Qed.
  Lemma run_reference_gpu n s : gpu p = true -> macro_on_gpu p = false ->
    let s0 := set_buf (pdf s) (host_pdf s) s in
    let '(cur, spare, _, o) := reference_steps p n (data_of p s0) in
    host_pdf (run p n s) = cur /\ get_buf (pdf (run p n s)) (run p n s) = cur /\ rest (run p n s) = o /\ macro (run p n s) = getter p o cur (macro s).
  Proof.
    intros G GM. rewrite run_run_old. unfold run_old, pre_run. rewrite G, GM. cbv zeta.
    pose proof (iter_reference n (set_buf (pdf s) (host_pdf s) s)) as H.
    destruct (reference_steps p n (data_of p (set_buf (pdf s) (host_pdf s) s))) as [[[cur spare] m] o].
    unfold data_of in H. rewrite G in H. unfold post_run. rewrite G.
    assert (Mc : forall k x, macro (iter k (time_step p) x) = macro x).
    { induction k; intros x; cbn; auto. rewrite IHk. clear -G.
      unfold time_step, do_stream, do_collide, do_stream_collide, do_boundary, do_sync, set_kernel_macro, kernel_macro, swap, tmp. rewrite G.
      destruct x as [a b c h m d o t]; destruct c; destruct (two_kernels p); cbn;
      match goal with |- context[collide p ?x ?y ?z] => destruct (collide p x y z) as [[? ?] ?]
      | |- context[stream_collide p ?x ?y ?z ?w] => destruct (stream_collide p x y z w) as [[? ?] ?] end; reflexivity. }
    pose proof (Mc n (set_buf (pdf s) (host_pdf s) s)) as Hm.
    assert (Em : macro (set_buf (pdf s) (host_pdf s) s) = macro s) by (destruct (pdf s); reflexivity). rewrite Em in Hm.
    set (t := iter n (time_step p) (set_buf (pdf s) (host_pdf s) s)) in *. destruct t as [a b c h m' d o' k].
    destruct c; cbn in *; injection H as <- <- <- <-; subst; auto.
  Qed.
End P.
