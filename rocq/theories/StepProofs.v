From Coq Require Import List Arith Bool Lia.
From Verif Require Import StepModel.
Import ListNotations.

Section P.
  Context {B M O : Type} (p : parts B M O).
  Notation st := (state B M O).

  Lemma iter_add {A} (f : A -> A) a b x : iter (a + b) f x = iter b f (iter a f x).
  Proof. revert x. induction a; intros x; cbn; auto. Qed.
  Lemma iter_mul {A} (f g : A -> A) k n : (forall x, iter k f x = g x) -> forall x, iter (n * k) f x = iter n g x.
  Proof. intros H. induction n; intros x; cbn; auto. rewrite iter_add, H. auto. Qed.
  Lemma other_other b : other_buffer (other_buffer b) = b.
  Proof. destruct b; auto. Qed.
  Lemma get_set_pdf c b (s : st) : get_buf c (set_pdf b s) = get_buf c s.
  Proof. destruct c; reflexivity. Qed.

  (* every operation commutes with a renaming of the arrays *)
  Lemma pdf_set_buf b v (s : st) : pdf (set_buf b v s) = pdf s.
  Proof. destruct b; reflexivity. Qed.
  Lemma set_buf_rename c b v (s : st) : set_buf c v (set_pdf b s) = set_pdf b (set_buf c v s).
  Proof. destruct c; reflexivity. Qed.
  Lemma do_sync_rename c b s : do_sync p c (set_pdf b s) = set_pdf b (do_sync p c s).
  Proof. unfold do_sync. now rewrite get_set_pdf, set_buf_rename. Qed.
  Lemma do_boundary_rename c b s : do_boundary p c (set_pdf b s) = set_pdf b (do_boundary p c s).
  Proof. unfold do_boundary. now rewrite get_set_pdf, set_buf_rename. Qed.
  Lemma set_kernel_macro_rename m b s : set_kernel_macro p m (set_pdf b s) = set_pdf b (set_kernel_macro p m s).
  Proof. unfold set_kernel_macro. destruct (gpu p); reflexivity. Qed.
  Lemma do_stream_collide_rename c d b s : do_stream_collide p c d (set_pdf b s) = set_pdf b (do_stream_collide p c d s).
  Proof.
    unfold do_stream_collide, kernel_macro. rewrite !get_set_pdf. cbn [rest dev_macro macro set_pdf].
    destruct (stream_collide p _ _ _ _) as [[v m] o]. rewrite set_buf_rename, set_kernel_macro_rename. reflexivity.
  Qed.
  Lemma do_collide_rename c b s : do_collide p c (set_pdf b s) = set_pdf b (do_collide p c s).
  Proof.
    unfold do_collide, kernel_macro. rewrite !get_set_pdf. cbn [rest dev_macro macro set_pdf].
    destruct (collide p _ _ _) as [[v m] o]. rewrite set_buf_rename, set_kernel_macro_rename. reflexivity.
  Qed.
  Lemma do_stream_rename c d b s : do_stream p c d (set_pdf b s) = set_pdf b (do_stream p c d s).
  Proof. unfold do_stream. rewrite !get_set_pdf, set_buf_rename. reflexivity. Qed.
  Lemma pdf_sync c s : pdf (do_sync p c s) = pdf s.
  Proof. apply pdf_set_buf. Qed.
  Lemma pdf_boundary c s : pdf (do_boundary p c s) = pdf s.
  Proof. apply pdf_set_buf. Qed.
  Lemma pdf_stream c d s : pdf (do_stream p c d s) = pdf s.
  Proof. apply pdf_set_buf. Qed.
  Lemma pdf_kernel_macro m (s : st) : pdf (set_kernel_macro p m s) = pdf s.
  Proof. unfold set_kernel_macro. destruct (gpu p); reflexivity. Qed.
  Lemma pdf_collide c s : pdf (do_collide p c s) = pdf s.
  Proof. unfold do_collide. destruct (collide p _ _ _) as [[v m] o]. cbn. now rewrite pdf_kernel_macro, pdf_set_buf. Qed.
  Lemma pdf_stream_collide c d s : pdf (do_stream_collide p c d s) = pdf s.
  Proof. unfold do_stream_collide. destruct (stream_collide p _ _ _ _) as [[v m] o]. cbn. now rewrite pdf_kernel_macro, pdf_set_buf. Qed.
  Lemma set_pdf_twice a b (s : st) : set_pdf a (set_pdf b s) = set_pdf a s.
  Proof. reflexivity. Qed.
  Lemma set_pdf_same (s : st) : set_pdf (pdf s) s = s.
  Proof. destruct s; reflexivity. Qed.

  (* one step with the arrays b (source) and its partner, names untouched *)
  Definition raw_step (b : buffer) (s : st) : st :=
    if two_kernels p
    then do_stream p b (other_buffer b) (do_boundary p b (do_sync p b (do_collide p b s)))
    else do_stream_collide p b (other_buffer b) (do_boundary p b (do_sync p b s)).
  Lemma pdf_raw b s : pdf (raw_step b s) = pdf s.
  Proof.
    unfold raw_step. destruct (two_kernels p).
    - now rewrite pdf_stream, pdf_boundary, pdf_sync, pdf_collide.
    - now rewrite pdf_stream_collide, pdf_boundary, pdf_sync.
  Qed.
  Lemma raw_rename b c s : raw_step b (set_pdf c s) = set_pdf c (raw_step b s).
  Proof.
    unfold raw_step. destruct (two_kernels p).
    - now rewrite do_collide_rename, do_sync_rename, do_boundary_rename, do_stream_rename.
    - now rewrite do_sync_rename, do_boundary_rename, do_stream_collide_rename.
  Qed.
  Lemma time_step_raw s : time_step p s = set_pdf (other_buffer (pdf s)) (raw_step (pdf s) s).
  Proof.
    unfold time_step, raw_step, swap, tmp. destruct (two_kernels p); cbv zeta.
    - now rewrite !pdf_stream, !pdf_boundary, !pdf_sync, !pdf_collide.
    - now rewrite !pdf_stream_collide, !pdf_boundary, !pdf_sync.
  Qed.
  Lemma two_steps s : time_step p (time_step p s) = raw_step (other_buffer (pdf s)) (raw_step (pdf s) s).
  Proof.
    rewrite !time_step_raw. cbn [pdf set_pdf]. rewrite other_other, raw_rename, set_pdf_twice.
    rewrite <- (pdf_raw (pdf s) s) at 1. rewrite <- (pdf_raw (other_buffer (pdf s)) (raw_step (pdf s) s)) at 1. apply set_pdf_same.
  Qed.
  Lemma loop_two_steps (s0 s : st) : pdf s = pdf s0 ->
    do_calls p (loop_calls p 0 s0 ++ loop_calls p 1 (swap s0)) s = time_step p (time_step p s).
  Proof.
    intros E. rewrite two_steps, E. unfold loop_calls, swap, tmp. cbn [pdf set_pdf]. rewrite other_other. cbn [Nat.eqb].
    unfold raw_step, do_calls. destruct (two_kernels p); cbn [app fold_left do_call]; unfold tmp;
      rewrite ?pdf_stream, ?pdf_stream_collide, ?pdf_boundary, ?pdf_sync, ?pdf_collide, ?pdf_stream, ?pdf_stream_collide, ?pdf_boundary, ?pdf_sync, ?pdf_collide, E;
      rewrite ?other_other; reflexivity.
  Qed.
  Lemma pdf_step2 s : pdf (time_step p (time_step p s)) = pdf s.
  Proof. rewrite two_steps. now rewrite !pdf_raw. Qed.

  Lemma pdf_pre s : pdf (pre_run p s) = pdf s.
  Proof. unfold pre_run. destruct (gpu p); auto. destruct (macro_on_gpu p); cbn; now rewrite pdf_set_buf. Qed.
  Lemma get_set_same b v (s : st) : get_buf b (set_buf b v s) = v.
  Proof. destruct b; reflexivity. Qed.
  Lemma pre_idem s : pre_run p (pre_run p s) = pre_run p s.
  Proof.
    unfold pre_run. destruct (gpu p); auto. destruct (macro_on_gpu p); destruct s as [a b c h m d o t]; destruct c; reflexivity.
  Qed.
  Lemma swap_swap (s : st) : swap (swap s) = s.
  Proof. unfold swap. cbn. rewrite other_other, set_pdf_twice. apply set_pdf_same. Qed.

  Lemma run_run_old n s : run p n s = run_old p n s.
  Proof.
    unfold run, get_time_loop. cbv zeta. rewrite swap_swap. unfold time_loop_run, run_old. cbv zeta. f_equal. f_equal.
    set (s0 := pre_run p s). assert (E0 : pre_run p s0 = s0) by apply pre_idem. rewrite E0.
    assert (L : forall k x, pdf x = pdf s0 -> iter k (do_calls p (loop_calls p 0 s0 ++ loop_calls p 1 (swap s0))) x = iter (k * 2) (time_step p) x).
    { induction k; intros x Hx; auto. cbn [iter Nat.mul plus]. rewrite loop_two_steps by auto. apply IHk. now rewrite pdf_step2. }
    rewrite L by auto. rewrite <- iter_add. f_equal. rewrite (Nat.div_mod n 2) at 3 by lia. lia.
  Qed.

  (* ---------- composition ---------- *)
  (* kernels neither read density and velocity nor write what the getter would not overwrite *)
  Definition macro_independent : Prop :=
    (forall m m' o b d, fst (fst (stream_collide p m o b d)) = fst (fst (stream_collide p m' o b d)) /\ snd (stream_collide p m o b d) = snd (stream_collide p m' o b d)) /\
    (forall m m' o b, fst (fst (collide p m o b)) = fst (fst (collide p m' o b)) /\ snd (collide p m o b) = snd (collide p m' o b)).
  Definition getter_overwrites : Prop :=
    (forall o b o' b' m, getter p o b (getter p o' b' m) = getter p o b m) /\
    (forall o b m o' b' d, getter p o b (snd (fst (stream_collide p m o' b' d))) = getter p o b m) /\
    (forall o b m o' b', getter p o b (snd (fst (collide p m o' b'))) = getter p o b m).

  (* equal except for what a later getter call overwrites, and GPU copies of density and velocity *)
  Definition same_populations (s s' : st) : Prop :=
    in_A s = in_A s' /\ in_B s = in_B s' /\ pdf s = pdf s' /\ (gpu p = false -> host_pdf s = host_pdf s') /\ rest s = rest s' /\ time_steps_run s = time_steps_run s' /\
    (forall o b, getter p o b (macro s) = getter p o b (macro s')).

  Hypothesis HI : macro_independent.
  Hypothesis HG : getter_overwrites.

  Lemma same_refl s : same_populations s s.
  Proof. repeat split. Qed.
  Lemma same_trans s s' s'' : same_populations s s' -> same_populations s' s'' -> same_populations s s''.
  Proof. intros (A1 & A2 & A3 & A4 & A5 & A6 & A7) (B1 & B2 & B3 & B4 & B5 & B6 & B7). repeat split; try congruence. all: intros; try (rewrite A4 by auto; auto; fail); rewrite A7; apply B7. Qed.
  Lemma same_buf b s s' : same_populations s s' -> get_buf b s = get_buf b s'.
  Proof. intros (A1 & A2 & _). destruct b; auto. Qed.
  Lemma same_set_buf b v s s' : same_populations s s' -> same_populations (set_buf b v s) (set_buf b v s').
  Proof. intros (A1 & A2 & A3 & A4 & A5 & A6 & A7). destruct b; repeat split; auto. Qed.
  Lemma same_rest s s' : same_populations s s' -> rest s = rest s'.
  Proof. intros H; apply H. Qed.
  Lemma same_sync b s s' : same_populations s s' -> same_populations (do_sync p b s) (do_sync p b s').
  Proof. intros H. unfold do_sync. rewrite (same_buf b s s' H). now apply same_set_buf. Qed.
  Lemma same_boundary b s s' : same_populations s s' -> same_populations (do_boundary p b s) (do_boundary p b s').
  Proof. intros H. unfold do_boundary. rewrite (same_buf b s s' H), (same_rest s s' H). now apply same_set_buf. Qed.
  Lemma same_stream b d s s' : same_populations s s' -> same_populations (do_stream p b d s) (do_stream p b d s').
  Proof. intros H. unfold do_stream. rewrite (same_buf b s s' H), (same_buf d s s' H), (same_rest s s' H). now apply same_set_buf. Qed.
  Lemma same_kernel_update b v v' m m' o o' s s' : same_populations s s' -> v = v' -> o = o' ->
    (forall q c, getter p q c m = getter p q c (kernel_macro p s)) -> (forall q c, getter p q c m' = getter p q c (kernel_macro p s')) ->
    same_populations (set_rest o (set_kernel_macro p m (set_buf b v s))) (set_rest o' (set_kernel_macro p m' (set_buf b v' s'))).
  Proof.
    intros (A1 & A2 & A3 & A4 & A5 & A6 & A7) -> -> Hm Hm'. unfold set_kernel_macro, kernel_macro in *.
    destruct (gpu p) eqn:Eg; destruct b; repeat split; auto; cbn; intros; try rewrite Hm, Hm'; auto; congruence.
  Qed.
  Lemma same_collide b s s' : same_populations s s' -> same_populations (do_collide p b s) (do_collide p b s').
  Proof.
    intros H. unfold do_collide. destruct HI as (_ & HI2). destruct HG as (_ & _ & HG3).
    pose proof (HI2 (kernel_macro p s) (kernel_macro p s') (rest s') (get_buf b s')) as (E1 & E2).
    rewrite (same_buf b s s' H), (same_rest s s' H).
    pose proof (fun q c => HG3 q c (kernel_macro p s) (rest s') (get_buf b s')) as G1.
    pose proof (fun q c => HG3 q c (kernel_macro p s') (rest s') (get_buf b s')) as G2.
    destruct (collide p (kernel_macro p s) (rest s') (get_buf b s')) as [[v m] o].
    destruct (collide p (kernel_macro p s') (rest s') (get_buf b s')) as [[v' m'] o']. cbn [fst snd] in *. now apply same_kernel_update.
  Qed.
  Lemma same_stream_collide b d s s' : same_populations s s' -> same_populations (do_stream_collide p b d s) (do_stream_collide p b d s').
  Proof.
    intros H. unfold do_stream_collide. destruct HI as (HI1 & _). destruct HG as (_ & HG2 & _).
    pose proof (HI1 (kernel_macro p s) (kernel_macro p s') (rest s') (get_buf b s') (get_buf d s')) as (E1 & E2).
    rewrite (same_buf b s s' H), (same_buf d s s' H), (same_rest s s' H).
    pose proof (fun q c => HG2 q c (kernel_macro p s) (rest s') (get_buf b s') (get_buf d s')) as G1.
    pose proof (fun q c => HG2 q c (kernel_macro p s') (rest s') (get_buf b s') (get_buf d s')) as G2.
    destruct (stream_collide p (kernel_macro p s) (rest s') (get_buf b s') (get_buf d s')) as [[v m] o].
    destruct (stream_collide p (kernel_macro p s') (rest s') (get_buf b s') (get_buf d s')) as [[v' m'] o']. cbn [fst snd] in *. now apply same_kernel_update.
  Qed.
  Lemma same_step s s' : same_populations s s' -> same_populations (time_step p s) (time_step p s').
  Proof.
    intros H. rewrite !time_step_raw. assert (E : pdf s = pdf s') by apply H. rewrite E.
    assert (R : same_populations (raw_step (pdf s') s) (raw_step (pdf s') s')).
    { unfold raw_step. destruct (two_kernels p).
      - now apply same_stream, same_boundary, same_sync, same_collide.
      - now apply same_stream_collide, same_boundary, same_sync. }
    destruct R as (A1 & A2 & A3 & A4 & A5 & A6 & A7). repeat split; auto.
  Qed.
  Lemma same_steps n s s' : same_populations s s' -> same_populations (iter n (time_step p) s) (iter n (time_step p) s').
  Proof. revert s s'. induction n; intros s s' H; cbn; auto. apply IHn. now apply same_step. Qed.
  (* what an observer sees afterwards: everything but the GPU copies of density and velocity *)
  Definition same_fields (s s' : st) : Prop :=
    in_A s = in_A s' /\ in_B s = in_B s' /\ pdf s = pdf s' /\ host_pdf s = host_pdf s' /\ macro s = macro s' /\ rest s = rest s' /\ time_steps_run s = time_steps_run s'.
  Lemma same_post s s' : same_populations s s' -> same_fields (post_run p s) (post_run p s').
  Proof.
    intros H. unfold post_run. pose proof H as (A1 & A2 & A3 & A4 & A5 & A6 & A7). rewrite A3, A5, (same_buf _ s s' H).
    destruct (gpu p); repeat split; cbn; auto. all: rewrite ?A5, ?(same_buf _ s s' H); auto.
  Qed.
  Lemma add_steps_steps k n s : iter n (time_step p) (add_steps k s) = add_steps k (iter n (time_step p) s).
  Proof.
    revert s. induction n; intros s; cbn [iter]; auto. rewrite <- IHn. f_equal.
    unfold time_step, do_stream, do_collide, do_stream_collide, do_boundary, do_sync, set_kernel_macro, kernel_macro, swap, tmp.
    destruct s as [a b c h m d o t]; destruct c; destruct (two_kernels p), (gpu p); cbn;
      match goal with |- context[collide p ?x ?y ?z] => destruct (collide p x y z) as [[? ?] ?]
      | |- context[stream_collide p ?x ?y ?z ?w] => destruct (stream_collide p x y z w) as [[? ?] ?] end; reflexivity.
  Qed.
  Lemma pre_add k s : pre_run p (add_steps k s) = add_steps k (pre_run p s).
  Proof. unfold pre_run. destruct (gpu p); auto. destruct s as [a b c h m d o t]; destruct c, (macro_on_gpu p); reflexivity. Qed.
  Lemma post_add k s : post_run p (add_steps k s) = add_steps k (post_run p s).
  Proof. unfold post_run. destruct (gpu p); destruct s as [a b c h m d o t]; destruct c; reflexivity. Qed.
  (* pre_run after post_run uploads what was just downloaded *)
  Lemma pre_post s : same_populations (pre_run p (post_run p s)) s.
  Proof.
    unfold pre_run, post_run. destruct HG as (G1 & _). destruct (gpu p) eqn:Eg.
    - destruct s as [a b c h m d o t]; destruct c, (macro_on_gpu p); repeat split; cbn; auto; congruence.
    - destruct s as [a b c h m d o t]; destruct c; repeat split; cbn; auto.
  Qed.
  Lemma same_add k s s' : same_populations s s' -> same_populations (add_steps k s) (add_steps k s').
  Proof. intros (A1 & A2 & A3 & A4 & A5 & A6 & A7). repeat split; cbn; auto. Qed.
  Lemma add_add a b (s : st) : add_steps a (add_steps b s) = add_steps (b + a) s.
  Proof. unfold add_steps. cbn. f_equal. lia. Qed.
  Lemma run_compose a b s : same_fields (run p b (run p a s)) (run p (a + b) s).
  Proof.
    rewrite !run_run_old. unfold run_old. cbv zeta. rewrite pre_add, add_steps_steps, post_add, add_add.
    rewrite iter_add. set (t := iter a (time_step p) (pre_run p s)).
    pose proof (same_post _ _ (same_steps b _ _ (pre_post t))) as (A1 & A2 & A3 & A4 & A5 & A6 & A7).
    repeat split; auto. cbn. now rewrite A7.
  Qed.
  Lemma same_fields_refl s : same_fields s s.
  Proof. repeat split. Qed.
  Lemma same_fields_trans s s' s'' : same_fields s s' -> same_fields s' s'' -> same_fields s s''.
  Proof. intros (A1 & A2 & A3 & A4 & A5 & A6 & A7) (B1 & B2 & B3 & B4 & B5 & B6 & B7). repeat split; congruence. Qed.
  Lemma same_fields_populations s s' : same_fields s s' -> same_populations s s'.
  Proof. intros (A1 & A2 & A3 & A4 & A5 & A6 & A7). repeat split; auto. intros. now rewrite A5. Qed.
  Lemma same_pre s s' : same_fields s s' -> same_populations (pre_run p s) (pre_run p s').
  Proof.
    intros (A1 & A2 & A3 & A4 & A5 & A6 & A7). unfold pre_run. destruct s as [a b c h m d o t], s' as [a' b' c' h' m' d' o' t']. cbn in *. subst.
    destruct (gpu p); destruct c', (macro_on_gpu p); repeat split.
  Qed.
  Lemma run_same n s s' : same_fields s s' -> same_fields (run p n s) (run p n s').
  Proof.
    intros H. rewrite !run_run_old. unfold run_old. cbv zeta.
    destruct (same_post _ _ (same_steps n _ _ (same_pre s s' H))) as (A1 & A2 & A3 & A4 & A5 & A6 & A7). repeat split; auto. cbn. now rewrite A7.
  Qed.
  Lemma run_history n ns s : same_fields (fold_left (fun s k => run p k s) ns (run p n s)) (run p (n + list_sum ns) s).
  Proof.
    revert n s. induction ns as [|k ns IH]; intros n s; cbn [fold_left list_sum fold_right].
    - rewrite Nat.add_0_r. apply same_fields_refl.
    - assert (F : forall l x y, same_fields x y -> same_fields (fold_left (fun s k => run p k s) l x) (fold_left (fun s k => run p k s) l y)).
      { induction l as [|q l IHl]; intros x y H; cbn; auto. apply IHl. now apply run_same. }
      eapply same_fields_trans; [apply F, run_compose|]. rewrite Nat.add_assoc. apply IH.
  Qed.
  Lemma steps_time_step s : time_steps_run (time_step p s) = time_steps_run s.
  Proof.
    unfold time_step, do_stream, do_collide, do_stream_collide, do_boundary, do_sync, set_kernel_macro, kernel_macro, swap, tmp.
    destruct s as [a b c h m d o t]; destruct c; destruct (two_kernels p), (gpu p); cbn;
      match goal with |- context[collide p ?x ?y ?z] => destruct (collide p x y z) as [[? ?] ?]
      | |- context[stream_collide p ?x ?y ?z ?w] => destruct (stream_collide p x y z w) as [[? ?] ?] end; reflexivity.
  Qed.
  Lemma run_counts n s : time_steps_run (run p n s) = time_steps_run s + n.
  Proof.
    clear HI HG. rewrite run_run_old. unfold run_old. cbn. f_equal.
    assert (P : forall x, time_steps_run (post_run p x) = time_steps_run x) by (intros x; unfold post_run; destruct (gpu p); reflexivity).
    rewrite P. assert (I : forall k x, time_steps_run (iter k (time_step p) x) = time_steps_run x).
    { induction k; intros x; cbn; auto. now rewrite IHk, steps_time_step. }
    rewrite I. unfold pre_run. destruct (gpu p); auto. destruct s as [a b c h m d o t]; destruct c, (macro_on_gpu p); reflexivity.
  Qed.
End P.
