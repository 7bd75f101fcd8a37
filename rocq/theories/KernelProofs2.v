From Coq Require Import List ZArith Bool Arith Lia.
From Verif Require Import StencilModel StencilProofs AccessModel StreamModel StreamSpec StreamProofs KernelModel KernelSpec KernelProofs.
Import ListNotations.

Section B.
  Context {L : lattice} {V : Type} {Op : Type} (sem : Op -> V -> V -> V).
  Notation mem := (mem L V).
  Notation heap := (heap L V).
  Notation load := (load L V).
  Notation store := (store L V).
  Notation exec := (exec (L := L) sem).
  Notation eval := (eval (L := L) sem).

  (* two runs agree wherever they agreed before, if all reads are in agreement *)
  Lemma exec_cong x (l : list (asg V Op)) (R : nat -> cell L -> nat -> Prop) :
    (forall s e g a, In (s, e) l -> In (Acc g a) (symbols e) -> R g (shift x (off a)) (idx a)) ->
    forall st st', (forall s, fst st s = fst st' s) -> (forall g c k, R g c k -> snd st g c k = snd st' g c k) ->
    (forall s, fst (exec x l st) s = fst (exec x l st') s) /\ (forall g c k, R g c k -> snd (exec x l st) g c k = snd (exec x l st') g c k).
  Proof.
    induction l as [|[s e] l IH]; intros Hr st st' He Hh; [split; auto|]. cbn [KernelModel.exec fold_left].
    apply IH; [intros s1 e1 g1 a1 Hi; apply (Hr s1 e1 g1 a1); now right| |]; unfold exec1; cbn [fst snd].
    all: assert (E : eval x st e = eval x st' e).
    1, 3: assert (X : forall t, In t (symbols e) -> lookup x st t = lookup x st' t);
      [intros t Ht; destruct t as [| | | |g0 a0|]; cbn; auto; apply Hh; apply (Hr s e g0 a0); [now left|auto]|];
      clear - X; induction e as [t|v|o a IHa b IHb]; cbn in *; [apply X; now left|reflexivity|f_equal; [apply IHa|apply IHb]; intros; apply X; rewrite in_app_iff; auto].
    - intros t. rewrite E. destruct s; cbn [fst]; auto; unfold set_env; destruct (name_eq_dec _ _); auto.
    - intros g c k HR. rewrite E. destruct s as [| | | |g' a|]; cbn [snd]; auto.
      unfold set_heap. destruct (Nat.eqb_spec g g') as [->|]; auto. unfold upd. destruct (cell_eq_dec _ _); auto. destruct (Nat.eqb _ _); auto.
  Qed.
  Lemma exec_heap_only x (l : list (asg V Op)) g c k : (forall a e, In (Acc g a, e) l -> slot x a <> (c, k)) ->
    forall st, snd (exec x l st) g c k = snd st g c k.
  Proof.
    induction l as [|[s e] l IH]; intros H st; auto. cbn [KernelModel.exec fold_left].
    change (snd (exec x l (exec1 sem x st (s, e))) g c k = snd st g c k).
    rewrite IH by (intros a e' Ha; eapply H; right; eauto). destruct s as [| | | |g' a|]; cbn [exec1 fst snd]; auto.
    unfold exec1, set_heap. cbn [fst snd]. destruct (Nat.eqb_spec g g') as [->|]; auto. apply upd_other. apply (H a e). now left.
  Qed.

  (* ---------- a loop over cells ---------- *)
  Section Loop.
    Context (step : cell L -> heap -> heap) (ok : heap -> Prop) (src dst : nat) (rs ws : list access) (F : cell L -> list V -> list V) (written : nat -> Prop).
    Hypothesis Hok : forall x h, ok h -> ok (step x h).
    Hypothesis Hdst : forall x h, ok h -> forall c k, step x h dst c k = store (h dst) x ws (F x (load (h src) x rs)) c k.
    Hypothesis Hother : forall x h g, ok h -> g <> dst -> ~ written g -> forall c k, step x h g c k = h g c k.
    Hypothesis Hcenter : forall x h g c k, ok h -> g <> dst -> c <> x -> step x h g c k = h g c k.
    Hypothesis Hlocal : forall x h h' g k, ok h -> ok h' -> g <> dst -> h g x k = h' g x k -> load (h src) x rs = load (h' src) x rs -> step x h g x k = step x h' g x k.
    Hypothesis Hsrc : src <> dst -> ~ written src.
    Hypothesis Hexcl : src = dst -> forall (x y : cell L) a b, In a rs -> In b ws -> slot x a = slot y b -> x = y.

    Lemma loop_ok xs h : ok h -> ok (fold_left (fun h x => step x h) xs h).
    Proof. revert h. induction xs; cbn; auto. Qed.
    Lemma loop_dst_two xs h : ok h -> src <> dst -> forall c k, fold_left (fun h x => step x h) xs h dst c k =
      fold_left (fun m x => store m x ws (F x (load (h src) x rs))) xs (h dst) c k.
    Proof.
      intros H N. assert (G : forall h0 m, ok h0 -> (forall c k, h0 src c k = h src c k) -> (forall c k, h0 dst c k = m c k) ->
        forall c k, fold_left (fun h x => step x h) xs h0 dst c k = fold_left (fun m x => store m x ws (F x (load (h src) x rs))) xs m c k); [|apply G; auto].
      clear H. induction xs as [|x xs IH]; intros h0 m O E1 E2 c k; cbn; auto. apply IH; auto.
      - intros c' k'. rewrite Hother; auto.
      - intros c' k'. rewrite Hdst by auto. rewrite (load_ext (h0 src) (h src)) by auto. apply store_ext. auto.
    Qed.
    Lemma loop_dst_inplace xs h : ok h -> src = dst -> forall c k, fold_left (fun h x => step x h) xs h dst c k =
      fold_left (fun m x => store m x ws (F x (load m x rs))) xs (h dst) c k.
    Proof.
      intros H N. assert (G : forall h0 m, ok h0 -> (forall c k, h0 dst c k = m c k) ->
        forall c k, fold_left (fun h x => step x h) xs h0 dst c k = fold_left (fun m x => store m x ws (F x (load m x rs))) xs m c k); [|apply G; auto].
      clear H. induction xs as [|x xs IH]; intros h0 m O E c k; cbn; auto. apply IH; auto.
      intros c' k'. rewrite Hdst by auto. rewrite N. rewrite (load_ext (h0 dst) m) by auto. apply store_ext. auto.
    Qed.
    Lemma loop_other xs h g : ok h -> g <> dst -> ~ written g -> forall c k, fold_left (fun h x => step x h) xs h g c k = h g c k.
    Proof. intros O N W c k. revert h O. induction xs as [|x xs IH]; intros h O; cbn; auto. rewrite IH by auto. auto. Qed.
    Lemma loop_outside xs h g c k : ok h -> g <> dst -> ~ In c xs -> fold_left (fun h x => step x h) xs h g c k = h g c k.
    Proof.
      intros O N. revert h O. induction xs as [|x xs IH]; intros h O Hn; cbn; auto. rewrite IH; auto; [|intros Hi; apply Hn; now right]. apply Hcenter; auto. intros ->. apply Hn. now left.
    Qed.
    Lemma loop_output xs h g x k : ok h -> g <> dst -> NoDup xs -> In x xs -> fold_left (fun h x => step x h) xs h g x k = step x h g x k.
    Proof.
      intros O N ND Hin. apply in_split in Hin. destruct Hin as (l1 & l2 & ->). rewrite fold_left_app. cbn [fold_left].
      assert (N1 : ~ In x l1) by (apply NoDup_remove_2 in ND; rewrite in_app_iff in ND; tauto).
      assert (N2 : ~ In x l2) by (apply NoDup_remove_2 in ND; rewrite in_app_iff in ND; tauto).
      rewrite loop_outside; auto; [|apply Hok, loop_ok; auto]. apply Hlocal; auto; [now apply loop_ok|now apply loop_outside|].
      (* the populations x reads are not stored to by other cells *)
      destruct (Nat.eq_dec src dst) as [E|E]; [|apply load_ext; intros c k'; apply loop_other; auto].
      unfold StreamModel.load. apply map_ext_in. intros a Ha. rewrite E. clear ND N2. revert h O. induction l1 as [|y l1 IH]; intros h O; cbn; auto.
      rewrite IH; auto; [|intros Hi; apply N1; now right]. rewrite Hdst by auto. apply store_miss. intros b Hb Es. apply N1. left.
      symmetry. apply (Hexcl E x y a b); auto.
    Qed.
  End Loop.

  Lemma run_kernel_fold params (prog : list (asg V Op)) xs h : run_kernel sem params prog xs h = fold_left (fun h x => snd (exec x prog (params, h))) xs h.
  Proof. reflexivity. Qed.

  (* ---------- the kernel of a collision rule ---------- *)
  Section Lbm.
    Context (S : stencil) (r : rule V Op) (src : nat) (dsto : option nat) (a : accessor) (ot : bool) (d : nat) (rs ws : list access) (params : env V).
    Hypothesis Hd : destination (acc_inplace a) src dsto = Ok d.
    Hypothesis Hrs : acc_read a S = Ok rs.
    Hypothesis Hws : acc_write a S = Ok ws.
    Hypothesis Lrs : length rs = length S.
    Hypothesis Lws : length ws = length S.
    Hypothesis Hslots : one_slot_each ws.
    Hypothesis HR : collision_rule (length S) src d r.
    Hypothesis Hdiff : acc_inplace a = false -> src <> d.
    Let iso := acc_inplace a || ot.

    Lemma subst_subst (f g : name -> name) (e : expr V Op) : subst f (subst g e) = subst (fun s => f (g s)) e.
    Proof. induction e; cbn; congruence. Qed.
    Lemma subst_ext (f g : name -> name) (e : expr V Op) : (forall s, f s = g s) -> subst f e = subst g e.
    Proof. intros H. induction e; cbn; congruence. Qed.
    Lemma lbm_program : exists k, create_lbm_kernel S r src dsto a ot = Ok k /\ all_asg k = cell_program r src d rs ws iso.
    Proof.
      unfold create_lbm_kernel. rewrite Hd, Hrs, Hws. cbn [rbind]. eexists. split; [reflexivity|]. unfold cell_program.
      assert (A : forall sg, all_asg (subst_rule sg r) = map (subst_asg sg) (all_asg r)) by (intros; unfold all_asg, subst_rule; cbn; now rewrite map_app).
      fold iso. destruct iso.
      - assert (B : forall q : rule V Op, all_asg (isolate_reads q) = map (fun p => (Rd (fst p) (snd p), Sym (Acc (fst p) (snd p)))) (field_reads (all_asg q)) ++ map (fun a => (fst a, subst read_symbol (snd a))) (all_asg q)).
        { intros q. unfold all_asg at 1 3. unfold isolate_reads. cbn [subs mains]. now rewrite map_app, <- app_assoc. }
        rewrite B, A. f_equal. rewrite map_map. apply map_ext. intros [s e]. unfold subst_asg. cbn [fst snd]. f_equal. apply subst_subst.
      - cbn [app]. rewrite A. apply map_ext. intros [s e]. unfold subst_asg. cbn [fst snd]. f_equal.
    Qed.

    (* heaps which the rule cannot tell from h0 *)
    Definition same_inputs (h0 h : heap) : Prop := forall g, g <> src -> g <> d -> ~ writes_field r g -> forall c k, h g c k = h0 g c k.
    Definition lbm_step (x : cell L) (h : heap) : heap := snd (exec x (cell_program r src d rs ws iso) (params, h)).
    Lemma iso_diff : iso = false -> src <> d.
    Proof. unfold iso. destruct (acc_inplace a) eqn:E; [discriminate|auto]. Qed.
    Lemma lbm_step_correct x h : (forall c k, lbm_step x h d c k = store (h d) x ws (collide sem r params h (length S) x (load (h src) x rs)) c k) /\
      (forall g, g <> d -> forall c k, lbm_step x h g c k = snd (exec x (all_asg r) (with_pre params (load (h src) x rs), h)) g c k).
    Proof. apply (cell_correct sem r src d rs ws params x h iso (length S) HR Lrs Lws Hslots iso_diff). Qed.
    Lemma collide_cong h0 h x f : same_inputs h0 h -> collide sem r params h (length S) x f = collide sem r params h0 (length S) x f.
    Proof.
      intros Hs. unfold collide. apply map_ext. intros i. apply (exec_cong x (all_asg r) (fun g _ _ => g <> src /\ g <> d /\ ~ writes_field r g)).
      - intros s e g w Hin Ht. apply (proj1 (proj2 HR) s e (Acc g w) Hin Ht).
      - reflexivity.
      - cbn. intros g c k (N1 & N2 & N3). now apply Hs.
    Qed.
    Lemma step_unwritten x h g : g <> d -> ~ writes_field r g -> forall c k, lbm_step x h g c k = h g c k.
    Proof.
      intros N W c k. rewrite (proj2 (lbm_step_correct x h)) by auto. rewrite exec_heap_only; auto. intros w e Hin. exfalso. apply W. exists w, e. auto.
    Qed.
    Section Center.
      Hypothesis Hcenter : forall g w e, In (Acc g w, e) (all_asg r) -> off w = vzero (ldim L).
      Lemma step_center x h g c k : g <> d -> c <> x -> lbm_step x h g c k = h g c k.
      Proof.
        intros N Nc. rewrite (proj2 (lbm_step_correct x h)) by auto. rewrite exec_heap_only; auto. intros w e Hin E. apply Nc.
        unfold slot in E. rewrite (Hcenter g w e Hin), shift_zero in E. congruence.
      Qed.
      Lemma step_local h0 x h h' g k : same_inputs h0 h -> same_inputs h0 h' -> g <> d -> h g x k = h' g x k -> load (h src) x rs = load (h' src) x rs ->
        lbm_step x h g x k = lbm_step x h' g x k.
      Proof.
        intros S1 S2 N E El. rewrite !(proj2 (lbm_step_correct x _)) by auto. rewrite El.
        apply (exec_cong x (all_asg r) (fun g' c' k' => (g' <> src /\ g' <> d /\ ~ writes_field r g') \/ (g', c', k') = (g, x, k))).
        - intros s e g' w Hin Ht. left. apply (proj1 (proj2 HR) s e (Acc g' w) Hin Ht).
        - reflexivity.
        - cbn. intros g' c' k' [(N1 & N2 & N3)|[= -> -> ->]]; [|auto]. rewrite S1, S2; auto.
        - now right.
      Qed.
    End Center.
    Lemma same_inputs_step h0 x h : same_inputs h0 h -> same_inputs h0 (lbm_step x h).
    Proof. intros H g N1 N2 W c k. rewrite step_unwritten by auto. now apply H. Qed.

    Lemma lbm_run k : create_lbm_kernel S r src dsto a ot = Ok k -> forall xs h,
      let h' := run_kernel sem params (all_asg k) xs h in
      (forall c i, h' d c i = fold_left (fun m x => store m x ws (collide sem r params h (length S) x (load (if Nat.eqb src d then m else h src) x rs))) xs (h d) c i) /\
      (forall g, g <> d -> ~ writes_field r g -> forall c i, h' g c i = h g c i).
    Proof.
      intros Hk xs h. destruct lbm_program as (k' & Hk' & Ep). rewrite Hk in Hk'. injection Hk' as <-. cbv zeta. rewrite run_kernel_fold, Ep.
      change (fun h x => snd (exec x (cell_program r src d rs ws iso) (params, h))) with (fun h x => lbm_step x h).
      assert (D : forall x h1, same_inputs h h1 -> forall c i, lbm_step x h1 d c i = store (h1 d) x ws (collide sem r params h (length S) x (load (h1 src) x rs)) c i).
      { intros x h1 Hs c i. rewrite (proj1 (lbm_step_correct x h1)). now rewrite (collide_cong h h1). }
      assert (I : same_inputs h h) by (intros g _ _ _; auto). split.
      - intros c i. destruct (Nat.eqb_spec src d) as [E|N].
        + apply (loop_dst_inplace lbm_step (same_inputs h) src d rs ws (collide sem r params h (length S))); auto. intros; now apply same_inputs_step.
        + apply (loop_dst_two lbm_step (same_inputs h) src d rs ws (collide sem r params h (length S)) (writes_field r)); auto.
          * intros; now apply same_inputs_step.
          * intros; now apply step_unwritten.
          * intros _. apply (nowrite_src r src d (length S) HR).
      - intros g N W c i. apply (loop_other lbm_step (same_inputs h) d (writes_field r)); auto; intros; [now apply same_inputs_step|now apply step_unwritten].
    Qed.
    Lemma lbm_output k : create_lbm_kernel S r src dsto a ot = Ok k -> (forall g w e, In (Acc g w, e) (all_asg r) -> off w = vzero (ldim L)) ->
      (src = d -> forall (x y : cell L) v w, In v rs -> In w ws -> slot x v = slot y w -> x = y) ->
      forall xs h x g i, NoDup xs -> g <> d ->
      run_kernel sem params (all_asg k) xs h g x i =
      (if in_dec cell_eq_dec x xs then snd (exec x (all_asg r) (with_pre params (load (h src) x rs), h)) g x i else h g x i).
    Proof.
      intros Hk Hc Hex xs h x g i ND N. destruct lbm_program as (k' & Hk' & Ep). rewrite Hk in Hk'. injection Hk' as <-. rewrite run_kernel_fold, Ep.
      change (fun h x => snd (exec x (cell_program r src d rs ws iso) (params, h))) with (fun h x => lbm_step x h).
      assert (I : same_inputs h h) by (intros g' _ _ _; auto).
      assert (D : forall x h1, same_inputs h h1 -> forall c i, lbm_step x h1 d c i = store (h1 d) x ws (collide sem r params h (length S) x (load (h1 src) x rs)) c i).
      { intros x' h1 Hs c i'. rewrite (proj1 (lbm_step_correct x' h1)). now rewrite (collide_cong h h1). }
      destruct (in_dec cell_eq_dec x xs) as [Hin|Hin].
      - rewrite (loop_output lbm_step (same_inputs h) src d rs ws (collide sem r params h (length S)) (writes_field r)); auto.
        + now apply (proj2 (lbm_step_correct x h)).
        + intros; now apply same_inputs_step.
        + intros; now apply step_unwritten.
        + intros; now apply step_center.
        + intros x' h1 h2 g' k' S1 S2. now apply (step_local h).
        + intros _. apply (nowrite_src r src d (length S) HR).
      - apply (loop_outside lbm_step (same_inputs h) d); auto; intros; [now apply same_inputs_step|now apply step_center].
    Qed.
  End Lbm.

  (* ---------- stream-only, output and copy kernels ---------- *)
  Lemma load_phase x f (accs : list access) n (e : env V) (h : heap) :
    let st := exec x (map (fun p => (Str (fst p), Sym (Acc f (snd p)))) (combine (seq n (length accs)) accs) : list (asg V Op)) (e, h) in
    snd st = h /\ forall s, fst st s = match s with
      | Str i => if (n <=? i)%nat then nth (i - n) (load (h f) x accs) (e s) else e s | _ => e s end.
  Proof.
    cbv zeta. revert n e. induction accs as [|a accs IH]; intros n e.
    - cbn. split; auto. intros [| |i| | |]; auto. destruct (n <=? i)%nat; auto. now destruct (i - n)%nat.
    - cbn [length seq combine map KernelModel.exec fold_left]. unfold exec1 at 2 4. cbn [fst snd KernelModel.eval lookup].
      destruct (IH (Datatypes.S n) (set_env e (Str n) (h f (shift x (off a)) (idx a)))) as [I1 I2]. unfold KernelModel.exec in I1, I2. split; [auto|].
      intros s. rewrite I2. destruct s as [| |i| | |]; cbn [fst snd]; auto. unfold set_env.
      destruct (Nat.leb_spec (Datatypes.S n) i); destruct (Nat.leb_spec n i); try lia.
      + replace (i - n)%nat with (Datatypes.S (i - Datatypes.S n)) by lia. cbn [StreamModel.load map nth]. destruct (name_eq_dec _ _) as [[= E]|]; [lia|]. reflexivity.
      + replace i with n by lia. rewrite Nat.sub_diag. cbn [StreamModel.load map nth]. destruct (name_eq_dec (Str n) (Str n)); congruence.
      + destruct (name_eq_dec _ _) as [[= E]|]; [lia|auto].
  Qed.
  Lemma store_phase x d (accs : list access) vals n (e : env V) (h : heap) : length vals = length accs ->
    (forall i v, nth_error vals i = Some v -> e (Str (n + i)) = v) ->
    let st := exec x (map (fun p => (Acc d (snd p), Sym (Str (fst p)))) (combine (seq n (length accs)) accs) : list (asg V Op)) (e, h) in
    fst st = e /\ (forall c k, snd st d c k = store (h d) x accs vals c k) /\ (forall g, g <> d -> snd st g = h g).
  Proof.
    cbv zeta. revert n vals h. induction accs as [|a accs IH]; intros n [|v vals] h Hl Hv; try discriminate; [cbn; auto|].
    cbn [length seq combine map KernelModel.exec fold_left]. unfold exec1 at 2 4 6. cbn [fst snd KernelModel.eval lookup].
    assert (E0 : e (Str n) = v) by (specialize (Hv 0%nat v eq_refl); now rewrite Nat.add_0_r in Hv). rewrite E0.
    destruct (IH (Datatypes.S n) vals (set_heap h d (upd L V (h d) (shift x (off a)) (idx a) v))) as (I1 & I2 & I3).
    { cbn in Hl. lia. } { intros i w Hw. specialize (Hv (Datatypes.S i) w Hw). now rewrite Nat.add_succ_r in Hv. }
    unfold KernelModel.exec in I1, I2, I3. split; [auto|]. split.
    - intros c k. rewrite I2. unfold set_heap. rewrite Nat.eqb_refl. reflexivity.
    - intros g Hg. rewrite I3 by auto. unfold set_heap. destruct (Nat.eqb_spec g d); tauto.
  Qed.

  (* loads, output equations, stores at one cell *)
  Lemma transfer_cell x (o : rule V Op) src d rs ws params (h : heap) : length ws = length rs ->
    output_rule (length rs) src d o -> let f := load (h src) x rs in
    let h' := snd (exec x ((load_temporaries src rs ++ subs o) ++ mains o ++ store_temporaries d ws) (params, h)) in
    (forall c k, h' d c k = store (h d) x ws f c k) /\
    (forall g, g <> d -> forall c k, h' g c k = snd (exec x (all_asg o) (with_streamed params f, h)) g c k).
  Proof.
    cbv zeta. intros Hl Ho. unfold load_temporaries, store_temporaries, enum.
    destruct (load_phase x src rs 0 params h) as [I1 I2]. set (lp := map _ (combine (seq 0 (length rs)) rs)) in *. set (sp := map _ (combine (seq 0 (length ws)) ws)).
    assert (A : forall l1 l2 (st : env V * heap), exec x (l1 ++ l2) st = exec x l2 (exec x l1 st)) by (intros; unfold KernelModel.exec; apply fold_left_app).
    set (st1 := exec x lp (params, h)) in *. set (f := load (h src) x rs) in *.
    destruct (exec_cong x (all_asg o) (fun _ _ _ => True)) with (st := st1) (st' := (with_streamed params f, h)) as [C1 C2]; auto.
    { intros s. rewrite I2. cbn [fst]. unfold with_streamed. destruct s; auto. cbn [Nat.leb]. now rewrite Nat.sub_0_r. }
    { intros g c k _. exact (f_equal (fun H => H g c k) I1). }
    assert (K : forall s, (forall n, s <> Tmp n) -> (forall l, (forall p, In p l -> In p (all_asg o)) -> forall st, fst (exec x l st) s = fst st s)).
    { intros s Hs. induction l as [|[t e] l IH]; intros Hin st; auto. cbn [KernelModel.exec fold_left]. change (fst (exec x l (exec1 sem x st (t, e))) s = fst st s).
      rewrite IH by (intros; apply Hin; now right). pose proof (proj1 Ho t e (Hin _ (or_introl eq_refl))) as Ht. unfold exec1. cbn [fst snd].
      destruct t; try tauto; cbn [fst]; auto. unfold set_env. destruct (name_eq_dec _ _) as [E|]; [now destruct (Hs n)|auto]. }
    set (st2 := exec x (all_asg o) st1) in *.
    assert (Lf : length f = length rs) by (unfold f, StreamModel.load; now rewrite map_length).
    destruct (store_phase x d ws f 0 (fst st2) (snd st2)) as (P1 & P2 & P3); [lia| |].
    { intros i v Hv. cbn [plus]. unfold st2. rewrite K; auto; [|discriminate]. rewrite I2. cbn [Nat.leb]. rewrite Nat.sub_0_r. now apply nth_error_nth. }
    fold sp in P1, P2, P3.
    assert (X : exec x ((lp ++ subs o) ++ mains o ++ sp) (params, h) = exec x sp (fst st2, snd st2)).
    { rewrite <- surjective_pairing. unfold st2, st1, all_asg. rewrite !A. reflexivity. } split.
    - intros c k. etransitivity; [exact (f_equal (fun st => snd st d c k) X)|]. cbv beta. etransitivity; [exact (P2 c k)|]. apply store_ext. intros c' k'. unfold st2. rewrite exec_heap_only; [now rewrite I1|].
      intros w e Hin E. pose proof (proj1 Ho _ _ Hin) as Hw. cbn in Hw. tauto.
    - intros g Hg c k. etransitivity; [exact (f_equal (fun st => snd st g c k) X)|]. cbv beta. etransitivity; [exact (f_equal (fun m => m c k) (P3 g Hg))|]. apply C2. auto.
  Qed.
End B.
