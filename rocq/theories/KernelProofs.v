From Coq Require Import List ZArith Bool Arith Lia.
From Verif Require Import StencilModel AccessModel StreamModel StreamSpec StreamProofs KernelModel KernelSpec.
Import ListNotations.

Lemma nth_error_combine_Some {A B} (l : list A) (m : list B) i a b : nth_error l i = Some a -> nth_error m i = Some b -> nth_error (combine l m) i = Some (a, b).
Proof. revert m i. induction l as [|c l IH]; intros [|d m] [|i]; cbn; try discriminate; [now intros [= ->] [= ->]|apply IH]. Qed.
Definition read_eq_dec (a b : nat * access) : {a = b} + {a <> b}.
Proof. decide equality; [apply access_eq_dec|apply Nat.eq_dec]. Defined.
Section B.
  Context {L : lattice} {V : Type} {Op : Type} (sem : Op -> V -> V -> V).
  Notation mem := (mem L V).
  Notation heap := (heap L V).
  Notation load := (load L V).
  Notation store := (store L V).
  Notation exec := (exec (L := L) sem).
  Notation eval := (eval (L := L) sem).

  Lemma store_miss (m : mem) x accs vals c k : (forall a, In a accs -> slot x a <> (c, k)) -> store m x accs vals c k = m c k.
  Proof.
    unfold StreamModel.store. revert m vals. induction accs as [|a accs IH]; intros m [|v vals] H; cbn; auto.
    rewrite IH by (intros b Hb; apply H; now right). apply upd_other. apply (H a). now left.
  Qed.
  Lemma store_hit (m : mem) x accs vals i a v : one_slot_each accs -> nth_error accs i = Some a -> nth_error vals i = Some v ->
    store m x accs vals (shift x (off a)) (idx a) = v.
  Proof.
    unfold StreamModel.store, one_slot_each. revert m vals i. induction accs as [|b accs IH]; intros m [|w vals] [|i] ND Ha Hv; cbn in Ha, Hv; try discriminate.
    - injection Ha as ->. injection Hv as ->. cbn. pose proof (store_miss (upd L V m (shift x (off a)) (idx a) v) x accs vals (shift x (off a)) (idx a)) as M.
      unfold StreamModel.store in M. rewrite M; [apply upd_same|]. intros b Hb E. injection E as _ E. inversion ND as [|? ? N _]; subst. apply N. rewrite <- E. now apply in_map.
    - cbn. inversion ND; subst. now apply (IH _ vals i).
  Qed.
  Lemma store_ext (m m' : mem) x accs vals c k : (forall c k, m c k = m' c k) -> store m x accs vals c k = store m' x accs vals c k.
  Proof.
    unfold StreamModel.store. revert m m' vals c k. induction accs as [|a accs IH]; intros m m' [|v vals] c k H; cbn; auto.
    apply IH. intros c' k'. unfold upd. destruct (cell_eq_dec _ _); auto. destruct (Nat.eqb _ _); auto.
  Qed.
  Lemma load_ext (m m' : mem) x accs : (forall c k, m c k = m' c k) -> load m x accs = load m' x accs.
  Proof. intros H. unfold StreamModel.load. apply map_ext. auto. Qed.
  Lemma store_total (m m' : mem) x accs vals : one_slot_each accs -> length vals = length accs ->
    (forall i a v, nth_error accs i = Some a -> nth_error vals i = Some v -> m' (shift x (off a)) (idx a) = v) ->
    (forall c k, (forall a, In a accs -> slot x a <> (c, k)) -> m' c k = m c k) ->
    forall c k, m' c k = store m x accs vals c k.
  Proof.
    intros ND Hl Hh Hm c k. destruct (Exists_dec (fun a => slot x a = (c, k)) accs) as [E|E].
    - intros a. unfold slot. destruct (cell_eq_dec (shift x (off a)) c) as [->|N1]; [|right; congruence].
      destruct (Nat.eq_dec (idx a) k) as [->|N2]; [now left|right; congruence].
    - apply Exists_exists in E. destruct E as (a & Ha & E). injection E as <- <-. destruct (In_nth_error _ _ Ha) as [i Hi].
      destruct (nth_error vals i) as [v|] eqn:Hv; [|apply nth_error_None in Hv; assert (i < length accs) by (apply nth_error_Some; congruence); lia].
      rewrite (Hh i a v Hi Hv). symmetry. now apply (store_hit m x accs vals i).
    - assert (M : forall a, In a accs -> slot x a <> (c, k)) by (intros a Ha E'; apply E, Exists_exists; eauto).
      now rewrite Hm, store_miss.
  Qed.

  (* ---------- one cell of the kernel made from a collision rule ---------- *)
  Section Cell.
    Context (r : rule V Op) (src dst : nat) (rs ws : list access) (params : env V) (x : cell L) (h : heap) (iso : bool) (Q : nat).
    Hypothesis HR : collision_rule Q src dst r.
    Hypothesis Hrs : length rs = Q.
    Hypothesis Hws : length ws = Q.
    Hypothesis Hslots : one_slot_each ws.
    Hypothesis Hiso : iso = false -> src <> dst.
    Let sg := substitution src dst (combine rs ws).
    Let tr (s : name) : name := if iso then read_symbol (sg s) else sg s.
    Let reads := field_reads (map (subst_asg sg) (all_asg r)).
    Let f := load (h src) x rs.

    Definition related (don : list name) (a b : env V * heap) : Prop :=
      (forall n, fst b (Tmp n) = fst a (Tmp n)) /\
      (forall g, g <> dst -> forall c k, snd b g c k = snd a g c k) /\
      (forall i w, In (Post i) don -> nth_error ws i = Some w -> snd b dst (shift x (off w)) (idx w) = fst a (Post i)) /\
      (forall c k, (forall i w, In (Post i) don -> nth_error ws i = Some w -> slot x w <> (c, k)) -> snd b dst c k = h dst c k) /\
      (forall i, i < Q -> fst a (Pre i) = nth i f (params (Pre i))) /\
      (forall g, ~ writes_field r g -> forall c k, snd a g c k = h g c k) /\
      (iso = true -> forall g w, In (g, w) reads -> fst b (Rd g w) = h g (shift x (off w)) (idx w)).

    Lemma sg_pre i : i < Q -> exists a, nth_error rs i = Some a /\ sg (Pre i) = Acc src a.
    Proof.
      intros Hi. unfold sg, substitution. destruct (nth_error rs i) as [a|] eqn:Ea; [|apply nth_error_None in Ea; lia].
      destruct (nth_error ws i) as [b|] eqn:Eb; [|apply nth_error_None in Eb; lia].
      rewrite (nth_error_combine_Some rs ws i a b Ea Eb). eauto.
    Qed.
    Lemma sg_post i : i < Q -> exists b, nth_error ws i = Some b /\ sg (Post i) = Acc dst b.
    Proof.
      intros Hi. unfold sg, substitution. destruct (nth_error rs i) as [a|] eqn:Ea; [|apply nth_error_None in Ea; lia].
      destruct (nth_error ws i) as [b|] eqn:Eb; [|apply nth_error_None in Eb; lia].
      rewrite (nth_error_combine_Some rs ws i a b Ea Eb). eauto.
    Qed.
    Lemma nowrite_src : ~ writes_field r src.
    Proof. intros (a & e & H). apply (proj1 HR) in H. tauto. Qed.
    Lemma load_nth i a : nth_error rs i = Some a -> forall d, nth i f d = h src (shift x (off a)) (idx a).
    Proof.
      intros H d. unfold f, StreamModel.load. apply nth_error_nth. rewrite nth_error_map, H. reflexivity.
    Qed.

    Lemma related_lookup don a b s e t : related don a b -> In (s, e) (all_asg r) -> In t (symbols e) ->
      lookup x b (tr t) = lookup x a t.
    Proof.
      intros (R1 & R2 & R3 & R4 & R5 & R6 & R7) Hin Ht. pose proof (proj1 (proj2 HR) s e t Hin Ht) as Hs.
      assert (RD : forall g w, sg t = Acc g w -> In (g, w) reads).
      { intros g w E. unfold reads, field_reads. apply in_flat_map. exists (subst_asg sg (s, e)). split; [now apply in_map|]. cbn.
        apply in_flat_map. exists (Acc g w). split; [|now left]. rewrite <- E. revert Ht. clear. induction e; cbn; auto; [intros [->|[]]; now left|].
        rewrite !in_app_iff. intuition. }
      unfold tr. destruct t as [i|i|i|n|g w|g w]; try tauto.
      - destruct (sg_pre i Hs) as (a0 & Ha & E). rewrite E. specialize (RD src a0 E).
        assert (X : fst a (Pre i) = h src (shift x (off a0)) (idx a0)) by (rewrite R5 by auto; now apply load_nth).
        destruct iso eqn:Ei; cbn [read_symbol lookup].
        + rewrite R7; auto.
        + rewrite R2 by (apply Hiso; auto). rewrite R6 by apply nowrite_src. auto.
      - cbn. destruct iso; cbn; apply R1.
      - cbn [sg substitution] in *. destruct Hs as (Hs1 & Hs2 & Hs3). destruct iso eqn:Ei; cbn.
        + rewrite R7; auto. symmetry. now apply R6.
        + apply R2. auto.
    Qed.
    Lemma eval_subst st st' (sgm : name -> name) e : (forall t, In t (symbols e) -> lookup x st' (sgm t) = lookup x st t) ->
      eval x st' (subst sgm e) = eval x st e.
    Proof.
      induction e as [s|v|o a IHa b IHb]; cbn; intros H; auto. rewrite IHa, IHb; auto; intros t Ht; apply H; rewrite in_app_iff; auto.
    Qed.
    Lemma related_step don a b s e : related don a b -> In (s, e) (all_asg r) ->
      related (s :: don) (exec1 sem x a (s, e)) (exec1 sem x b (sg s, subst tr e)).
    Proof.
      intros HRel Hin. assert (E : eval x b (subst tr e) = eval x a e).
      { apply eval_subst. intros t Ht. now apply (related_lookup don a b s e). }
      destruct HRel as (R1 & R2 & R3 & R4 & R5 & R6 & R7). pose proof (proj1 HR s e Hin) as Hs.
      assert (KD : forall (don' : list name) s', (forall i, s' <> Post i) -> (forall i, In (Post i) (s' :: don') <-> In (Post i) don')).
      { intros don' s' H i. split; [intros [->|H']; [now destruct (H i)|auto]|intros; now right]. }
      destruct s as [i|i|i|n|g w|g w]; try tauto.
      - (* a population *)
        destruct (sg_post i Hs) as (w & Hw & Es). unfold exec1. cbn [fst snd]. rewrite E, Es. refine (conj _ (conj _ (conj _ (conj _ (conj _ (conj _ _)))))); cbn [fst snd].
        + exact R1.
        + intros g Hg c k. unfold set_heap. destruct (Nat.eqb_spec g dst); [tauto|]. now apply R2.
        + intros j w' Hj Hw'. unfold set_heap. rewrite Nat.eqb_refl. unfold set_env. destruct (name_eq_dec (Post j) (Post i)) as [[= ->]|N].
          * rewrite Hw in Hw'. injection Hw' as <-. now rewrite upd_same.
          * destruct Hj as [Hj|Hj]; [congruence|]. rewrite upd_other; [now apply R3|].
            intros Eq. injection Eq as _ Eq. apply N. f_equal.
            assert (X : nth_error (map idx ws) i = nth_error (map idx ws) j) by (rewrite !nth_error_map, Hw, Hw'; cbn; congruence).
            symmetry. eapply (proj1 (NoDup_nth_error _) Hslots); eauto. rewrite map_length. apply nth_error_Some. congruence.
        + intros c k H. unfold set_heap. rewrite Nat.eqb_refl. rewrite upd_other; [|apply (H i w); [now left|auto]]. apply R4. intros j w' Hj. apply H. now right.
        + exact R5.
        + exact R6.
        + exact R7.
      - (* a subexpression *)
        unfold exec1. cbn [fst snd sg substitution]. rewrite E. refine (conj _ (conj _ (conj _ (conj _ (conj _ (conj _ _)))))); cbn [fst snd].
        + intros m. unfold set_env. destruct (name_eq_dec _ _); auto.
        + exact R2.
        + intros j w' Hj Hw'. apply KD in Hj; [|discriminate]. now apply (R3 j w').
        + intros c k H. apply R4. intros j w' Hj. apply H. now right.
        + exact R5.
        + exact R6.
        + exact R7.
      - (* another field *)
        unfold exec1. cbn [fst snd sg substitution]. rewrite E. refine (conj _ (conj _ (conj _ (conj _ (conj _ (conj _ _)))))); cbn [fst snd].
        + exact R1.
        + intros g' Hg' c k. unfold set_heap. destruct (Nat.eqb_spec g' g) as [->|]; [|now apply R2].
          unfold upd. destruct (cell_eq_dec _ _); [|now apply R2]. destruct (Nat.eqb _ _); auto.
        + intros j w' Hj Hw'. apply KD in Hj; [|discriminate]. unfold set_heap. destruct (Nat.eqb_spec dst g); [intuition congruence|]. now apply R3.
        + intros c k H. unfold set_heap. destruct (Nat.eqb_spec dst g); [intuition congruence|]. apply R4. intros j w' Hj. apply H. now right.
        + exact R5.
        + intros g' Hg' c k. unfold set_heap. destruct (Nat.eqb_spec g' g) as [->|]; [|now apply R6]. exfalso. apply Hg'. exists w, e. auto.
        + exact R7.
    Qed.
    Lemma related_exec l : (forall p, In p l -> In p (all_asg r)) -> forall don a b, related don a b ->
      exists don', related don' (exec x l a) (exec x (map (fun p => (sg (fst p), subst tr (snd p))) l) b) /\ (forall s, In s don' <-> In s (map fst l) \/ In s don).
    Proof.
      induction l as [|[s e] l IH]; intros Hl don a b HRel; cbn.
      - exists don. split; auto. intros; tauto.
      - destruct (IH (fun p Hp => Hl p (or_intror Hp)) (s :: don) _ _ (related_step don a b s e HRel (Hl _ (or_introl eq_refl)))) as (don' & H1 & H2).
        exists don'. split; auto. intros t. rewrite H2. cbn. tauto.
    Qed.

    Definition cell_program : list (asg V Op) :=
      (if iso then map (fun p => (Rd (fst p) (snd p), Sym (Acc (fst p) (snd p)))) reads else []) ++ map (fun p => (sg (fst p), subst tr (snd p))) (all_asg r).

    Lemma isolation_phase l (e : env V) : let st := exec x (map (fun p => (Rd (fst p) (snd p), Sym (Acc (fst p) (snd p)))) l : list (asg V Op)) (e, h) in
      snd st = h /\ (forall s, (forall g w, s <> Rd g w) -> fst st s = e s) /\ (forall g w, In (g, w) l -> fst st (Rd g w) = h g (shift x (off w)) (idx w)) /\
      (forall g w, ~ In (g, w) l -> fst st (Rd g w) = e (Rd g w)).
    Proof.
      cbv zeta. revert e. induction l as [|[g w] l IH]; intros e; cbn; [repeat split; tauto|].
      unfold exec1. cbn [fst snd KernelModel.eval lookup]. destruct (IH (set_env e (Rd g w) (h g (shift x (off w)) (idx w)))) as (I1 & I2 & I3 & I4). split; [auto|]. split; [|split].
      - intros s Hs. rewrite I2 by auto. unfold set_env. destruct (name_eq_dec _ _) as [->|]; auto. now destruct (Hs g w).
      - intros g' w' Hin. destruct (in_dec read_eq_dec (g', w') l) as [Hl|Hl].
        + now apply I3.
        + destruct Hin as [[= -> ->]|Hin]; [|tauto]. rewrite I4 by auto. unfold set_env. destruct (name_eq_dec _ _); [auto|congruence].
      - intros g' w' Hn. rewrite I4 by tauto. unfold set_env. destruct (name_eq_dec _ _) as [[= -> ->]|]; auto. exfalso. apply Hn. now left.
    Qed.

    Theorem cell_correct : let h' := snd (exec x cell_program (params, h)) in
      (forall c k, h' dst c k = store (h dst) x ws (collide sem r params h Q x f) c k) /\
      (forall g, g <> dst -> forall c k, h' g c k = snd (exec x (all_asg r) (with_pre params f, h)) g c k).
    Proof.
      cbv zeta. unfold cell_program. unfold KernelModel.exec at 1 2. rewrite !fold_left_app.
      set (st0 := fold_left (exec1 sem x) ((if iso then map (fun p => (Rd (fst p) (snd p), Sym (Acc (fst p) (snd p)))) reads else []) : list (asg V Op)) (params, h)).
      assert (R0 : related [] (with_pre params f, h) st0).
      { assert (Z : snd st0 = h /\ (forall s, (forall g w, s <> Rd g w) -> fst st0 s = params s) /\ (iso = true -> forall g w, In (g, w) reads -> fst st0 (Rd g w) = h g (shift x (off w)) (idx w))).
        { unfold st0. destruct iso.
          - destruct (isolation_phase reads params) as (I1 & I2 & I3 & _). unfold KernelModel.exec in *. auto.
          - cbn. repeat split; auto. discriminate. }
        destruct Z as (Z1 & Z2 & Z3). repeat split; cbn [fst snd]; auto.
        - intros n. now rewrite Z2.
        - intros g _ c k. now rewrite Z1.
        - intros i w [].
        - intros c k _. now rewrite Z1. }
      destruct (related_exec (all_asg r) (fun p H => H) [] _ _ R0) as (don & HRel & Hd).
      unfold KernelModel.exec in HRel. destruct HRel as (R1 & R2 & R3 & R4 & R5 & R6 & R7). split; [|intros g Hg c k; now apply R2].
      assert (P : forall i, i < Q -> In (Post i) don).
      { intros i Hi. apply Hd. left. destruct (proj2 (proj2 HR) i Hi) as [e He]. apply in_map_iff. now exists (Post i, e). }
      apply store_total; auto.
      - unfold collide. now rewrite map_length, seq_length.
      - intros i a v Ha Hv. assert (Hi : i < Q) by (rewrite <- Hws; apply nth_error_Some; congruence).
        etransitivity; [exact (R3 i a (P i Hi) Ha)|]. unfold collide in Hv. rewrite nth_error_map in Hv.
        rewrite (nth_error_nth' _ 0) in Hv by now rewrite seq_length. rewrite seq_nth in Hv by auto. cbn in Hv. injection Hv as <-. reflexivity.
      - intros c k H. apply R4. intros i w _ Hw. apply H. eapply nth_error_In; eauto.
    Qed.
  End Cell.
End B.
