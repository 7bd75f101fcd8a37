From Coq Require Import String List ZArith Bool Arith Lia Permutation.
From Verif Require Import StencilModel StencilProofs AccessModel StreamModel StreamSpec AccessProofs StreamProofs RaceModel.
Import ListNotations.

Section Race.
  Context (L : lattice) (V : Type) (S : stencil) (p : pattern).
  Notation D := (ldim L).
  Notation Q := (length S).
  Notation W t := (waddr D S p t).
  Notation R t := (raddr D S p t).

  Lemma nth_error_seqmap {A} (g : nat -> A) j n : j < n -> nth_error (map g (seq 0 n)) j = Some (g j).
  Proof.
    intros Hj. rewrite nth_error_map, (nth_error_nth' _ 0) by (rewrite seq_length; exact Hj).
    rewrite seq_nth by exact Hj. reflexivity.
  Qed.

  (* the memory after the kernel is fully determined: [final m0 l] *)
  Lemma update_unique t C xs s s1 s2 : supported p D S t -> NoDup xs ->
    (forall x f, length f = Q -> length (C x f) = Q) ->
    update L V p t S xs C s = Ok s1 ->
    (forall x i, In x xs -> i < Q -> exists v,
        nth_error (C x (map (fun j => at_loc L V (src s) (loc x (R t j))) (seq 0 Q))) i = Some v /\
        at_loc L V (src s2) (loc x (W t i)) = v) ->
    (forall l, (forall (x : cell L) i, In x xs -> i < Q -> loc x (W t i) <> l) ->
        at_loc L V (src s2) l = at_loc L V (if is_inplace p then src s else tmp s) l) ->
    forall c k, src s2 c k = src s1 c k.
  Proof.
    intros HP Hnd HC Hu H1 H2 c k.
    assert (Hex : (exists x i, In x xs /\ i < Q /\ loc x (W t i) = (c, k)) \/
                  (forall (x : cell L) i, In x xs -> i < Q -> loc x (W t i) <> (c, k))).
    { set (P := fun q : cell L * nat => if link_eq_dec L (loc (fst q) (W t (snd q))) (c, k) then true else false).
      destruct (existsb P (list_prod xs (seq 0 Q))) eqn:E.
      - left. apply existsb_exists in E as ((x & i) & Hin & HPq). apply in_prod_iff in Hin as [Hx Hi].
        apply in_seq in Hi. exists x, i. split; [exact Hx|]. split; [lia|].
        unfold P in HPq; simpl in HPq. destruct (link_eq_dec L (loc x (W t i)) (c, k)); [assumption|discriminate].
      - right. intros x i Hx Hi Heq.
        assert (existsb P (list_prod xs (seq 0 Q)) = true) as E'; [|congruence].
        apply existsb_exists. exists (x, i). split; [apply in_prod; [exact Hx|apply in_seq; lia]|].
        unfold P; simpl. destruct (link_eq_dec L (loc x (W t i)) (c, k)); [reflexivity|contradiction]. }
    destruct Hex as [(x & i & Hx & Hi & E)|Hno].
    - destruct (H1 x i Hx Hi) as (v & Hv & H1').
      destruct (update_spec L V v S p t C xs s HP Hnd HC) as (s' & Hu' & Hw & _).
      rewrite Hu in Hu'. injection Hu' as <-. specialize (Hw x i Hx Hi).
      rewrite E in *. unfold at_loc in *; simpl in *. rewrite H1', Hw.
      symmetry. apply nth_error_nth with (d := v) in Hv. exact Hv.
    - specialize (H2 (c, k) Hno).
      assert (exists v : V, True) as [v _] by (exists (src s c k); exact I).
      destruct (update_spec L V v S p t C xs s HP Hnd HC) as (s' & Hu' & _ & Hin & Htw).
      rewrite Hu in Hu'. injection Hu' as <-.
      destruct (is_inplace p).
      + destruct (Hin eq_refl) as [_ Hin']. specialize (Hin' (c, k) Hno).
        unfold at_loc in *; simpl in *. congruence.
      + destruct (Htw eq_refl) as [_ Htw']. specialize (Htw' (c, k) Hno).
        unfold at_loc in *; simpl in *. congruence.
  Qed.

  (* the schedule proof *)
  Section Sched.
    Context (t : timestep) (C : cell L -> list V -> list V) (HP : supported p D S t).
    Context (HC : forall x f, length f = Q -> length (C x f) = Q).
    Context (xs : list (cell L)) (source : option (mem L V)) (m0 : mem L V) (regs0 : cell L -> nat -> V).
    Context (Hsrc : source = None -> is_inplace p = true).
    Definition rdm : mem L V := match source with None => m0 | Some m => m end.
    Let exec := fold_left (exec_event L V source (map (R t) (seq 0 Q)) (map (W t) (seq 0 Q)) C).
    Definition newvals (x : cell L) : list V := C x (map (fun j => at_loc L V rdm (loc x (R t j))) (seq 0 Q)).

    Lemma sched_inv sched : valid_schedule Q xs sched ->
      forall pre rest, sched = pre ++ rest ->
      let s := exec pre {| cmem := m0; regs := regs0 |} in
      (forall x j, In (Ld x j) pre -> regs L V s x j = at_loc L V rdm (loc x (R t j))) /\
      (forall x i, In (St x i) pre -> nth_error (newvals x) i = Some (at_loc L V (cmem L V s) (loc x (W t i)))) /\
      (forall l, (forall (x : cell L) i, In (St x i) pre -> loc x (W t i) <> l) ->
          at_loc L V (cmem L V s) l = at_loc L V m0 l).
    Proof.
      intros (Hown & _ & Hld & Hst). induction pre as [|e pre IH] using rev_ind; intros rest Hs.
      - simpl. split; [intros ? ? []|]. split; [intros ? ? []|reflexivity].
      - rewrite <- app_assoc in Hs. cbn [app] in Hs.
        specialize (IH (e :: rest) Hs). cbv zeta in IH. destruct IH as (IH1 & IH2 & IH3).
        unfold exec in *. rewrite fold_left_app. cbn [fold_left].
        set (s := fold_left _ pre _) in *.
        assert (Hevs : forall e', In e' pre -> In e' sched) by (intros e' He'; rewrite Hs; apply in_or_app; left; exact He').
        assert (He : In e sched) by (rewrite Hs; apply in_or_app; right; left; reflexivity).
        destruct e as [y k|y k].
        + destruct (Hown y k (or_introl He)) as [Hy Hk].
          cbn [exec_event]. rewrite nth_error_seqmap by exact Hk. cbn [cmem regs]. split; [|split].
          * intros x j Hin. destruct (link_eq_dec L (y, k) (x, j)) as [E|E].
            -- injection E as <- <-. rewrite upd_same. unfold at_loc, rdm. clear - HP Hsrc Hs Hst Hown Hevs IH3 Hk.
               destruct source as [m|].
               ++ reflexivity.
               ++ specialize (Hst _ _ _ _ Hs).
                  specialize (IH3 (loc y (R t k))). unfold at_loc in IH3. unfold loc in *. simpl in *.
                  apply IH3. intros x i Hxi E.
                  destruct (Hown x i (or_intror (Hevs _ Hxi))) as [_ Hi].
                  change (loc x (W t i) = loc y (R t k)) in E.
                  rewrite inplace_loc in E by (try apply Hsrc; auto).
                  apply rloc_inj in E; [|exact HP|eapply opp_lt; [apply HP|exact Hi]|exact Hk].
                  destruct E as [-> _]. apply (Hst i). exact Hxi.
            -- rewrite upd_other by exact E. apply IH1. apply in_app_or in Hin as [Hin|[Hin|[]]]; [exact Hin|].
               injection Hin as -> ->. congruence.
          * intros x i Hin. apply in_app_or in Hin as [Hin|[Hin|[]]]; [|discriminate]. apply IH2; exact Hin.
          * intros l Hl. apply IH3. intros x i Hxi. apply Hl. apply in_or_app; left; exact Hxi.
        + destruct (Hown y k (or_intror He)) as [Hy Hk].
          specialize (Hld _ _ _ _ Hs).
          assert (Hvals : map (regs L V s y) (seq 0 (length (map (R t) (seq 0 Q)))) =
                          map (fun j => at_loc L V rdm (loc y (R t j))) (seq 0 Q)).
          { rewrite map_length, seq_length. apply map_ext_in. intros j Hj. apply in_seq in Hj.
            apply IH1. apply Hld. lia. }
          cbn [exec_event]. rewrite nth_error_seqmap by exact Hk. rewrite Hvals. fold (newvals y).
          assert (Hlen : length (newvals y) = Q) by (apply HC; rewrite map_length, seq_length; reflexivity).
          destruct (nth_error (newvals y) k) as [v|] eqn:Ev;
            [|apply nth_error_None in Ev; lia].
          cbn [cmem regs]. split; [|split].
          * intros x j Hin. apply in_app_or in Hin as [Hin|[Hin|[]]]; [|discriminate]. apply IH1; exact Hin.
          * intros x i Hin. destruct (link_eq_dec L (y, k) (x, i)) as [E|E].
            -- injection E as <- <-. rewrite Ev. unfold at_loc, loc; simpl. rewrite upd_same. reflexivity.
            -- apply in_app_or in Hin as [Hin|[Hin|[]]]; [|injection Hin as -> ->; congruence].
               rewrite (IH2 x i Hin). f_equal. unfold at_loc. symmetry. apply upd_other.
               intros E'. rewrite <- surjective_pairing in E'.
               destruct (Hown x i (or_intror (Hevs _ Hin))) as [_ Hi].
               change (loc y (W t k) = loc x (W t i)) in E'. apply wloc_inj in E'; auto.
               destruct E' as [-> ->]. congruence.
          * intros l Hl. transitivity (at_loc L V (cmem L V s) l).
            -- destruct l as [c q]. unfold at_loc; simpl. apply upd_other.
               apply (Hl y k). apply in_or_app; right; left; reflexivity.
            -- apply IH3. intros x i Hxi. apply Hl. apply in_or_app; left; exact Hxi.
    Qed.
  End Sched.

  Theorem schedule_independent t C xs sched regs0 s s1 : supported p D S t -> NoDup xs ->
    (forall x f, length f = Q -> length (C x f) = Q) ->
    valid_schedule Q xs sched ->
    update L V p t S xs C s = Ok s1 ->
    exists s2, update_scheduled L V p t S C sched regs0 s = Ok s2 /\
      (forall c k, src s2 c k = src s1 c k) /\ tmp s2 = tmp s1.
  Proof.
    intros HP Hnd HC Hv Hu. unfold update_scheduled.
    pose proof (reads_of_seq p D S t HP) as HR. pose proof (writes_of_seq p D S t HP) as HW.
    unfold reads_of, writes_of in *.
    destruct (get_accessor p t) as [a|] eqn:Ea; [|discriminate]. simpl in *. rewrite HR, HW. simpl.
    assert (Htmp : tmp s1 = if is_inplace p then tmp s else src s).
    { unfold update in Hu. rewrite Ea in Hu. simpl in Hu. rewrite HR, HW in Hu. simpl in Hu.
      destruct (is_inplace p); injection Hu as <-; reflexivity. }
    destruct (is_inplace p) eqn:Hip.
    - eexists; split; [reflexivity|]. cbn [src tmp]. split; [|symmetry; exact Htmp].
      destruct (sched_inv t C HP HC xs None (src s) regs0 (fun _ => Hip) sched Hv sched [])
        as (_ & I2 & I3); [symmetry; apply app_nil_r|].
      set (sc := fold_left _ sched _) in *.
      apply (update_unique t C xs s s1 {| src := cmem L V sc; tmp := tmp s |} HP Hnd HC Hu); cbn [src].
      + intros x i Hx Hi. eexists. split; [|reflexivity]. apply I2. apply Hv; assumption.
      + intros l Hl. rewrite Hip. apply I3. intros x i Hxi.
        destruct (proj1 Hv x i (or_intror Hxi)). apply Hl; assumption.
    - eexists; split; [reflexivity|]. cbn [src tmp]. split; [|symmetry; exact Htmp].
      destruct (sched_inv t C HP HC xs (Some (src s)) (tmp s) regs0 ltac:(discriminate) sched Hv sched [])
        as (_ & I2 & I3); [symmetry; apply app_nil_r|].
      set (sc := fold_left _ sched _) in *.
      apply (update_unique t C xs s s1 {| src := cmem L V sc; tmp := src s |} HP Hnd HC Hu); cbn [src].
      + intros x i Hx Hi. eexists. split; [|reflexivity]. apply I2. apply Hv; assumption.
      + intros l Hl. rewrite Hip. apply I3. intros x i Hxi.
        destruct (proj1 Hv x i (or_intror Hxi)). apply Hl; assumption.
  Qed.

  Theorem order_independent t C xs xs' s s1 : supported p D S t -> NoDup xs -> Permutation xs xs' ->
    (forall x f, length f = Q -> length (C x f) = Q) ->
    update L V p t S xs C s = Ok s1 ->
    exists s2, update L V p t S xs' C s = Ok s2 /\
      (forall c k, src s2 c k = src s1 c k) /\ tmp s2 = tmp s1.
  Proof.
    intros HP Hnd Hperm HC Hu.
    assert (Hnd' : NoDup xs') by (eapply Permutation_NoDup; eauto).
    assert (Hu2 : exists s2, update L V p t S xs' C s = Ok s2 /\ tmp s2 = tmp s1).
    { unfold update in *.
      pose proof (reads_of_seq p D S t HP) as HR. pose proof (writes_of_seq p D S t HP) as HW.
      unfold reads_of, writes_of in *.
      destruct (get_accessor p t) as [a|] eqn:Ea; [|discriminate]. simpl in *. rewrite HR, HW in *. simpl in *.
      destruct (is_inplace p); injection Hu as <-; eexists; split; reflexivity. }
    destruct Hu2 as (s2 & Hu2 & Htmp). exists s2. split; [exact Hu2|]. split; [|exact Htmp].
    intros c k.
    destruct (update_spec L V (src s c k) S p t C xs' s HP Hnd' HC) as (s' & Hu' & Hw & Hin & Htw).
    rewrite Hu2 in Hu'. injection Hu' as <-.
    apply (update_unique t C xs s s1 s2 HP Hnd HC Hu).
    - intros x i Hx Hi. eexists. split; [|reflexivity].
      rewrite Hw by (try exact Hi; eapply Permutation_in; eauto).
      apply nth_error_nth'. rewrite HC; [exact Hi|]. now rewrite map_length, seq_length.
    - intros l Hl.
      assert (Hl' : forall (x : cell L) i, In x xs' -> i < Q -> loc x (W t i) <> l).
      { intros x i Hx Hi. apply Hl; [|exact Hi]. eapply Permutation_in; [apply Permutation_sym|]; eauto. }
      destruct (is_inplace p); [apply Hin; auto|apply Htw; auto].
  Qed.
End Race.

Lemma app_split_mid {A} (l1 l2 pre rest : list A) a : l1 ++ l2 = pre ++ a :: rest ->
  (exists r, l1 = pre ++ a :: r) \/ (exists q, l2 = q ++ a :: rest /\ pre = l1 ++ q).
Proof.
  revert pre; induction l1 as [|b l1 IH]; intros pre H; simpl in H.
  - right. exists pre. split; [exact H|reflexivity].
  - destruct pre as [|c pre]; simpl in H; injection H as -> H.
    + left. exists l1. reflexivity.
    + destruct (IH pre H) as [(r & ->)|(q & -> & ->)].
      * left. exists r. reflexivity.
      * right. exists q. split; reflexivity.
Qed.

Lemma phased_schedule_valid (L : lattice) (Q : nat) (xs : list (cell L)) :
  let loads := flat_map (fun x => map (Ld x) (seq 0 Q)) xs in
  let stores := rev (flat_map (fun x => map (St x) (seq 0 Q)) xs) in
  valid_schedule Q xs (loads ++ stores).
Proof.
  intros loads stores.
  assert (HL : forall e, In e loads -> exists x i, e = Ld x i /\ In x xs /\ i < Q).
  { intros e He. apply in_flat_map in He as (x & Hx & He). apply in_map_iff in He as (i & <- & Hi).
    apply in_seq in Hi. exists x, i. repeat split; auto; lia. }
  assert (HS : forall e, In e stores -> exists x i, e = St x i /\ In x xs /\ i < Q).
  { intros e He. unfold stores in He. apply in_rev in He. apply in_flat_map in He as (x & Hx & He).
    apply in_map_iff in He as (i & <- & Hi). apply in_seq in Hi. exists x, i. repeat split; auto; lia. }
  assert (HL' : forall x i, In x xs -> i < Q -> In (Ld x i) loads).
  { intros x i Hx Hi. apply in_flat_map. exists x. split; [exact Hx|]. apply in_map, in_seq. lia. }
  split; [|split; [|split]].
  - intros x i [H|H]; apply in_app_or in H as [H|H];
      (apply HL in H as (y & j & E & ?) || apply HS in H as (y & j & E & ?)); try discriminate;
      injection E as -> ->; assumption.
  - intros x i Hx Hi. apply in_or_app. right. unfold stores. apply -> in_rev.
    apply in_flat_map. exists x. split; [exact Hx|]. apply in_map, in_seq. lia.
  - intros pre rest x i E j Hj. apply app_split_mid in E as [(r & E)|(q & E & ->)].
    + exfalso. assert (In (St x i) loads) as H by (rewrite E; apply in_or_app; right; left; reflexivity).
      apply HL in H as (y & k & H & _). discriminate.
    + apply in_or_app. left. apply HL'; [|exact Hj].
      assert (In (St x i) stores) as H by (rewrite E; apply in_or_app; right; left; reflexivity).
      apply HS in H as (y & k & H & Hy & _). injection H as -> ->. exact Hy.
  - intros pre rest x j E i Hin. apply app_split_mid in E as [(r & E)|(q & E & ->)].
    + assert (In (St x i) loads) as H by (rewrite E; apply in_or_app; left; exact Hin).
      apply HL in H as (y & k & H & _). discriminate.
    + assert (In (Ld x j) stores) as H by (rewrite E; apply in_or_app; right; left; reflexivity).
      apply HS in H as (y & k & H & _). discriminate.
Qed.
