From Coq Require Import String List ZArith Bool Arith Lia Permutation.
From Verif Require Import StencilModel StencilProofs AccessModel StreamModel StreamSpec AccessProofs
  StreamProofs RaceProofs GridModel GridProofs CommModel CommSpec CommProofs.
Import ListNotations.
Local Open Scope Z_scope.

Lemma mapM_In {A B} (f : A -> res B) l bs : mapM f l = Ok bs ->
  forall b, In b bs <-> exists a, In a l /\ f a = Ok b.
Proof.
  revert bs; induction l as [|a l IH]; simpl; intros bs H b.
  - injection H as <-. split; [intros []|intros (? & [] & _)].
  - destruct (f a) as [b0|] eqn:E; [|discriminate]. simpl in H.
    destruct (mapM f l) as [bs'|] eqn:E'; [|discriminate]. simpl in H. injection H as <-.
    simpl. rewrite (IH bs' eq_refl b). split.
    + intros [<-|(a' & Ha & Hf)]; eauto.
    + intros (a' & [<-|Ha] & Hf); [left; congruence|right; eauto].
Qed.

(* ---------- geometry of sources and images ---------- *)
Lemma src_box_interior tr N c s x : Forall (fun n => 1 <= n) N -> src_box tr N c s x -> interior N x.
Proof.
  intros HN. revert c s x; induction HN as [|n N Hn HN IH]; intros [|c0 c] [|s0 s] [|x0 x]; simpl; try tauto.
  intros [H1 H2]. split; [|eapply IH; exact H2]. unfold axis_src in H1. lia.
Qed.

Lemma interior_length N x : interior N x -> length x = length N.
Proof. revert x; induction N as [|n N IH]; intros [|a x]; simpl; try tauto. intros [_ H]. f_equal; auto. Qed.

Lemma image_length N c x : length c = length N -> length x = length N -> length (image N c x) = length N.
Proof.
  revert c x; induction N as [|n N IH]; intros [|c0 c] [|x0 x]; simpl; intros; try lia. rewrite IH; lia.
Qed.

Lemma image_not_interior tr N c s x : Forall (fun n => 1 <= n) N -> src_box tr N c s x ->
  forallb (Z.eqb 0) c = false -> ~ interior N (image N c x).
Proof.
  intros HN. revert c s x; induction HN as [|n N Hn HN IH]; intros [|c0 c] [|s0 s] [|x0 x]; simpl; try tauto; try discriminate.
  intros [H1 H2] Hc [H3 H4]. destruct (Z.eqb_spec 0 c0) as [<-|Hne].
  - apply (IH c s x H2 Hc H4).
  - unfold axis_src in H1. destruct H1 as [(E & _)|[(-> & ->)|(-> & ->)]]; lia.
Qed.

Lemma wrap_axis_image n c x : 1 <= x <= n -> ((x - c * n - 1) mod n) + 1 = x.
Proof.
  intros H. replace (x - c * n - 1) with ((x - 1) + (- c) * n) by lia.
  rewrite Z.mod_add by lia. rewrite Z.mod_small by lia. lia.
Qed.

Lemma wrap_image tr N c s x : Forall (fun n => 1 <= n) N -> src_box tr N c s x ->
  wrap_pos N (map (fun _ => true) N) (image N c x) = x.
Proof.
  intros HN. revert c s x; induction HN as [|n N Hn HN IH]; intros [|c0 c] [|s0 s] [|x0 x]; simpl; try tauto.
  intros [H1 H2]. f_equal; [|eapply IH; exact H2]. unfold wrap_axis. apply wrap_axis_image.
  unfold axis_src in H1. lia.
Qed.

(* the communication direction that serves cell y for streaming direction d *)
Fixpoint comm_of (N z : vec) : vec :=
  match N, z with
  | n :: N', a :: z' => (if a <? 1 then 1 else if n <? a then -1 else 0) :: comm_of N' z'
  | _, _ => []
  end.

Lemma comm_of_facts tr : forall N per y d, Forall (fun n => 1 <= n) N ->
  length per = length N -> length d = length N -> unit_vec d -> interior N y ->
  let z := vadd y (vneg d) in
  interior N (wrap_pos N per z) ->
  let c := comm_of N z in
  unit_vec c /\ length c = length N /\ extends c d /\ src_box tr N c d (wrap_pos N per z) /\
  image N c (wrap_pos N per z) = z /\
  forallb (fun q => (fst q =? 0) || snd q) (combine c per) = true /\
  (forallb (Z.eqb 0) c = true -> interior N z).
Proof.
  intros N per y d HN. revert per y d; induction HN as [|n N Hn HN IH]; intros per y d Hper Hd Hu Hy.
  - destruct d; [|discriminate]. destruct y; [|contradiction]. simpl. repeat split; constructor.
  - destruct per as [|b per]; [discriminate|]. destruct d as [|d0 d]; [discriminate|].
    destruct y as [|y0 y]; [contradiction|]. destruct Hy as [Hy0 Hy].
    inversion Hu as [|? ? Hd0 Hu']; subst. cbn [vneg map]. fold (vneg d). rewrite vadd_cons. cbv zeta.
    cbn [wrap_pos interior]. intros [Hw0 Hw].
    destruct (IH per y d) as (C1 & C2 & C3 & C4 & C5 & C6 & C7); [simpl in *; lia|simpl in *; lia|exact Hu'|exact Hy|exact Hw|].
    cbn [comm_of]. set (z0 := y0 + - d0) in *.
    assert (Hz0 : 0 <= z0 <= n + 1) by (subst z0; lia).
    assert (F : let c0 := if z0 <? 1 then 1 else if n <? z0 then -1 else 0 in
       (c0 = -1 \/ c0 = 0 \/ c0 = 1) /\ (c0 <> 0 -> d0 = c0) /\ axis_src tr n c0 d0 (wrap_axis n b z0) /\
       wrap_axis n b z0 - c0 * n = z0 /\ ((c0 =? 0) || b = true) /\ (c0 = 0 -> 1 <= z0 <= n)).
    { unfold wrap_axis in *. unfold axis_src.
      destruct (Z.ltb_spec z0 1) as [E1|E1].
      - assert (z0 = 0) as Ez by lia. assert (d0 = 1) as Ed by (subst z0; lia). destruct b; [|lia].
        assert (EW : (z0 - 1) mod n + 1 = n).
        { rewrite Ez. replace (0 - 1) with ((n - 1) + (-1) * n) by lia. rewrite Z.mod_add by lia. rewrite Z.mod_small by lia. lia. }
        rewrite EW. subst d0. rewrite Ez. repeat split; try lia; auto.
      - destruct (Z.ltb_spec n z0) as [E2|E2].
        + assert (z0 = n + 1) as Ez by lia. assert (d0 = -1) as Ed by (subst z0; lia). destruct b; [|lia].
          assert (EW : (z0 - 1) mod n + 1 = 1).
          { rewrite Ez. replace (n + 1 - 1) with (0 + 1 * n) by lia. rewrite Z.mod_add by lia. rewrite Z.mod_0_l by lia. lia. }
          rewrite EW. subst d0. rewrite Ez. repeat split; try lia; auto.
        + assert (EW : (if b then (z0 - 1) mod n + 1 else z0) = z0).
          { destruct b; [|reflexivity]. rewrite Z.mod_small by lia. lia. }
          rewrite EW. split; [lia|]. split; [lia|]. split.
          * left. split; [reflexivity|]. split; [lia|]. intros _. subst z0. lia.
          * split; [lia|]. split; [reflexivity|lia]. }
    cbv zeta in F. set (c0 := if z0 <? 1 then 1 else if n <? z0 then -1 else 0) in *.
    destruct F as (F1 & F2 & F3 & F4 & F5 & F6).
    split; [constructor; assumption|]. split; [simpl; lia|]. split; [simpl; auto|]. split; [simpl; auto|].
    split; [simpl; rewrite C5, F4; reflexivity|]. split.
    + cbn [combine forallb fst snd]. rewrite F5, C6. reflexivity.
    + cbn [forallb]. intros H. apply andb_prop in H as [H1 H2]. split; [|apply C7; exact H2].
      apply F6. lia.
Qed.

Lemma is_copy_direction_iff per c : length per = length c ->
  is_copy_direction per c = true <->
  forallb (fun q => (fst q =? 0) || snd q) (combine c per) = true /\ forallb (Z.eqb 0) c = false.
Proof.
  intros HL. unfold is_copy_direction. rewrite andb_true_iff, negb_true_iff.
  assert (A : forall a, 0 <= a -> (fold_left (fun s q => s + Z.abs (fst q)) (combine c per) a =? 0) = (a =? 0) && forallb (Z.eqb 0) c).
  { revert per HL; induction c as [|c0 c IH]; intros [|b per] HL a Ha; try discriminate.
    - simpl. now rewrite andb_true_r.
    - cbn [combine fold_left fst forallb]. rewrite IH by (simpl in HL; lia). destruct (Z.eqb_spec 0 c0) as [<-|Hne].
      + cbn [Z.abs andb]. rewrite Z.add_0_r. reflexivity.
      + destruct (Z.eqb_spec (a + Z.abs c0) 0); [lia|]. cbn [andb]. destruct (a =? 0); reflexivity. }
  rewrite A by lia. simpl. tauto.
Qed.

Section Exchange.
  Context (D : nat) (V : Type) (S : stencil) (p : pattern).
  Context (HNN : nearest_neighbour S).
  Context (N : list Z) (HN : Forall (fun n => 1 <= n) N) (HND : length N = D).
  Context (per : list bool) (Hper : length per = D).
  Context (order : vec -> list vec -> list vec) (Hord : forall c l, Permutation (order c l) l).
  Notation Q := (length S).
  Notation L := (zlat D).
  Notation shape := (map (fun n => n + 2 * 1) N).

  Definition good_op t (o : copy_op) (c : vec) (i : nat) : Prop :=
    cp_idx o = idx (waddr D S p t i) /\
    exists l, copy_pairs shape o = Ok l /\
      forall A B, In (A, B) l <-> exists x, src_box (trims p) N c (dir S i) x /\
         A = vadd x (off (waddr D S p t i)) /\ B = vadd (image N c x) (off (waddr D S p t i)).

  Definition comm_pair (c : vec) (i : nat) : Prop :=
    length c = D /\ unit_vec c /\ is_copy_direction per c = true /\ (i < Q)%nat /\ extends c (dir S i).

  Lemma dir_unit i : (i < Q)%nat -> unit_vec (dir S i).
  Proof.
    intros Hi. apply Forall_forall. intros e He. assert (-1 <= e <= 1) by (apply (HNN (dir S i)); [apply dir_In; exact Hi|exact He]).
    lia.
  Qed.

  Lemma ops_ok t : supported p D S t ->
    exists ops, get_communication_slices order p S (filter (is_copy_direction per) (full_stencil (dimD S))) t 1 = Ok ops /\
      (forall o, In o ops -> exists c i, comm_pair c i /\ good_op t o c i) /\
      (forall c i, comm_pair c i -> exists o, In o ops /\ good_op t o c i).
  Proof.
    intros HP. unfold get_communication_slices. rewrite (writes_of_seq p D S t HP). cbn [rbind].
    set (ws := map (waddr D S p t) (seq 0 Q)).
    set (dirs := filter (fun c => negb (forallb (Z.eqb 0) c)) _).
    assert (Hdirs : forall c, In c dirs <-> length c = D /\ unit_vec c /\ is_copy_direction per c = true).
    { intros c. unfold dirs. rewrite !filter_In, full_stencil_In, (dimD_D D S (proj1 HP)). split; [tauto|].
      intros (H1 & H2 & H3). repeat split; auto. apply is_copy_direction_iff in H3; [|lia].
      destruct H3 as [_ ->]. reflexivity. }
    assert (Hs : forall c s, length c = D -> unit_vec c -> In s (order c (streaming_dirs S c)) <->
       exists i, (i < Q)%nat /\ s = dir S i /\ extends c s).
    { intros c s Hc Hu.
      assert (In s (order c (streaming_dirs S c)) <-> In s (streaming_dirs S c)) as ->.
      { split; apply Permutation_in; [apply Hord|apply Permutation_sym, Hord]. }
      unfold streaming_dirs. rewrite filter_In, existsb_vec_In, (extend_dir_In c s Hu). split.
      - intros [He Hin]. apply In_nth with (d := []) in Hin as (i & Hi & E). exists i. split; [exact Hi|].
        split; [symmetry; exact E|exact He].
      - intros (i & Hi & -> & He). split; [exact He|apply dir_In; exact Hi]. }
    assert (Hone : forall c i, comm_pair c i -> exists o, slices_for p S ws 1 c (dir S i) = Ok o /\ good_op t o c i).
    { intros c i (H1 & H2 & H3 & H4 & H5).
      destruct (slices_for_ok D S p t HP N HN HND c i H2 H1 H4 H5) as (o & l & Ho & Hi & Hl & HIn).
      exists o. split; [exact Ho|]. split; [exact Hi|]. exists l. auto. }
    assert (Hper_c : forall c, In c dirs -> exists os, mapM (slices_for p S ws 1 c) (order c (streaming_dirs S c)) = Ok os).
    { intros c Hc. apply Hdirs in Hc as (H1 & H2 & H3). apply mapM_ex. intros s Hin.
      apply (Hs c s H1 H2) in Hin as (i & Hi & -> & He).
      destruct (Hone c i) as (o & Ho & _); [repeat split; auto|]. eauto. }
    destruct (mapM_ex (fun c => mapM (slices_for p S ws 1 c) (order c (streaming_dirs S c))) dirs Hper_c) as (ls & Hls).
    rewrite Hls. cbn [rbind]. eexists. split; [reflexivity|].
    assert (HI : forall o, In o (concat ls) <-> exists c i, comm_pair c i /\ slices_for p S ws 1 c (dir S i) = Ok o).
    { intros o. rewrite in_concat. split.
      - intros (os & Hos & Ho). apply (mapM_In _ _ _ Hls) in Hos as (c & Hc & Hm).
        apply (mapM_In _ _ _ Hm) in Ho as (s & Hin & Hsl). apply Hdirs in Hc as (H1 & H2 & H3).
        apply (Hs c s H1 H2) in Hin as (i & Hi & -> & He). exists c, i. split; [repeat split; auto|exact Hsl].
      - intros (c & i & (H1 & H2 & H3 & H4 & H5) & Hsl).
        assert (Hc : In c dirs) by (apply Hdirs; auto).
        destruct (Hper_c c Hc) as (os & Hos). exists os. split.
        + apply (mapM_In _ _ _ Hls). eauto.
        + apply (mapM_In _ _ _ Hos). exists (dir S i). split; [apply (Hs c _ H1 H2); eauto|exact Hsl]. }
    split.
    - intros o Ho. apply HI in Ho as (c & i & Hp & Hsl). exists c, i. split; [exact Hp|].
      destruct (Hone c i Hp) as (o' & Ho' & Hg). rewrite Hsl in Ho'. injection Ho' as <-. exact Hg.
    - intros c i Hp. destruct (Hone c i Hp) as (o & Ho & Hg). exists o. split; [|exact Hg]. apply HI. eauto.
  Qed.

  (* the set of slot copies done by one exchange *)
  Definition wl t (x : vec) (i : nat) : cell L * nat := loc (pos D x) (waddr D S p t i).
  Definition exchange_pair t (sd : (cell L * nat) * (cell L * nat)) : Prop :=
    exists c i x, comm_pair c i /\ src_box (trims p) N c (dir S i) x /\
      fst sd = wl t x i /\ snd sd = wl t (image N c x) i.

  Definition lift (q : nat) (l : list (vec * vec)) : list ((cell L * nat) * (cell L * nat)) :=
    map (fun ab => ((pos D (fst ab), q), (pos D (snd ab), q))) l.

  Lemma exec_copy_fold m o l : copy_pairs shape o = Ok l ->
    exec_copy D V shape m o = Ok (fold_left (copy1 L V m) (lift (cp_idx o) l) m).
  Proof.
    intros H. unfold exec_copy. rewrite H. cbn [rbind]. f_equal.
    generalize m at 2 4 as m1. clear H. induction l as [|ab l IH]; intros m1; [reflexivity|].
    cbn [fold_left lift map]. rewrite IH. reflexivity.
  Qed.

  Lemma wl_inj t x i y j : supported p D S t -> length x = D -> length y = D -> (i < Q)%nat -> (j < Q)%nat ->
    wl t x i = wl t y j -> x = y /\ i = j.
  Proof.
    intros HP Hx Hy Hi Hj E. unfold wl in E.
    assert (HP' : supported p (ldim L) S t) by (rewrite ldim_zlat; exact HP).
    pose proof (wloc_inj L S p t (pos D x) i (pos D y) j HP' Hi Hj) as W. rewrite ldim_zlat in W.
    apply W in E. destruct E as [E1 E2]. split; [|exact E2]. eapply pos_inj; eauto.
  Qed.

  Lemma good_op_pairs t o c i l : supported p D S t -> comm_pair c i -> good_op t o c i ->
    copy_pairs shape o = Ok l ->
    forall s d, In (s, d) (lift (cp_idx o) l) <->
      exists x, src_box (trims p) N c (dir S i) x /\ s = wl t x i /\ d = wl t (image N c x) i.
  Proof.
    intros HP (H1 & H2 & H3 & H4 & H5) (Hi & l' & Hl' & HIn) Hl s d. rewrite Hl in Hl'. injection Hl' as <-.
    assert (HL : forall x, src_box (trims p) N c (dir S i) x -> length x = D).
    { intros x Hx. apply src_box_interior in Hx; [|exact HN]. apply interior_length in Hx. lia. }
    assert (HW : length (off (waddr D S p t i)) = D) by (apply waddr_length; [exact HP|exact H4]).
    assert (HI : forall x, src_box (trims p) N c (dir S i) x -> length (image N c x) = D).
    { intros x Hx. rewrite image_length; [lia|lia|]. rewrite (HL x Hx). lia. }
    unfold lift. rewrite in_map_iff. split.
    - intros ((A, B) & E & Hin). cbn [fst snd] in E. injection E as <- <-.
      apply HIn in Hin as (x & Hx & -> & ->). exists x. split; [exact Hx|].
      pose proof (HL x Hx). pose proof (HI x Hx). unfold wl, loc. rewrite !pos_shift, Hi by lia. auto.
    - intros (x & Hx & -> & ->). exists (vadd x (off (waddr D S p t i)), vadd (image N c x) (off (waddr D S p t i))).
      split.
      + pose proof (HL x Hx). pose proof (HI x Hx). cbn [fst snd]. unfold wl, loc. rewrite !pos_shift, Hi by lia. reflexivity.
      + apply HIn. eauto.
  Qed.

  Lemma exchange_wf t l : supported p D S t -> (forall sd, In sd l -> exchange_pair t sd) -> well_formed L l.
  Proof.
    intros HP Hl.
    assert (HL : forall c i x, comm_pair c i -> src_box (trims p) N c (dir S i) x -> length x = D /\ length (image N c x) = D).
    { intros c i x (H1 & _) Hx. apply src_box_interior in Hx; [|exact HN]. apply interior_length in Hx.
      split; [lia|]. rewrite image_length; lia. }
    split.
    - intros s d s' d' H1 H2 E.
      apply Hl in H1 as (c & i & x & P1 & B1 & E1 & _). apply Hl in H2 as (c' & i' & x' & P2 & B2 & _ & E2).
      cbn [fst snd] in *. subst s d'.
      apply wl_inj in E; [|exact HP|apply (HL _ _ _ P1 B1)|apply (HL _ _ _ P2 B2)|apply P1|apply P2].
      destruct E as [E _]. apply (image_not_interior _ _ _ _ _ HN B2).
      + destruct P2 as (Hc' & _ & Hcd & _). apply is_copy_direction_iff in Hcd; [apply Hcd|lia].
      + rewrite <- E. exact (src_box_interior _ _ _ _ _ HN B1).
    - intros s s' d H1 H2.
      apply Hl in H1 as (c & i & x & P1 & B1 & E1 & E1'). apply Hl in H2 as (c' & i' & x' & P2 & B2 & E2 & E2').
      cbn [fst snd] in *. subst s s' d.
      apply wl_inj in E2'; [|exact HP|apply (HL _ _ _ P1 B1)|apply (HL _ _ _ P2 B2)|apply P1|apply P2].
      destruct E2' as [E ->]. f_equal.
      rewrite <- (wrap_image _ _ _ _ _ HN B1), E. exact (wrap_image _ _ _ _ _ HN B2).
  Qed.

  Lemma fold_exchange t : supported p D S t -> forall ops m,
    (forall o, In o ops -> exists c i, comm_pair c i /\ good_op t o c i) ->
    exists m' l, foldM (exec_copy D V shape) ops m = Ok m' /\ copies_to L V m m' l /\
      (forall sd, In sd l -> exchange_pair t sd) /\
      (forall o c i x, In o ops -> comm_pair c i -> good_op t o c i -> src_box (trims p) N c (dir S i) x ->
         In (wl t x i, wl t (image N c x) i) l).
  Proof.
    intros HP. induction ops as [|o ops IH]; intros m Ho.
    - exists m, []. split; [reflexivity|]. split; [split; [intros s d []|reflexivity]|]. split; [intros sd []|intros o c i x []].
    - destruct (Ho o (or_introl eq_refl)) as (c & i & Hp & Hg). pose proof Hg as Hg'. destruct Hg' as (_ & l & Hl & _).
      pose proof (good_op_pairs t o c i l HP Hp Hg Hl) as HIn.
      assert (Hex : forall sd, In sd (lift (cp_idx o) l) -> exchange_pair t sd).
      { intros [s d] Hsd. apply HIn in Hsd as (x & Hx & E1 & E2). exists c, i, x. auto. }
      cbn [foldM]. rewrite (exec_copy_fold m o l Hl). cbn [rbind].
      set (m1 := fold_left (copy1 L V m) (lift (cp_idx o) l) m).
      assert (Hc1 : copies_to L V m m1 (lift (cp_idx o) l)).
      { apply copy_batch. apply (exchange_wf t _ HP Hex). }
      destruct (IH m1) as (m' & l' & Hf & Hc2 & Hex' & Hcov).
      { intros o' Ho'. apply Ho. right; exact Ho'. }
      exists m', (lift (cp_idx o) l ++ l'). split; [exact Hf|].
      assert (Hexa : forall sd, In sd (lift (cp_idx o) l ++ l') -> exchange_pair t sd).
      { intros sd Hsd. apply in_app_or in Hsd as [H|H]; auto. }
      split; [eapply copies_app; [apply (exchange_wf t _ HP Hexa)|exact Hc1|exact Hc2]|]. split; [exact Hexa|].
      intros o' c' i' x' [<-|Ho'] Hp' Hg' Hx'; apply in_or_app.
      + left. apply (good_op_pairs t o c' i' l HP Hp' Hg' Hl). eauto.
      + right. eapply Hcov; eauto.
  Qed.

  Lemma get_timesteps_ok t : In t (get_timesteps p) -> supported p D S t ->
    exists ops, (forall m, periodicity_handling D V order p S N per 1 t m = foldM (exec_copy D V shape) ops m) /\
      (forall o, In o ops -> exists c i, comm_pair c i /\ good_op t o c i) /\
      (forall c i, comm_pair c i -> exists o, In o ops /\ good_op t o c i).
  Proof.
    intros Ht HP.
    destruct (ops_ok t HP) as (ops & Hops & H1 & H2). exists ops. split; [|auto].
    intros m. unfold periodicity_handling, comm_tables, get_timesteps in *.
    destruct (is_inplace p) eqn:Ep.
    - destruct (ops_ok (ts_next t) (supported_next p D S t HP)) as (ops' & Hops' & _).
      destruct Ht as [<-|[<-|[]]]; cbn [ts_next mapM] in *; rewrite Hops, Hops'; reflexivity.
    - destruct Ht as [<-|[]]. cbn [mapM]. rewrite Hops. reflexivity.
  Qed.

  Lemma exchange_spec t m : In t (get_timesteps p) -> supported p D S t ->
    exists m' l, periodicity_handling D V order p S N per 1 t m = Ok m' /\ copies_to L V m m' l /\
      (forall sd, In sd l <-> exchange_pair t sd).
  Proof.
    intros Ht HP. destruct (get_timesteps_ok t Ht HP) as (ops & Heq & H1 & H2).
    destruct (fold_exchange t HP ops m H1) as (m' & l & Hf & Hc & Hex & Hcov).
    exists m', l. rewrite Heq. split; [exact Hf|]. split; [exact Hc|]. intros [s d]. split; [apply Hex|].
    intros (c & i & x & Hp & Hx & E1 & E2). cbn [fst snd] in *. subst.
    destruct (H2 c i Hp) as (o & Ho & Hg). eapply Hcov; eauto.
  Qed.

  Lemma interior_wrap x : interior N x -> wrap_pos N per x = x.
  Proof.
    clear HN HNN. revert per Hper x. rewrite <- HND. clear HND.
    induction N as [|n N' IH]; intros [|b per'] Hp [|a x]; simpl in *; try tauto; try discriminate.
    intros [H1 H2]. f_equal; [|apply IH; [lia|exact H2]]. unfold wrap_axis. destruct b; [|reflexivity].
    rewrite Z.mod_small by lia. lia.
  Qed.

  Theorem exchange_correct t m : In t (get_timesteps p) -> supported p D S t ->
    exists m', periodicity_handling D V order p S N per 1 t m = Ok m' /\
      (forall y i, interior N y -> (i < Q)%nat -> interior N (wrap_pos N per (vadd y (vneg (dir S i)))) ->
         at_loc L V m' (loc (pos D y) (raddr D S p (ts_next t) i)) =
         at_loc L V m (wl t (wrap_pos N per (vadd y (vneg (dir S i)))) i)) /\
      (forall l, (forall z i, length z = D -> ~ interior N z -> (i < Q)%nat -> wl t z i <> l) ->
         at_loc L V m' l = at_loc L V m l).
  Proof.
    intros Ht HP. destruct (exchange_spec t m Ht HP) as (m' & l & Hm & [Hc1 Hc2] & Hl).
    exists m'. split; [exact Hm|].
    assert (Hframe : forall q, (forall z i, length z = D -> ~ interior N z -> (i < Q)%nat -> wl t z i <> q) ->
         at_loc L V m' q = at_loc L V m q).
    { intros q Hq. apply Hc2. intros s Hs. apply Hl in Hs as (c & i & x & Hp & Hx & _ & E). cbn [snd] in E.
      symmetry in E. revert E. apply Hq.
      - destruct Hp as (H1 & _). pose proof (src_box_interior _ _ _ _ _ HN Hx) as HI. apply interior_length in HI.
        rewrite image_length; lia.
      - apply (image_not_interior _ _ _ _ _ HN Hx). destruct Hp as (H1 & _ & Hcd & _).
        apply is_copy_direction_iff in Hcd; [apply Hcd|lia].
      - apply Hp. }
    split; [|exact Hframe].
    intros y i Hy Hi Hx. pose proof (interior_length _ _ Hy) as HyL.
    pose proof (dir_length D S (proj1 HP) i Hi) as HdL.
    set (z := vadd y (vneg (dir S i))) in *.
    assert (HzL : length z = D) by (unfold z; rewrite vadd_length; rewrite ?vneg_length; lia).
    assert (Hr : loc (pos D y) (raddr D S p (ts_next t) i) = wl t z i).
    { assert (HP' : supported p (ldim L) S t) by (rewrite ldim_zlat; exact HP).
      pose proof (rloc_next L S p t (pos D y) i HP' Hi) as R. rewrite ldim_zlat in R. rewrite R.
      unfold wl. f_equal. rewrite pos_shift; [reflexivity|lia|rewrite vneg_length; lia]. }
    rewrite Hr.
    destruct (comm_of_facts (trims p) N per y (dir S i) HN) as (C1 & C2 & C3 & C4 & C5 & C6 & C7);
      [lia|lia|apply dir_unit; exact Hi|exact Hy|exact Hx|].
    fold z in C1, C2, C3, C4, C5, C6, C7.
    destruct (forallb (Z.eqb 0) (comm_of N z)) eqn:Ez.
    - specialize (C7 eq_refl). rewrite (interior_wrap z C7).
      apply Hframe. intros z' i' HL' Hn' Hi' E. apply wl_inj in E; auto. destruct E as [-> _]. contradiction.
    - apply Hc1. apply Hl. exists (comm_of N z), i, (wrap_pos N per z). cbn [fst snd].
      split.
      + split; [lia|]. split; [exact C1|]. split; [|split; [exact Hi|exact C3]].
        apply is_copy_direction_iff; [lia|]. auto.
      + split; [exact C4|]. split; [reflexivity|]. rewrite C5. reflexivity.
  Qed.

  (* any order of the individual slice copies *)
  Theorem exchange_any_order t m ops ops' : In t (get_timesteps p) -> supported p D S t ->
    (exists tabs, comm_tables order p S per 1 = Ok tabs /\ nth_error tabs (ts_idx t) = Some ops) ->
    Permutation ops ops' ->
    exists m1 m2, periodicity_handling D V order p S N per 1 t m = Ok m1 /\
      foldM (exec_copy D V shape) ops' m = Ok m2 /\ forall c k, m2 c k = m1 c k.
  Proof.
    intros Ht HP (tabs & Htab & Hnth) Hperm.
    destruct (get_timesteps_ok t Ht HP) as (ops0 & Heq & H1 & H2).
    assert (E : forall m, foldM (exec_copy D V shape) ops m = foldM (exec_copy D V shape) ops0 m).
    { intros m0. rewrite <- Heq. unfold periodicity_handling. rewrite Htab. cbn [rbind]. rewrite Hnth. reflexivity. }
    assert (H1' : forall o, In o ops -> exists c i, comm_pair c i /\ good_op t o c i).
    { unfold comm_tables in Htab. destruct (is_inplace p) eqn:Ep.
      - destruct (ops_ok t HP) as (opsa & Ha & Hga & _).
        destruct (ops_ok (ts_next t) (supported_next p D S t HP)) as (opsb & Hb & _).
        unfold get_timesteps in *. rewrite Ep in *.
        destruct Ht as [<-|[<-|[]]]; cbn [ts_next mapM] in *; rewrite Ha, Hb in Htab; cbn in Htab; injection Htab as <-;
          cbn in Hnth; injection Hnth as <-; exact Hga.
      - destruct (ops_ok t HP) as (opsa & Ha & Hga & _). unfold get_timesteps in *. rewrite Ep in *.
        destruct Ht as [<-|[]]. cbn [mapM] in Htab. rewrite Ha in Htab. cbn in Htab. injection Htab as <-.
        cbn in Hnth. injection Hnth as <-. exact Hga. }
    assert (H2' : forall c i, comm_pair c i -> exists o, In o ops /\ good_op t o c i).
    { unfold comm_tables in Htab. destruct (is_inplace p) eqn:Ep.
      - destruct (ops_ok t HP) as (opsa & Ha & _ & Hga).
        destruct (ops_ok (ts_next t) (supported_next p D S t HP)) as (opsb & Hb & _).
        unfold get_timesteps in *. rewrite Ep in *.
        destruct Ht as [<-|[<-|[]]]; cbn [ts_next mapM] in *; rewrite Ha, Hb in Htab; cbn in Htab; injection Htab as <-;
          cbn in Hnth; injection Hnth as <-; exact Hga.
      - destruct (ops_ok t HP) as (opsa & Ha & _ & Hga). unfold get_timesteps in *. rewrite Ep in *.
        destruct Ht as [<-|[]]. cbn [mapM] in Htab. rewrite Ha in Htab. cbn in Htab. injection Htab as <-.
        cbn in Hnth. injection Hnth as <-. exact Hga. }
    destruct (fold_exchange t HP ops m H1') as (m1 & l1 & Hf1 & Hc1 & Hex1 & Hcov1).
    destruct (fold_exchange t HP ops' m) as (m2 & l2 & Hf2 & Hc2 & Hex2 & Hcov2).
    { intros o Ho. apply H1'. eapply Permutation_in; [apply Permutation_sym, Hperm|exact Ho]. }
    exists m1, m2. split; [rewrite Heq, <- E; exact Hf1|]. split; [exact Hf2|].
    intros c k.
    apply (copies_unique L V m m2 m1 l2 l1) with (d := (c, k)); [|exact Hc2|exact Hc1].
    intros [s d]. split; intros Hsd.
    - apply Hex2 in Hsd as (c' & i & x & Hp & Hx & E1 & E2). cbn [fst snd] in *. subst.
      destruct (H2' c' i Hp) as (o & Ho & Hg). eapply Hcov1; eauto.
    - apply Hex1 in Hsd as (c' & i & x & Hp & Hx & E1 & E2). cbn [fst snd] in *. subst.
      destruct (H2' c' i Hp) as (o & Ho & Hg). eapply Hcov2; eauto. eapply Permutation_in; eauto.
  Qed.
End Exchange.

Lemma interior_iff N x : interior N x <-> length x = length N /\
  forall k, (k < length N)%nat -> 1 <= nth k x 0 <= nth k N 0.
Proof.
  revert x; induction N as [|n N IH]; intros [|a x]; simpl; split; try tauto; try (intros [H _]; discriminate).
  - intros _. split; [reflexivity|]. intros k Hk; lia.
  - intros [H1 H2]. apply IH in H2 as [H2 H3]. split; [lia|]. intros [|k] Hk; [exact H1|]. apply H3; lia.
  - intros [H1 H2]. split; [apply (H2 0%nat); lia|]. apply IH. split; [lia|]. intros k Hk. apply (H2 (Datatypes.S k)); lia.
Qed.

Lemma interior_cells_In D N x : length N = D -> length x = D -> In (pos D x) (interior_cells D N 1) <-> interior N x.
Proof.
  intros HND Hx. unfold interior_cells. rewrite in_map_iff, interior_iff.
  assert (E : forall z, In z (box_raw (map (fun _ => 1) N) (map (fun n => n + 1) N)) <->
     length z = length N /\ forall k, (k < length N)%nat -> 1 <= nth k z 0 <= nth k N 0).
  { intros z. rewrite box_raw_In by now rewrite !map_length. rewrite map_length.
    assert (F : forall k, (k < length N)%nat -> nth k (map (fun _ => 1) N) 0 = 1 /\ nth k (map (fun n => n + 1) N) 0 = nth k N 0 + 1).
    { clear. induction N as [|n N IH]; simpl; intros [|k] Hk; try lia. apply IH; lia. }
    split; intros [H1 H2]; (split; [exact H1|]); intros k Hk; destruct (F k Hk) as [F1 F2]; specialize (H2 k Hk); lia. }
  split.
  - intros (z & Ez & Hz). pose proof Hz as Hz'. apply E in Hz' as [HL _].
    apply pos_inj in Ez; [subst z; apply E; exact Hz|lia|exact Hx].
  - intros H. exists x. split; [reflexivity|]. apply E. exact H.
Qed.

Lemma interior_cells_pos D N c : In c (interior_cells D N 1) -> exists x, c = pos D x /\ In x (box_raw (map (fun _ => 1) N) (map (fun n => n + 1) N)).
Proof. unfold interior_cells. rewrite in_map_iff. intros (x & <- & H). eauto. Qed.

Lemma interior_cells_NoDup D N : length N = D -> NoDup (interior_cells D N 1).
Proof.
  intros HND. unfold interior_cells.
  assert (HL : forall z, In z (box_raw (map (fun _ => 1) N) (map (fun n => n + 1) N)) -> length z = D).
  { intros z Hz. apply box_raw_In in Hz; [|now rewrite !map_length]. rewrite map_length in Hz. lia. }
  pose proof (box_raw_NoDup (map (fun _ => 1) N) (map (fun n => n + 1) N)) as Hnd.
  revert HL Hnd. generalize (box_raw (map (fun _ => 1) N) (map (fun n => n + 1) N)). clear.
  induction l as [|x l IH]; intros HL Hnd; simpl; [constructor|]. inversion Hnd; subst.
  constructor; [|apply IH; auto; intros; apply HL; right; auto].
  rewrite in_map_iff. intros (y & E & Hy). apply pos_inj in E; [subst; contradiction|apply HL; right; exact Hy|apply HL; left; reflexivity].
Qed.

Lemma wrap_interior N z : Forall (fun n => 1 <= n) N -> length z = length N ->
  interior N (wrap_pos N (map (fun _ => true) N) z).
Proof.
  intros HN. revert z; induction HN as [|n N Hn HN IH]; intros [|a z] HL; simpl in *; try discriminate; [exact I|].
  split; [|apply IH; lia]. unfold wrap_axis. pose proof (Z.mod_pos_bound (a - 1) n). lia.
Qed.

Section PeriodicSim.
  Context (D : nat) (V : Type) (v0 : V) (S : stencil) (p : pattern).
  Context (HNN : nearest_neighbour S).
  Context (N : list Z) (HN : Forall (fun n => 1 <= n) N) (HND : length N = D).
  Context (order : vec -> list vec -> list vec) (Hord : forall c l, Permutation (order c l) l).
  Context (xs0 : list (cell (zlat D))) (xs : nat -> list (cell (zlat D))).
  Context (Hxs0 : Permutation xs0 (interior_cells D N 1)) (Hxs : forall n, Permutation (xs n) (interior_cells D N 1)).
  Context (C : nat -> vec -> list V -> list V) (f0 : vec -> list V).
  Context (HC : forall n x f, length f = length S -> length (C n x f) = length S).
  Context (Hf0 : forall x, length (f0 x) = length S).
  Notation Q := (length S).
  Notation L := (zlat D).
  Notation per := (map (fun _ => true) N).
  Notation ref n x := (periodic_stream_collide v0 S N C f0 n x).
  Notation C' := (fun n (c : cell L) => C n (proj1_sig c)).

  Definition php t n (m : mem L V) : Prop :=
    forall x i, interior N x -> (i < Q)%nat -> at_loc L V m (wl D S p t x i) = nth i (ref n x) v0.

  Lemma in_timesteps_next t : In t (get_timesteps p) -> In (ts_next t) (get_timesteps p).
  Proof. unfold get_timesteps. destruct (is_inplace p); simpl; intuition (subst; simpl; auto). Qed.
  Lemma in_timesteps_after t n : In t (get_timesteps p) -> In (ts_after t n) (get_timesteps p).
  Proof. intros H; induction n; [exact H|]. apply in_timesteps_next. exact IHn. Qed.

  Lemma run_periodic_correct t s n : In t (get_timesteps p) -> supported p D S t -> php t 0 (src s) ->
    exists s', run_periodic D V order p S N 1 xs C' n (t, s) = Ok (ts_after t n, s') /\
      php (ts_after t n) n (src s').
  Proof.
    intros Ht HP H0. induction n as [|n IH].
    - exists s. split; [reflexivity|exact H0].
    - destruct IH as (s1 & Hr & Hh). cbn [run_periodic]. rewrite Hr. cbn [rbind fst snd].
      set (t' := ts_after t n) in *.
      assert (HP' : supported p D S t').
      { unfold t'. pose proof (supported_after L S p t n) as H. rewrite ldim_zlat in H. apply H. exact HP. }
      assert (Hper : length per = D) by (rewrite map_length; exact HND).
      destruct (exchange_correct D V S p HNN N HN HND per Hper order Hord t' (src s1)) as (m' & Hm & Hv & _);
        [apply in_timesteps_after; exact Ht|exact HP'|].
      rewrite Hm. cbn [rbind].
      assert (HPn : supported p (ldim L) S (ts_next t')) by (rewrite ldim_zlat; apply supported_next; exact HP').
      destruct (update_spec L V v0 S p (ts_next t') (C' n) (xs n) {| src := m'; tmp := tmp s1 |} HPn) as (s2 & Hs2 & Hu & _).
      { eapply Permutation_NoDup; [apply Permutation_sym, Hxs|]. apply interior_cells_NoDup; exact HND. }
      { intros c f Hf. apply HC; exact Hf. }
      rewrite Hs2. cbn [rbind]. exists s2. split; [reflexivity|].
      intros x i Hx Hi. pose proof (interior_length N x Hx) as HxL. rewrite HND in HxL.
      assert (Hin : In (pos D x) (xs n)).
      { eapply Permutation_in; [apply Permutation_sym, Hxs|]. apply interior_cells_In; auto. }
      specialize (Hu (pos D x) i Hin Hi). rewrite ldim_zlat in Hu.
      change (ts_after t (Datatypes.S n)) with (ts_next t'). unfold wl. rewrite Hu.
      rewrite pos_proj by exact HxL. cbn [periodic_stream_collide src]. f_equal. f_equal.
      apply map_ext_in. intros j Hj. apply in_seq in Hj.
      assert (HjL : length (dir S j) = D) by (apply (dir_length D S (proj1 HP)); lia).
      assert (Hw : interior N (wrap_pos N per (vadd x (vneg (dir S j))))).
      { apply wrap_interior; [exact HN|]. rewrite vadd_length; rewrite ?vneg_length; lia. }
      rewrite (Hv x j Hx); [|lia|exact Hw]. rewrite (Hh _ j Hw) by lia. reflexivity.
  Qed.

  Theorem simulate_periodic_correct t m_src m_tmp n x : In t (get_timesteps p) -> supported p D S t ->
    interior N x ->
    simulate_periodic D V order p t S N 1 xs0 xs C' (fun c => f0 (proj1_sig c)) m_src m_tmp n x = Ok (ref n x).
  Proof.
    intros Ht HP Hx. unfold simulate_periodic, setter, get_field_accesses.
    pose proof (writes_of_seq p D S t HP) as HW. unfold writes_of in HW.
    destruct (get_accessor p t) as [a|]; [|discriminate]. simpl in HW. cbn [rbind]. rewrite HW. cbn [rbind].
    assert (HPl : supported p (ldim L) S t) by (rewrite ldim_zlat; exact HP).
    destruct (setter_fold L V v0 S p t (fun c => f0 (proj1_sig c)) HPl (fun c => Hf0 _) xs0 m_src) as [H1 _].
    rewrite ldim_zlat in H1.
    set (m := fold_left _ xs0 m_src) in *.
    destruct (run_periodic_correct t {| src := m; tmp := m_tmp |} n Ht HP) as (s' & Hr & Hh).
    { intros y i Hy Hi. pose proof (interior_length N y Hy) as HyL. cbn [src]. unfold wl.
      rewrite H1; [rewrite pos_proj by lia; reflexivity| |exact Hi].
      eapply Permutation_in; [apply Permutation_sym, Hxs0|]. apply interior_cells_In; auto; lia. }
    rewrite Hr. cbn [rbind fst snd]. unfold getter, get_field_accesses.
    assert (HP' : supported p D S (ts_after t n)).
    { pose proof (supported_after L S p t n) as H. rewrite ldim_zlat in H. apply H. exact HP. }
    pose proof (writes_of_seq p D S _ HP') as HW'. unfold writes_of in HW'.
    destruct (get_accessor p (ts_after t n)) as [a'|]; [|discriminate]. simpl in HW'. cbn [rbind]. rewrite HW'. cbn [rbind].
    f_equal. unfold load. rewrite map_map.
    assert (Hlen : length (ref n x) = Q).
    { destruct n; simpl; [apply Hf0|]. apply HC. now rewrite map_length, seq_length. }
    rewrite <- (map_nth_seq v0 (ref n x) Q Hlen). apply map_ext_in. intros i Hi. apply in_seq in Hi.
    rewrite <- (Hh x i Hx) by lia. reflexivity.
  Qed.
End PeriodicSim.

Definition nearest_neighbour_b (S : stencil) : bool :=
  forallb (forallb (fun e => (-1 <=? e) && (e <=? 1))) S.
Lemma nearest_neighbour_b_sound S : nearest_neighbour_b S = true -> nearest_neighbour S.
Proof.
  unfold nearest_neighbour_b, nearest_neighbour. rewrite forallb_forall. intros H d e Hd He.
  specialize (H d Hd). rewrite forallb_forall in H. specialize (H e He). lia.
Qed.

Section Slots.
  Context (D : nat) (V : Type) (S : stencil) (p : pattern) (N : list Z) (per : list bool)
    (order : vec -> list vec -> list vec) (t : timestep).
  Context (HP : supported p D S t) (Ht : In t (get_timesteps p)) (HNN : nearest_neighbour S)
    (HND : length N = D) (HN : Forall (fun n => 1 <= n) N) (Hper : length per = D)
    (Hord : forall c l, Permutation (order c l) l).

  Lemma nth_seqmap_inv {A} (f : nat -> A) n i a : nth_error (map f (seq 0 n)) i = Some a -> (i < n)%nat /\ a = f i.
  Proof.
    intros H. assert (Hi : (i < n)%nat).
    { rewrite <- (seq_length n 0), <- (map_length f). apply nth_error_Some. congruence. }
    split; [exact Hi|]. rewrite nth_error_seqmap in H by exact Hi. congruence.
  Qed.

  Lemma exchange_slots (m : mem (zlat D) V) :
    exists m' ws rs, periodicity_handling D V order p S N per 1 t m = Ok m' /\
      writes_of p t S = Ok ws /\ reads_of p (ts_next t) S = Ok rs /\
      (forall y i w r, interior N y -> nth_error ws i = Some w -> nth_error rs i = Some r ->
         let x := wrap_pos N per (vadd y (vneg (nth i S []))) in
         interior N x ->
         m' (fst (slot (pos D y) r)) (snd (slot (pos D y) r)) =
         m (fst (slot (pos D x) w)) (snd (slot (pos D x) w))) /\
      (forall c k, (forall z w, length z = D -> ~ interior N z -> In w ws -> slot (pos D z) w <> (c, k)) ->
         m' c k = m c k).
  Proof.
    destruct (exchange_correct D V S p HNN N HN HND per Hper order Hord t m Ht HP) as (m' & Hm & H1 & H2).
    exists m', (map (waddr D S p t) (seq 0 (length S))), (map (raddr D S p (ts_next t)) (seq 0 (length S))).
    split; [exact Hm|]. split; [apply writes_of_seq; exact HP|].
    split; [apply reads_of_seq; apply supported_next; exact HP|]. split.
    - intros y i w r Hy Hw Hr x Hx. apply nth_seqmap_inv in Hw as [Hi ->]. apply nth_seqmap_inv in Hr as [_ ->].
      exact (H1 y i Hy Hi Hx).
    - intros c k Hck. apply (H2 (c, k)). intros z i Hz Hn Hi. apply (Hck z); auto.
      apply in_map, in_seq. lia.
  Qed.

  Lemma exchange_interior (m : mem (zlat D) V) :
    exists m' ws, periodicity_handling D V order p S N per 1 t m = Ok m' /\ writes_of p t S = Ok ws /\
    forall x w, interior N x -> In w ws ->
      m' (fst (slot (pos D x) w)) (snd (slot (pos D x) w)) = m (fst (slot (pos D x) w)) (snd (slot (pos D x) w)).
  Proof.
    destruct (exchange_correct D V S p HNN N HN HND per Hper order Hord t m Ht HP) as (m' & Hm & H1 & H2).
    exists m', (map (waddr D S p t) (seq 0 (length S))).
    split; [exact Hm|]. split; [apply writes_of_seq; exact HP|].
    intros x w Hx Hw. apply in_map_iff in Hw as (i & <- & Hi). apply in_seq in Hi.
    apply (H2 (wl D S p t x i)). intros z j Hz Hn Hj E.
    pose proof (interior_length N x Hx).
    apply wl_inj in E; auto; try lia. destruct E as [-> _]. contradiction.
  Qed.

  Lemma exchange_order ops ops' (m : mem (zlat D) V) :
    (exists tabs, comm_tables order p S per 1 = Ok tabs /\ nth_error tabs (ts_idx t) = Some ops) ->
    Permutation ops ops' ->
    exists m1 m2, periodicity_handling D V order p S N per 1 t m = Ok m1 /\
      foldM (exec_copy D V (map (fun n => n + 2) N)) ops' m = Ok m2 /\ forall c k, m2 c k = m1 c k.
  Proof. exact (exchange_any_order D V S p N HN HND per Hper order Hord t m ops ops' Ht HP). Qed.
End Slots.

Lemma torus_simulation D V (v0 : V) S p N order xs0 xs C f0 t m_src m_tmp n x :
  supported p D S t -> In t (get_timesteps p) -> nearest_neighbour S ->
  length N = D -> Forall (fun k => 1 <= k) N ->
  (forall c l, Permutation (order c l) l) ->
  Permutation xs0 (interior_cells D N 1) -> (forall n, Permutation (xs n) (interior_cells D N 1)) ->
  (forall n x f, length f = length S -> length (C n x f) = length S) ->
  (forall x, length (f0 x) = length S) ->
  interior N x ->
  simulate_periodic D V order p t S N 1 xs0 xs (fun n c => C n (proj1_sig c)) (fun c => f0 (proj1_sig c))
    m_src m_tmp n x
  = Ok (periodic_stream_collide v0 S N C f0 n x).
Proof.
  intros HP Ht HNN HND HN Hord H0 Hx HC Hf Hi.
  exact (simulate_periodic_correct D V v0 S p HNN N HN HND order Hord xs0 xs H0 Hx C f0 HC Hf t m_src m_tmp n x Ht HP Hi).
Qed.

Lemma two_ghost_layers :
  exists (m m' : mem (zlat 2) Z) ws rs i w r,
    periodicity_handling 2 Z (fun _ l => l) PULL D2Q9_walberla [3; 3] [true; true] 2 BOTH m = Ok m' /\
    nth_error D2Q9_walberla i = Some [1; 0] /\
    writes_of PULL BOTH D2Q9_walberla = Ok ws /\ reads_of PULL BOTH D2Q9_walberla = Ok rs /\
    nth_error ws i = Some w /\ nth_error rs i = Some r /\
    m' (fst (slot (pos 2 [2; 2]) r)) (snd (slot (pos 2 [2; 2]) r)) <>
    m (fst (slot (pos 2 [4; 2]) w)) (snd (slot (pos 2 [4; 2]) w)).
Proof.
  set (m := (fun (c : cell (zlat 2)) (k : nat) => nth 0 (proj1_sig c) 0 + 10 * nth 1 (proj1_sig c) 0) : mem (zlat 2) Z).
  set (r := mkacc [-1; 0] 4). set (w := mkacc [0; 0] 4).
  assert (F : match periodicity_handling 2 Z (fun _ l => l) PULL D2Q9_walberla [3; 3] [true; true] 2 BOTH m with
              | Ok m' => negb (m' (fst (slot (pos 2 [2; 2]) r)) (snd (slot (pos 2 [2; 2]) r)) =?
                               m (fst (slot (pos 2 [4; 2]) w)) (snd (slot (pos 2 [4; 2]) w)))
              | Err _ => false end = true) by (vm_compute; reflexivity).
  assert (W : exists ws, writes_of PULL BOTH D2Q9_walberla = Ok ws /\ nth_error ws 4 = Some w) by (eexists; split; reflexivity).
  assert (R : exists rs, reads_of PULL BOTH D2Q9_walberla = Ok rs /\ nth_error rs 4 = Some r) by (eexists; split; reflexivity).
  destruct W as (ws & W1 & W2), R as (rs & R1 & R2). clearbody m r w.
  destruct (periodicity_handling 2 Z (fun _ l => l) PULL D2Q9_walberla [3; 3] [true; true] 2 BOTH m) as [m'|e] eqn:E;
    [|discriminate].
  exists m, m', ws, rs, 4%nat, w, r. 
  split; [exact E|]. split; [reflexivity|]. split; [exact W1|]. split; [exact R1|]. split; [exact W2|]. split; [exact R2|].
  apply negb_true_iff, Z.eqb_neq in F. exact F.
Qed.
