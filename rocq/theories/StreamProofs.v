(* Every streaming pattern implements the reference semantics. *)
From Coq Require Import String List ZArith Bool Arith Lia Permutation.
From Verif Require Import StencilModel StencilProofs AccessModel StreamModel StreamSpec AccessProofs.
Import ListNotations.

Section LatticeLemmas.
  Context (L : lattice).

  Lemma shift_cancel (x y : cell L) v : length v = ldim L -> shift x v = shift y v -> x = y.
  Proof.
    intros Hv E. apply (f_equal (fun z => shift z (vneg v))) in E.
    rewrite !shift_add in E by (rewrite ?vneg_length; exact Hv).
    rewrite vadd_neg_r, Hv, !shift_zero in E. exact E.
  Qed.

  Lemma shift_back (x : cell L) v : length v = ldim L -> shift (shift x v) (vneg v) = x.
  Proof.
    intros Hv. rewrite shift_add by (rewrite ?vneg_length; exact Hv).
    rewrite vadd_neg_r, Hv. apply shift_zero.
  Qed.

  Lemma shift_back' (x : cell L) v : length v = ldim L -> shift (shift x (vneg v)) v = x.
  Proof.
    intros Hv. rewrite shift_add by (rewrite ?vneg_length; exact Hv).
    rewrite vadd_neg_l, Hv. apply shift_zero.
  Qed.
End LatticeLemmas.

Lemma link_eq_dec (L : lattice) (a b : link L) : {a = b} + {a <> b}.
Proof.
  destruct a as [x i], b as [y j]. destruct (cell_eq_dec x y) as [->|]; [|right; congruence].
  destruct (Nat.eq_dec i j) as [->|]; [left; reflexivity|right; congruence].
Qed.

Section Mem.
  Context (L : lattice) (V : Type).
  Notation mem := (mem L V).

  Lemma upd_same (m : mem) c k v : upd L V m c k v c k = v.
  Proof. unfold upd. destruct (cell_eq_dec c c); [|congruence]. now rewrite Nat.eqb_refl. Qed.

  Lemma upd_other (m : mem) c k v c' k' : (c, k) <> (c', k') -> upd L V m c k v c' k' = m c' k'.
  Proof.
    intros H. unfold upd. destruct (cell_eq_dec c c'); [|reflexivity].
    destruct (Nat.eqb_spec k k'); [congruence|reflexivity].
  Qed.

  Lemma load_seq (m : mem) x (f : nat -> access) n :
    load L V m x (map f (seq 0 n)) = map (fun i => m (shift x (off (f i))) (idx (f i))) (seq 0 n).
  Proof. unfold load. rewrite map_map. reflexivity. Qed.

  Section Store.
    Context (x : cell L) (f : nat -> access) (Q : nat).
    Definition loc (x : cell L) (a : access) : cell L * nat := (shift x (off a), idx a).
    Hypothesis Hinj : forall i j, i < Q -> j < Q -> idx (f i) = idx (f j) -> i = j.

    Lemma store_spec_aux (v0 : V) : forall n k (vals : list V) (m : mem),
      length vals = n -> k + n <= Q ->
      (forall c q, (forall i, k <= i < k + n -> loc x (f i) <> (c, q)) ->
         store L V m x (map f (seq k n)) vals c q = m c q) /\
      (forall i, i < n ->
         store L V m x (map f (seq k n)) vals (shift x (off (f (k + i)))) (idx (f (k + i)))
         = nth i vals v0).
    Proof.
      induction n as [|n IH]; intros k vals m Hl Hk.
      - split; [|intros i Hi; lia]. intros c q _. destruct vals; reflexivity.
      - destruct vals as [|v vals]; [discriminate|]. simpl in Hl.
        assert (Hl' : length vals = n) by lia.
        unfold store. cbn [seq map combine fold_left fst snd].
        set (m1 := upd L V m (shift x (off (f k))) (idx (f k)) v).
        specialize (IH (S k) vals m1 Hl' ltac:(lia)). destruct IH as [IH1 IH2].
        unfold store in IH1, IH2. split.
        + intros c q Hcq. rewrite IH1.
          * unfold m1. apply upd_other. intros E. apply (Hcq k); [lia|]. unfold loc. exact E.
          * intros i Hi. apply Hcq. lia.
        + intros i Hi. destruct i as [|i].
          * rewrite Nat.add_0_r. rewrite IH1; [apply upd_same|].
            intros i Hi' E. unfold loc in E. injection E as _ E.
            apply Hinj in E; lia.
          * replace (k + S i) with (S k + i) by lia. simpl nth. apply IH2. lia.
    Qed.

    Lemma store_hit (v0 : V) (vals : list V) (m : mem) i : length vals = Q -> i < Q ->
      store L V m x (map f (seq 0 Q)) vals (shift x (off (f i))) (idx (f i)) = nth i vals v0.
    Proof. intros Hl Hi. apply (store_spec_aux v0 Q 0 vals m Hl (le_n _)); exact Hi. Qed.

    Lemma store_miss (vals : list V) (m : mem) c q : length vals = Q ->
      (forall i, i < Q -> loc x (f i) <> (c, q)) ->
      store L V m x (map f (seq 0 Q)) vals c q = m c q.
    Proof.
      intros Hl Hm. destruct vals as [|v vals].
      - unfold store. rewrite combine_nil. reflexivity.
      - apply (store_spec_aux v Q 0 (v :: vals) m Hl (le_n _)).
        intros i Hi. apply Hm. lia.
    Qed.
  End Store.
End Mem.
Arguments loc {L}.

Section Pattern.
  Context (L : lattice) (V : Type) (v0 : V) (S : stencil) (p : pattern).
  Notation D := (ldim L).
  Notation Q := (length S).
  Notation dir := (dir S).
  Notation opp := (opp S).
  Notation mem := (mem L V).
  Notation W t := (waddr D S p t).
  Notation R t := (raddr D S p t).

  (* slots written at time t by different (cell, direction) pairs are different *)
  Lemma wloc_inj t (x : cell L) i (y : cell L) j : supported p D S t -> i < Q -> j < Q ->
    loc x (W t i) = loc y (W t j) -> x = y /\ i = j.
  Proof.
    intros HP Hi Hj E. unfold loc in E. injection E as E1 E2.
    assert (i = j) as <- by (eapply waddr_idx_inj; eauto).
    split; [|reflexivity]. eapply shift_cancel; [|exact E1]. eapply waddr_length; eauto.
  Qed.

  Lemma rloc_inj t (x : cell L) i (y : cell L) j : supported p D S t -> i < Q -> j < Q ->
    loc x (R t i) = loc y (R t j) -> x = y /\ i = j.
  Proof.
    intros HP Hi Hj E. unfold loc in E. injection E as E1 E2.
    assert (i = j) as <- by (eapply raddr_idx_inj; eauto).
    split; [|reflexivity]. eapply shift_cancel; [|exact E1]. eapply raddr_length; eauto.
  Qed.

  (* what x reads for direction i at the next step was written by its upstream neighbour *)
  Lemma rloc_next t (x : cell L) i : supported p D S t -> i < Q ->
    loc x (R (ts_next t) i) = loc (shift x (vneg (dir i))) (W t i).
  Proof.
    intros HP Hi. destruct (write_is_next_read p D S t HP i Hi) as [E1 E2].
    unfold loc. rewrite E1, E2. f_equal.
    pose proof (dir_length D S (proj1 HP) i Hi) as HL.
    pose proof (raddr_length p D S (ts_next t) (supported_next p D S t HP) i Hi) as HLr.
    rewrite <- shift_add by assumption. rewrite shift_back' by assumption. reflexivity.
  Qed.

  Lemma inplace_loc t (x : cell L) i : supported p D S t -> is_inplace p = true -> i < Q ->
    loc x (W t i) = loc x (R t (opp i)).
  Proof. intros HP Hip Hi. rewrite (inplace_write_is_read p D S t HP) by assumption. reflexivity. Qed.

  Lemma inplace_loc' t (x : cell L) i : supported p D S t -> is_inplace p = true -> i < Q ->
    loc x (R t i) = loc x (W t (opp i)).
  Proof.
    intros HP Hip Hi. rewrite inplace_loc by (try assumption; eapply opp_lt; eauto; apply HP).
    erewrite opp_opp by (try eassumption; apply HP). reflexivity.
  Qed.

  (* reading a memory at a location *)
  Definition at_loc (m : mem) (l : cell L * nat) : V := m (fst l) (snd l).

  Lemma store_at_hit t (m : mem) x vals i : supported p D S t -> length vals = Q -> i < Q ->
    at_loc (store L V m x (map (W t) (seq 0 Q)) vals) (loc x (W t i)) = nth i vals v0.
  Proof.
    intros HP Hl Hi. unfold at_loc, loc; simpl. apply store_hit; auto.
    intros a b Ha Hb. eapply waddr_idx_inj; eauto.
  Qed.

  Lemma store_at_miss t (m : mem) x vals l : supported p D S t -> length vals = Q ->
    (forall i, i < Q -> loc x (W t i) <> l) ->
    at_loc (store L V m x (map (W t) (seq 0 Q)) vals) l = at_loc m l.
  Proof.
    intros HP Hl Hm. destruct l as [c q]. unfold at_loc; simpl. apply store_miss; auto.
    intros a b Ha Hb. eapply waddr_idx_inj; eauto.
  Qed.

  Lemma load_eq t (m : mem) x :
    load L V m x (map (R t) (seq 0 Q)) = map (fun i => at_loc m (loc x (R t i))) (seq 0 Q).
  Proof. apply load_seq. Qed.

  Lemma load_eq_w t (m : mem) x :
    load L V m x (map (W t) (seq 0 Q)) = map (fun i => at_loc m (loc x (W t i))) (seq 0 Q).
  Proof. apply load_seq. Qed.

  (* ----- setting all cells ----- *)
  Lemma setter_fold t (g : cell L -> list V) : supported p D S t ->
    (forall x, length (g x) = Q) ->
    forall xs (m : mem),
    let m' := fold_left (fun m x => store L V m x (map (W t) (seq 0 Q)) (g x)) xs m in
    (forall x i, In x xs -> i < Q -> at_loc m' (loc x (W t i)) = nth i (g x) v0) /\
    (forall l, (forall (x : cell L) i, In x xs -> i < Q -> loc x (W t i) <> l) -> at_loc m' l = at_loc m l).
  Proof.
    intros HP Hg. induction xs as [|x xs IH]; intros m; cbn [fold_left].
    - split; [intros ? ? []|reflexivity].
    - set (m1 := store L V m x (map (W t) (seq 0 Q)) (g x)).
      destruct (IH m1) as [IH1 IH2]. split.
      + intros y i Hy Hi. destruct (in_dec cell_eq_dec y xs) as [Hin|Hnin].
        * apply IH1; assumption.
        * destruct Hy as [->|Hy]; [|contradiction].
          rewrite IH2.
          -- unfold m1. apply store_at_hit; auto.
          -- intros z j Hz Hj E. apply wloc_inj in E; auto. destruct E as [-> _]. contradiction.
      + intros l Hl. rewrite IH2.
        * unfold m1. apply store_at_miss; auto. intros i Hi. apply Hl; [left; reflexivity|exact Hi].
        * intros z j Hz Hj. apply Hl; [right; exact Hz|exact Hj].
  Qed.

  (* ----- the in-place kernel ----- *)
  Lemma inplace_fold t (C : cell L -> list V -> list V) : supported p D S t -> is_inplace p = true ->
    (forall x f, length f = Q -> length (C x f) = Q) ->
    forall xs (m : mem), NoDup xs ->
    let m' := fold_left (fun m x => store L V m x (map (W t) (seq 0 Q))
                                      (C x (load L V m x (map (R t) (seq 0 Q))))) xs m in
    (forall x i, In x xs -> i < Q ->
       at_loc m' (loc x (W t i)) =
       nth i (C x (map (fun j => at_loc m (loc x (R t j))) (seq 0 Q))) v0) /\
    (forall l, (forall (x : cell L) i, In x xs -> i < Q -> loc x (W t i) <> l) -> at_loc m' l = at_loc m l).
  Proof.
    intros HP Hip HC. induction xs as [|x xs IH]; intros m Hnd; cbn [fold_left].
    - split; [intros ? ? []|reflexivity].
    - inversion Hnd as [|? ? Hnx Hnd']; subst.
      set (vals := C x (load L V m x (map (R t) (seq 0 Q)))).
      set (m1 := store L V m x (map (W t) (seq 0 Q)) vals).
      assert (Hlv : length vals = Q).
      { apply HC. rewrite load_eq, map_length, seq_length. reflexivity. }
      destruct (IH m1 Hnd') as [IH1 IH2]. split.
      + intros y i Hy Hi. destruct (in_dec cell_eq_dec y xs) as [Hin|Hnin].
        * rewrite IH1 by assumption. f_equal. f_equal. apply map_ext_in.
          intros j Hj. apply in_seq in Hj. unfold m1. apply store_at_miss; auto.
          intros k Hk E. rewrite inplace_loc in E by auto.
          apply rloc_inj in E; auto; [|eapply opp_lt; eauto; apply HP|lia].
          destruct E as [-> _]. contradiction.
        * destruct Hy as [->|Hy]; [|contradiction].
          rewrite IH2.
          -- unfold m1. rewrite store_at_hit by auto. unfold vals. rewrite load_eq. reflexivity.
          -- intros z j Hz Hj E. apply wloc_inj in E; auto. destruct E as [-> _]. contradiction.
      + intros l Hl. rewrite IH2.
        * unfold m1. apply store_at_miss; auto. intros i Hi. apply Hl; [left; reflexivity|exact Hi].
        * intros z j Hz Hj. apply Hl; [right; exact Hz|exact Hj].
  Qed.

  (* ----- one update, both kinds ----- *)
  Lemma update_spec t C (xs : list (cell L)) s : supported p D S t -> NoDup xs ->
    (forall x f, length f = Q -> length (C x f) = Q) ->
    exists s', update L V p t S xs C s = Ok s' /\
      (forall x i, In x xs -> i < Q ->
         at_loc (src s') (loc x (W t i)) =
         nth i (C x (map (fun j => at_loc (src s) (loc x (R t j))) (seq 0 Q))) v0) /\
      (is_inplace p = true -> tmp s' = tmp s /\
       forall l, (forall x i, In x xs -> i < Q -> loc x (W t i) <> l) ->
          at_loc (src s') l = at_loc (src s) l) /\
      (is_inplace p = false -> tmp s' = src s /\
       forall l, (forall x i, In x xs -> i < Q -> loc x (W t i) <> l) ->
          at_loc (src s') l = at_loc (tmp s) l).
  Proof.
    intros HP Hnd HC. unfold update.
    pose proof (reads_of_seq p D S t HP) as HR. pose proof (writes_of_seq p D S t HP) as HW.
    unfold reads_of, writes_of in *.
    destruct (get_accessor p t) as [a|]; [|discriminate]. simpl in *.
    rewrite HR, HW. simpl. destruct (is_inplace p) eqn:Hip.
    - eexists; split; [reflexivity|]. cbn [src tmp].
      destruct (inplace_fold t C HP Hip HC xs (src s) Hnd) as [H1 H2].
      split; [exact H1|]. split; [|discriminate]. intros _. split; [reflexivity|exact H2].
    - eexists; split; [reflexivity|]. cbn [src tmp].
      destruct (setter_fold t (fun x => C x (load L V (src s) x (map (R t) (seq 0 Q)))) HP) with (xs := xs) (m := tmp s)
        as [H1 H2].
      { intros x. apply HC. rewrite load_eq, map_length, seq_length. reflexivity. }
      split; [|split; [discriminate|]].
      + intros x i Hx Hi. rewrite H1 by assumption. rewrite load_eq. reflexivity.
      + intros _. split; [reflexivity|exact H2].
  Qed.

  Lemma between_seq t : supported p D S t ->
    between_timesteps p t S =
      Ok (map (W t) (seq 0 Q), map (R (ts_next t)) (seq 0 Q)).
  Proof.
    intros HP. unfold between_timesteps.
    rewrite (writes_of_seq p D S t HP).
    rewrite (reads_of_seq p D S (ts_next t) (supported_next p D S t HP)).
    destruct t; try reflexivity. simpl.
    destruct HP as [_ HP]. destruct (is_inplace p) eqn:E; [|reflexivity].
    exfalso. destruct p; try discriminate; try congruence; destruct HP; congruence.
  Qed.

  (* ----- boundary links ----- *)
  Section Boundary.
    Context (t : timestep) (HP : supported p D S t).
    Context (fluid : cell L -> bool).
    Context (B : cell L -> nat -> brule V).
    Context (f : cell L -> list V).     (* post-collision populations *)
    Hypothesis HB : forall x i a, is_link S fluid (x, i) -> In a (b_reads (B x i)) -> readable S fluid x a.

    Definition holds_post (m : mem) : Prop :=
      forall (x : cell L) i, fluid x = true -> i < Q -> at_loc m (loc x (W t i)) = nth i (f x) v0.

    Lemma resolve_ok (x : cell L) a : readable S fluid x a ->
      exists b, resolve (map (W t) (seq 0 Q)) (map (R (ts_next t)) (seq 0 Q)) a = Ok b /\
        (forall m, holds_post m -> at_loc m (loc x b) = pacc_value L V v0 S f x a).
    Proof.
      assert (HN : forall (g : nat -> access) j, j < Q -> nth_error (map g (seq 0 Q)) j = Some (g j)).
      { intros g j Hj. rewrite nth_error_map, (nth_error_nth' _ 0) by (rewrite seq_length; exact Hj).
        rewrite seq_nth by exact Hj. reflexivity. }
      intros Hr. destruct a as [o j|o j]; simpl in Hr; destruct Hr as (Hj & Ho & Hf).
      - simpl. rewrite HN by exact Hj. eexists; split; [reflexivity|]. intros m Hm.
        simpl. rewrite <- (Hm _ j Hf Hj). unfold loc; simpl. f_equal. f_equal.
        rewrite vadd_comm. symmetry. apply shift_add; [exact Ho|eapply waddr_length; eauto].
      - simpl. rewrite HN by exact Hj. eexists; split; [reflexivity|]. intros m Hm.
        simpl. rewrite <- (Hm _ j Hf Hj). rewrite <- (rloc_next t (shift x o) j HP Hj).
        unfold loc; simpl. f_equal. f_equal.
        rewrite vadd_comm. symmetry. apply shift_add; [exact Ho|].
        eapply raddr_length; eauto. apply supported_next; exact HP.
    Qed.

    Lemma mapM_resolve x (accs : list pacc) : (forall a, In a accs -> readable S fluid x a) ->
      exists rs, mapM (resolve (map (W t) (seq 0 Q)) (map (R (ts_next t)) (seq 0 Q))) accs = Ok rs /\
        (forall m, holds_post m -> load L V m x rs = map (pacc_value L V v0 S f x) accs).
    Proof.
      induction accs as [|a accs IH]; intros Ha.
      - exists []. split; reflexivity.
      - destruct (resolve_ok x a (Ha a (or_introl eq_refl))) as (b & Hb & Hv).
        destruct IH as (rs & Hrs & Hvs); [intros; apply Ha; right; assumption|].
        exists (b :: rs). cbn [mapM]. rewrite Hb. cbn [rbind]. rewrite Hrs. split; [reflexivity|].
        intros m Hm. simpl. rewrite <- (Hvs m Hm), <- (Hv m Hm). reflexivity.
    Qed.

    Definition bvalue (x : cell L) (i : nat) : V :=
      b_fun (B x i) (map (pacc_value L V v0 S f x) (b_reads (B x i))).

    Lemma bc_link_spec m x i : holds_post m -> is_link S fluid (x, i) ->
      exists m', bc_link L V S (map (W t) (seq 0 Q)) (map (R (ts_next t)) (seq 0 Q)) B m (x, i) = Ok m' /\
        m' = upd L V m (fst (loc x (R (ts_next t) (opp i)))) (snd (loc x (R (ts_next t) (opp i)))) (bvalue x i).
    Proof.
      intros Hm Hlink. pose proof Hlink as (Hx & Hi & Hnf). simpl in Hx, Hi, Hnf.
      destruct (mapM_resolve x (b_reads (B x i))) as (rs & Hrs & Hv).
      { intros a Ha. eapply HB; eauto. }
      unfold bc_link. rewrite Hrs. cbn [rbind].
      rewrite (dir_nth_error S i Hi).
      rewrite (st_inverse_index_dir D S (proj1 HP) i Hi). cbn [rbind].
      assert (Ho : opp i < Q) by (eapply opp_lt; eauto; apply HP).
      unfold resolve at 1.
      rewrite nth_error_map, (nth_error_nth' _ 0) by (rewrite seq_length; exact Ho).
      rewrite seq_nth by exact Ho. cbn [option_map rbind off idx].
      eexists; split; [reflexivity|]. cbn [fst snd loc plus].
      rewrite (dimD_D D S (proj1 HP)).
      pose proof (raddr_length p D S (ts_next t) (supported_next p D S t HP) _ Ho) as HLr.
      rewrite (vadd_zero_r' _ _ HLr).
      unfold bvalue. rewrite Hv by exact Hm. reflexivity.
    Qed.

    (* a link's destination slot lies, seen from the writing side, in a non-fluid cell *)
    Lemma link_slot (x : cell L) i : is_link S fluid (x, i) ->
      loc x (R (ts_next t) (opp i)) = loc (shift x (dir i)) (W t (opp i)).
    Proof.
      intros (Hx & Hi & Hnf). simpl in *.
      rewrite (rloc_next t x (opp i) HP) by (eapply opp_lt; eauto; apply HP).
      rewrite (dir_opp D S (proj1 HP)) by exact Hi. rewrite vneg_involutive. reflexivity.
    Qed.

    Lemma links_fold : forall links m, holds_post m -> (forall l, In l links -> is_link S fluid l) ->
      exists m', foldM (bc_link L V S (map (W t) (seq 0 Q)) (map (R (ts_next t)) (seq 0 Q)) B) links m = Ok m' /\
        holds_post m' /\
        (forall x i, In (x, i) links -> at_loc m' (loc x (R (ts_next t) (opp i))) = bvalue x i) /\
        (forall l, (forall x i, In (x, i) links -> loc x (R (ts_next t) (opp i)) <> l) -> at_loc m' l = at_loc m l).
    Proof.
      induction links as [|[x i] links IH]; intros m Hm Hl.
      - exists m. split; [reflexivity|]. split; [exact Hm|]. split; [intros ? ? []|reflexivity].
      - assert (Hlink : is_link S fluid (x, i)) by (apply Hl; left; reflexivity).
        destruct (bc_link_spec m x i Hm Hlink) as (m1 & Hm1 & Em1).
        assert (Hhp : holds_post m1).
        { intros y j Hy Hj. rewrite <- (Hm y j Hy Hj). rewrite Em1. unfold at_loc. apply upd_other.
          intros E. rewrite <- !surjective_pairing in E. rewrite link_slot in E by exact Hlink.
          apply wloc_inj in E; auto.
          - destruct E as [<- _]. destruct Hlink as (_ & _ & Hnf). simpl in Hnf. congruence.
          - eapply opp_lt; [apply HP|]. apply Hlink. }
        destruct (IH m1 Hhp) as (m' & Hf & Hhp' & Hv & Ho); [intros; apply Hl; right; assumption|].
        exists m'. cbn [foldM]. rewrite Hm1. cbn [rbind]. split; [exact Hf|]. split; [exact Hhp'|]. split.
        + intros y j Hy.
          destruct (in_dec (link_eq_dec L) (y, j) links) as [Hin|Hnin].
          * apply Hv; exact Hin.
          * destruct Hy as [[= -> ->]|Hy]; [|contradiction].
            rewrite Ho.
            -- rewrite Em1. unfold at_loc. apply upd_same.
            -- intros z k Hz E.
               assert (Hzl : is_link S fluid (z, k)) by (apply Hl; right; exact Hz).
               apply rloc_inj in E; [|apply supported_next; exact HP| |].
               ++ destruct E as [-> E]. apply opp_inj with (D := D) in E;
                    [|apply HP|apply Hzl|apply Hlink]. subst. contradiction.
               ++ eapply opp_lt; [apply HP|apply Hzl].
               ++ eapply opp_lt; [apply HP|apply Hlink].
        + intros l Hnl. rewrite Ho by (intros; apply Hnl; right; assumption).
          rewrite Em1. destruct l as [c q]. unfold at_loc; simpl. apply upd_other.
          apply (Hnl x i). left; reflexivity.
    Qed.
  End Boundary.
End Pattern.

Lemma map_nth_seq {V} (v0 : V) (l : list V) Q : length l = Q -> map (fun i => nth i l v0) (seq 0 Q) = l.
Proof.
  intros <-. apply nth_ext with (d := v0) (d' := v0); [now rewrite map_length, seq_length|].
  intros n Hn. rewrite map_length, seq_length in Hn.
  rewrite (nth_indep (map (fun i => nth i l v0) (seq 0 (length l))) v0 ((fun i => nth i l v0) 0))
    by (rewrite map_length, seq_length; exact Hn).
  rewrite (map_nth (fun i => nth i l v0)), seq_nth by exact Hn. reflexivity.
Qed.

Section Main.
  Context (L : lattice) (V : Type) (v0 : V) (S : stencil) (p : pattern) (fluid : cell L -> bool).
  Context (xs0 : list (cell L)) (xs : nat -> list (cell L)) (links : nat -> list (link L)).
  Context (C : nat -> cell L -> list V -> list V) (B : nat -> cell L -> nat -> brule V).
  Context (f0 : cell L -> list V).
  Notation D := (ldim L).
  Notation Q := (length S).
  Hypothesis Hxs0 : forall x, fluid x = true -> In x xs0.
  Hypothesis Hnd : forall n, NoDup (xs n).
  Hypothesis Hxs : forall n x, In x (xs n) <-> fluid x = true.
  Hypothesis Hlinks : forall n l, In l (links n) <-> is_link S fluid l.
  Hypothesis HC : forall n x f, length f = Q -> length (C n x f) = Q.
  Hypothesis HB : forall n x i a, is_link S fluid (x, i) -> In a (b_reads (B n x i)) -> readable S fluid x a.
  Hypothesis Hf0 : forall x, length (f0 x) = Q.

  Notation post := (post v0 S fluid C B f0).
  Notation hp t n m := (holds_post L V v0 S p t fluid (post n) m).

  Lemma one_step_correct t n s : supported p D S t -> hp t n (src s) ->
    exists s', one_step L V p S xs links C B n (t, s) = Ok (ts_next t, s') /\
               hp (ts_next t) (Datatypes.S n) (src s').
  Proof.
    intros HP Hm.
    destruct (links_fold L V v0 S p t HP fluid (B n) (post n) (HB n) (links n) (src s) Hm)
      as (m1 & Hf & Hhp & Hv & _).
    { intros l Hl. apply (Hlinks n). exact Hl. }
    destruct (update_spec L V v0 S p (ts_next t) (C n) (xs n) {| src := m1; tmp := tmp s |}
                (supported_next p D S t HP) (Hnd n) (HC n)) as (s' & Hu & Hw & _).
    exists s'. split.
    - unfold one_step, boundary. rewrite (between_seq L S p t HP). cbn [rbind fst snd].
      rewrite Hf. cbn [rbind]. rewrite Hu. reflexivity.
    - intros x i Hx Hi. rewrite Hw by (try apply Hxs; assumption).
      cbn [StreamSpec.post src]. f_equal. f_equal. apply map_ext_in.
      intros j Hj. apply in_seq in Hj. assert (Hj' : j < Q) by lia.
      destruct (fluid (shift x (vneg (dir S j)))) eqn:Ef.
      + rewrite (rloc_next L S p t x j HP Hj'). apply Hhp; assumption.
      + assert (Ho : opp S j < Q) by (eapply opp_lt; [apply HP|exact Hj']).
        assert (Hlink : is_link S fluid (x, opp S j)).
        { split; [exact Hx|]. split; [exact Ho|]. cbn [fst snd].
          rewrite (dir_opp D S (proj1 HP)) by exact Hj'. exact Ef. }
        specialize (Hv x (opp S j) (proj2 (Hlinks n _) Hlink)).
        rewrite (opp_opp D S (proj1 HP) j Hj') in Hv. rewrite Hv. reflexivity.
  Qed.

  Fixpoint ts_after (t : timestep) (n : nat) : timestep :=
    match n with O => t | Datatypes.S n' => ts_next (ts_after t n') end.

  Lemma supported_after t n : supported p D S t -> supported p D S (ts_after t n).
  Proof. intros HP. induction n; [exact HP|]. apply supported_next. exact IHn. Qed.

  Lemma run_correct t s n : supported p D S t -> hp t 0 (src s) ->
    exists s', run L V p S xs links C B n (t, s) = Ok (ts_after t n, s') /\ hp (ts_after t n) n (src s').
  Proof.
    intros HP Hm. induction n as [|n IH].
    - exists s. split; [reflexivity|exact Hm].
    - destruct IH as (s1 & Hr & Hh).
      destruct (one_step_correct (ts_after t n) n s1 (supported_after t n HP) Hh) as (s2 & H2 & H3).
      exists s2. split; [|exact H3]. cbn [run]. rewrite Hr. cbn [rbind]. exact H2.
  Qed.

  Lemma post_length n x : length (post n x) = Q.
  Proof.
    destruct n; [apply Hf0|]. cbn [StreamSpec.post]. apply HC. now rewrite map_length, seq_length.
  Qed.

  Theorem simulate_correct t m_src m_tmp n x : supported p D S t -> fluid x = true ->
    simulate L V p t S xs0 xs links C B f0 m_src m_tmp n x = Ok (post n x).
  Proof.
    intros HP Hx. unfold simulate, setter, get_field_accesses.
    pose proof (writes_of_seq p D S t HP) as HW. unfold writes_of in HW.
    destruct (get_accessor p t) as [a|]; [|discriminate]. simpl in HW. cbn [rbind]. rewrite HW. cbn [rbind].
    destruct (setter_fold L V v0 S p t f0 HP Hf0 xs0 m_src) as [H1 _].
    set (m := fold_left _ _ _) in *.
    destruct (run_correct t {| src := m; tmp := m_tmp |} n HP) as (s' & Hr & Hh).
    { intros y i Hy Hi. apply H1; [apply Hxs0; exact Hy|exact Hi]. }
    rewrite Hr. cbn [rbind fst snd]. unfold getter, get_field_accesses.
    pose proof (writes_of_seq p D S _ (supported_after t n HP)) as HW'. unfold writes_of in HW'.
    destruct (get_accessor p (ts_after t n)) as [a'|]; [|discriminate]. simpl in HW'. cbn [rbind].
    rewrite HW'. cbn [rbind]. f_equal. rewrite load_eq_w.
    rewrite <- (map_nth_seq v0 (post n x) Q (post_length n x)).
    apply map_ext_in. intros i Hi. apply in_seq in Hi. apply Hh; [exact Hx|lia].
  Qed.
End Main.
