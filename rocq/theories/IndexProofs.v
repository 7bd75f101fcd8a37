From Coq Require Import String List ZArith Bool Arith Lia.
From Verif Require Import StencilModel StencilProofs AccessModel StreamModel StreamSpec AccessProofs
  StreamProofs RaceProofs IndexModel.
Import ListNotations.

Lemma key_eqb_eq a b : key_eqb a b = true <-> a = b.
Proof.
  destruct a as [[|] x], b as [[|] y]; simpl; split; try discriminate; try (intros [= <-]; destruct x; reflexivity).
  - intros H. apply eqb_prop in H. congruence.
  - intros H. apply eqb_prop in H. congruence.
Qed.

Lemma mapM_seq_Ok {A} (f : nat -> res A) (g : nat -> A) k n :
  (forall i, k <= i < k + n -> f i = Ok (g i)) -> mapM f (seq k n) = Ok (map g (seq k n)).
Proof.
  revert k; induction n as [|n IH]; intros k H; simpl; [reflexivity|].
  rewrite H by lia. simpl. rewrite IH by (intros; apply H; lia). reflexivity.
Qed.

Lemma mapM_map_Ok' {A B C} (f : B -> res C) (h : A -> B) (g : A -> C) l :
  (forall a, In a l -> f (h a) = Ok (g a)) -> mapM f (map h l) = Ok (map g l).
Proof.
  induction l as [|a l IH]; simpl; intros H; [reflexivity|].
  rewrite H by auto. simpl. rewrite IH by auto. reflexivity.
Qed.

Lemma nth_map_seq_self {A} (d0 : A) (l : list A) : map (fun d => nth d l d0) (seq 0 (length l)) = l.
Proof.
  apply map_nth_seq. reflexivity.
Qed.

Section Index.
  Context (p : pattern) (D : nat) (S : stencil) (t : timestep) (HP : supported p D S t).
  Notation Q := (length S).

  (* the access that direction i should be translated to *)
  Definition base (f : fdir) (i : nat) : access :=
    match f with DIn => raddr D S p (ts_next t) i | DOut => waddr D S p t i end.
  Definition target (k : key) (i : nat) : access :=
    base (fst k) (if snd k then opp S i else i).

  Lemma between_seq' : between_timesteps p t S =
      Ok (map (waddr D S p t) (seq 0 Q), map (raddr D S p (ts_next t)) (seq 0 Q)).
  Proof.
    unfold between_timesteps.
    rewrite (writes_of_seq p D S t HP).
    rewrite (reads_of_seq p D S (ts_next t) (supported_next p D S t HP)).
    destruct t; try reflexivity. simpl.
    destruct HP as [_ HP2]. destruct (is_inplace p) eqn:E; [|reflexivity].
    exfalso. clear HP. destruct p; try discriminate; try congruence; destruct HP2; congruence.
  Qed.

  Context (b : indexing) (Hb : mk_indexing p t S = Ok b).

  Lemma b_fields : ix_stencil b = S /\ forall f, accesses_of b f = map (base f) (seq 0 Q).
  Proof.
    unfold mk_indexing in Hb. rewrite between_seq' in Hb. simpl in Hb. injection Hb as <-. split; [reflexivity|].
    intros [|]; reflexivity.
  Qed.

  Lemma base_length f i : i < Q -> length (off (base f i)) = D.
  Proof.
    intros Hi. destruct f; simpl.
    - apply raddr_length; [apply supported_next; exact HP|exact Hi].
    - apply waddr_length; assumption.
  Qed.

  Lemma inverse_dir_index_opp i : i < Q -> inverse_dir_index S i = Ok (opp S i).
  Proof.
    intros Hi. unfold inverse_dir_index. rewrite (dir_nth_error S i Hi). unfold st_index.
    rewrite vneg_length, (dir_length D S (proj1 HP) i Hi), (dimD_D D S (proj1 HP)), Nat.eqb_refl.
    destruct (opp_spec D S (proj1 HP) i Hi) as [-> _]. reflexivity.
  Qed.

  Lemma translated_accesses_ok k : translated_accesses b k = Ok (map (target k) (seq 0 Q)).
  Proof.
    destruct b_fields as [E1 E2]. unfold translated_accesses. rewrite E1, E2. destruct k as [f [|]]; simpl.
    - rewrite (mapM_seq_Ok _ (opp S)).
      + simpl. apply mapM_map_Ok'. intros i Hi. apply in_seq in Hi.
        rewrite nth_error_seqmap by (eapply opp_lt; [apply HP|lia]). reflexivity.
      + intros i Hi. apply inverse_dir_index_opp. unfold sizeQ in Hi. lia.
    - reflexivity.
  Qed.

  Lemma target_length k i : i < Q -> length (off (target k i)) = D.
  Proof.
    intros Hi. unfold target. apply base_length. destruct (snd k); [|exact Hi].
    eapply opp_lt; [apply HP|exact Hi].
  Qed.

  Lemma translated_ok k : translated b k =
    Ok (map (fun i => idx (target k i)) (seq 0 Q),
        map (fun d => map (fun i => nth d (off (target k i)) 0%Z) (seq 0 Q)) (seq 0 D)).
  Proof.
    unfold translated. rewrite translated_accesses_ok. cbn [rbind].
    destruct b_fields as [E1 _]. rewrite E1, (dimD_D D S (proj1 HP)).
    rewrite (mapM_seq_Ok _ (fun d => map (fun i => nth d (off (target k i)) 0%Z) (seq 0 Q))).
    - cbn [rbind]. rewrite map_map. reflexivity.
    - intros d Hd. apply mapM_map_Ok'. intros i Hi. apply in_seq in Hi.
      rewrite (nth_error_nth' _ 0%Z) by (rewrite target_length by lia; lia). reflexivity.
  Qed.

  Lemma nth_error_eq_seqmap {A} (g : nat -> A) (l : list A) n i :
    map g (seq 0 n) = l -> i < n -> nth_error l i = Some (g i).
  Proof. intros <- Hi. apply nth_error_seqmap. exact Hi. Qed.

  Lemma trivial_index_spec k ti : trivial_index b k = Ok ti -> ti = true -> forall i, i < Q -> idx (target k i) = i.
  Proof.
    unfold trivial_index. rewrite translated_ok. cbn [rbind fst].
    destruct b_fields as [E1 _]. rewrite E1. intros [= <-]. unfold nat_list_eqb.
    destruct (list_eq_dec _ _ _) as [E|]; [|discriminate]. intros _ i Hi.
    apply (nth_error_eq_seqmap _ _ _ i) in E; [|exact Hi].
    unfold sizeQ in E. rewrite (nth_error_nth' _ 0) in E by (rewrite seq_length; exact Hi).
    rewrite seq_nth in E by exact Hi. now injection E.
  Qed.

  Lemma trivial_offset_spec k to : trivial_offset b k = Ok to -> to = true ->
    forall i, i < Q -> off (target k i) = vzero D.
  Proof.
    unfold trivial_offset. rewrite translated_ok. cbn [rbind snd].
    destruct b_fields as [E1 _]. rewrite E1, (dimD_D D S (proj1 HP)). intros [= <-]. unfold offs_eqb.
    destruct (list_eq_dec _ _ _) as [E|]; [|discriminate]. intros _ i Hi.
    apply nth_ext with (d := 0%Z) (d' := 0%Z).
    - rewrite target_length by exact Hi. now rewrite vzero_length.
    - rewrite target_length by exact Hi. intros d Hd.
      apply (nth_error_eq_seqmap _ _ _ d) in E; [|exact Hd].
      assert (E0 : nth_error (repeat (repeat 0%Z (sizeQ S)) D) d = Some (repeat 0%Z (sizeQ S)))
        by (apply nth_error_repeat; exact Hd).
      rewrite E0 in E. injection E as E. symmetry in E.
      apply (nth_error_eq_seqmap _ _ _ i) in E; [|exact Hi].
      rewrite nth_error_repeat in E by exact Hi. injection E as <-.
      unfold vzero. symmetry. apply nth_repeat.
  Qed.

  Lemma array_symbols_ok k r : exists sy r', array_symbols b k r = Ok (sy, r') /\
    incl (req_index r) (req_index r') /\ incl (req_offs r) (req_offs r') /\
    (sy_index sy = IxDir /\ (forall i, i < Q -> idx (target k i) = i) \/
     sy_index sy = IxArray k /\ In k (req_index r')) /\
    (sy_offs sy = OffZero /\ (forall i, i < Q -> off (target k i) = vzero D) \/
     sy_offs sy = OffArrays k /\ In k (req_offs r')).
  Proof.
    unfold array_symbols.
    destruct (trivial_index b k) as [ti|] eqn:Ei; [|unfold trivial_index in Ei; rewrite translated_ok in Ei; discriminate].
    destruct (trivial_offset b k) as [to|] eqn:Eo; [|unfold trivial_offset in Eo; rewrite translated_ok in Eo; discriminate].
    cbn [rbind]. do 2 eexists. split; [reflexivity|]. cbn [sy_index sy_offs req_index req_offs].
    pose proof (trivial_index_spec k ti Ei) as Hi. pose proof (trivial_offset_spec k to Eo) as Ho.
    split; [destruct ti; [apply incl_refl|apply incl_tl, incl_refl]|].
    split; [destruct to; [apply incl_refl|apply incl_tl, incl_refl]|].
    split.
    - destruct ti; [left; auto|right; split; [reflexivity|left; reflexivity]].
    - destruct to; [left; auto|right; split; [reflexivity|left; reflexivity]].
  Qed.

  Lemma lookup_ok {A} (f : key -> A) (l : list key) k : In k l ->
    lookup k (map (fun k => (k, f k)) l) = Ok (f k).
  Proof.
    intros Hin. unfold lookup. destruct (find _ _) as [e|] eqn:E.
    - apply find_some in E as [E1 E2]. apply key_eqb_eq in E2.
      apply in_map_iff in E1 as (k' & <- & _). simpl in E2. subst. reflexivity.
    - exfalso. assert (Hc : key_eqb k (fst (k, f k)) = false).
      { apply (find_none _ _ E (k, f k)). apply in_map_iff. exists k. auto. }
      simpl in Hc. rewrite (proj2 (key_eqb_eq k k) eq_refl) in Hc. discriminate.
  Qed.

  Definition node_of (r : required) : code_node :=
    {| cn_index := map (fun k => (k, map (fun i => idx (target k i)) (seq 0 Q))) (req_index r);
       cn_offs := map (fun k => (k, map (fun d => map (fun i => nth d (off (target k i)) 0%Z) (seq 0 Q)) (seq 0 D))) (req_offs r) |}.

  Lemma create_code_node_ok r : create_code_node b r = Ok (node_of r).
  Proof.
    unfold create_code_node.
    rewrite (mapM_ext _ (fun k => Ok (k, map (fun i => idx (target k i)) (seq 0 Q))))
      by (intros k _; rewrite translated_ok; reflexivity).
    rewrite mapM_map_Ok. cbn [rbind].
    rewrite (mapM_ext _ (fun k => Ok (k, map (fun d => map (fun i => nth d (off (target k i)) 0%Z) (seq 0 Q)) (seq 0 D))))
      by (intros k _; rewrite translated_ok; reflexivity).
    rewrite mapM_map_Ok. reflexivity.
  Qed.

  Lemma eval_ok k sy r v i : i < Q ->
    (sy_index sy = IxDir /\ (forall i, i < Q -> idx (target k i) = i) \/
     sy_index sy = IxArray k /\ In k (req_index r)) ->
    (sy_offs sy = OffZero /\ (forall i, i < Q -> off (target k i) = vzero D) \/
     sy_offs sy = OffArrays k /\ In k (req_offs r)) ->
    eval_symbols S (node_of r) i (sy, v) = Ok (mkacc (vadd (off (target k i)) v) (idx (target k i))).
  Proof.
    intros Hi HI HO. unfold eval_symbols. cbn [fst snd].
    assert (E1 : match sy_index sy with
         | IxDir => Ok i
         | IxArray k => rbind (lookup k (cn_index (node_of r))) (fun l => get_or (nth_error l i) IndexError)
         end = Ok (idx (target k i))).
    { destruct HI as [[-> HI]|[-> HI]].
      - now rewrite HI.
      - unfold node_of; cbn [cn_index].
        rewrite (lookup_ok (fun k => map (fun i => idx (target k i)) (seq 0 Q))) by exact HI. cbn [rbind].
        rewrite nth_error_seqmap by exact Hi. reflexivity. }
    rewrite E1. cbn [rbind].
    assert (E2 : match sy_offs sy with
         | OffZero => Ok (vzero (dimD S))
         | OffArrays k => rbind (lookup k (cn_offs (node_of r))) (fun ls =>
                          mapM (fun l => get_or (nth_error l i) IndexError) ls)
         end = Ok (off (target k i))).
    { destruct HO as [[-> HO]|[-> HO]].
      - rewrite HO by exact Hi. rewrite (dimD_D D S (proj1 HP)). reflexivity.
      - unfold node_of; cbn [cn_offs].
        rewrite (lookup_ok (fun k => map (fun d => map (fun i => nth d (off (target k i)) 0%Z) (seq 0 Q)) (seq 0 D))) by exact HO.
        cbn [rbind].
        rewrite (mapM_map_Ok' _ _ (fun d => nth d (off (target k i)) 0%Z)).
        + f_equal. rewrite <- (target_length k i Hi) at 1. apply nth_map_seq_self.
        + intros d Hd. rewrite nth_error_seqmap by exact Hi. reflexivity. }
    rewrite E2. reflexivity.
  Qed.

  Definition meant (q : proxy) (i : nat) : nat := match px_idx q with Literal n => n | RunTime => i end.

  Lemma substitute_one_ok q r : (forall n, px_idx q = Literal n -> n < Q) ->
    exists s r', substitute_one b q r = Ok (s, r') /\
    incl (req_index r) (req_index r') /\ incl (req_offs r) (req_offs r') /\
    forall r'' i, incl (req_index r') (req_index r'') -> incl (req_offs r') (req_offs r'') -> i < Q ->
      eval_subst S (node_of r'') i s =
        Ok (mkacc (vadd (off (target (px_key q) (meant q i))) (px_shift q)) (idx (target (px_key q) (meant q i)))).
  Proof.
    intros Hlit. unfold substitute_one, meant. destruct (px_idx q) as [|n] eqn:Eq.
    - destruct (array_symbols_ok (px_key q) r) as (sy & r1 & -> & Hi1 & Ho1 & HI & HO). cbn [rbind fst snd].
      do 2 eexists. split; [reflexivity|]. split; [exact Hi1|]. split; [exact Ho1|].
      intros r'' i Hir Hor Hi. apply eval_ok; [exact Hi| |].
      + destruct HI as [HI|[HI1 HI2]]; [left; exact HI|right; split; [exact HI1|]]. apply Hir, HI2.
      + destruct HO as [HO|[HO1 HO2]]; [left; exact HO|right; split; [exact HO1|]]. apply Hor, HO2.
    - specialize (Hlit n eq_refl). destruct b_fields as [E1 E2]. rewrite E1, E2.
      assert (E3 : (if snd (px_key q) then inverse_dir_index S n else Ok n) =
                   Ok (if snd (px_key q) then opp S n else n)).
      { destruct (snd (px_key q)); [apply inverse_dir_index_opp; exact Hlit|reflexivity]. }
      rewrite E3. cbn [rbind]. rewrite nth_error_seqmap.
      2:{ destruct (snd (px_key q)); [eapply opp_lt; [apply HP|exact Hlit]|exact Hlit]. }
      cbn [rbind get_or]. do 2 eexists. split; [reflexivity|]. split; [apply incl_refl|]. split; [apply incl_refl|].
      intros. reflexivity.
  Qed.

  Lemma substitute_ok ps : (forall q n, In q ps -> px_idx q = Literal n -> n < Q) ->
    forall r, exists l r', substitute b ps r = Ok (l, r') /\
    incl (req_index r) (req_index r') /\ incl (req_offs r) (req_offs r') /\
    length l = length ps /\
    forall n q, nth_error ps n = Some q -> exists s, nth_error l n = Some s /\
      forall r'' i, incl (req_index r') (req_index r'') -> incl (req_offs r') (req_offs r'') -> i < Q ->
        eval_subst S (node_of r'') i s =
        Ok (mkacc (vadd (off (target (px_key q) (meant q i))) (px_shift q)) (idx (target (px_key q) (meant q i)))).
  Proof.
    induction ps as [|q ps IH]; intros Hlit r; cbn [substitute].
    - exists [], r. split; [reflexivity|]. split; [apply incl_refl|]. split; [apply incl_refl|]. split; [reflexivity|].
      intros [|n] q; discriminate.
    - destruct (substitute_one_ok q r) as (s & r1 & -> & Hi1 & Ho1 & Hs).
      { intros n. apply Hlit. left; reflexivity. }
      cbn [rbind fst snd].
      destruct (IH (fun q' n Hq => Hlit q' n (or_intror Hq)) r1) as (l & r' & -> & Hi2 & Ho2 & Hlen & Hev).
      cbn [rbind fst snd].
      do 2 eexists. split; [reflexivity|].
      split; [eapply incl_tran; eauto|]. split; [eapply incl_tran; eauto|]. split; [simpl; congruence|].
      intros [|n] q' Hq; simpl in *.
      + injection Hq as <-. exists s. split; [reflexivity|]. intros r'' i Hir Hor Hi.
        apply Hs; [eapply incl_tran; eauto|eapply incl_tran; eauto|exact Hi].
      + apply (Hev n q' Hq).
  Qed.
End Index.

Theorem translation_arrays_correct p D S t ps :
  supported p D S t ->
  (forall q n, In q ps -> px_idx q = Literal n -> n < length S) ->
  exists b subs r cn, mk_indexing p t S = Ok b /\
    substitute b ps {| req_index := []; req_offs := [] |} = Ok (subs, r) /\
    create_code_node b r = Ok cn /\ length subs = length ps /\
    forall n q i j, nth_error ps n = Some q -> i < length S ->
      (let k := match px_idx q with Literal m => m | RunTime => i end in
       if snd (px_key q) then opposite S k j else j = k) ->
      exists s lst a, nth_error subs n = Some s /\
        (match fst (px_key q) with DOut => writes_of p t S | DIn => reads_of p (ts_next t) S end) = Ok lst /\
        nth_error lst j = Some a /\
        eval_subst S cn i s = Ok (mkacc (vadd (off a) (px_shift q)) (idx a)).
Proof.
  intros HP Hlit.
  assert (Hb : exists b, mk_indexing p t S = Ok b).
  { unfold mk_indexing. rewrite (between_seq' p D S t HP). simpl. eauto. }
  destruct Hb as [b Hb].
  destruct (substitute_ok p D S t HP b Hb ps Hlit {| req_index := []; req_offs := [] |})
    as (l & r & Hs & _ & _ & Hlen & Hev).
  exists b, l, r, (node_of p D S t r). split; [exact Hb|]. split; [exact Hs|].
  split; [apply (create_code_node_ok p D S t HP b Hb)|]. split; [exact Hlen|].
  intros n q i j Hq Hi Hj.
  destruct (Hev n q Hq) as (sy & Hsy & He).
  specialize (He r i (incl_refl _) (incl_refl _) Hi).
  fold (meant q i) in Hj. cbv zeta in Hj.
  assert (Hm : meant q i < length S).
  { unfold meant. destruct (px_idx q) as [|m] eqn:E; [exact Hi|]. eapply Hlit; [eapply nth_error_In; exact Hq|exact E]. }
  assert (Ej : j = if snd (px_key q) then opp S (meant q i) else meant q i).
  { destruct (snd (px_key q)); [|exact Hj]. destruct Hj as (d & Hd & Hk).
    eapply NoDup_nth_error_inj; [apply (proj1 HP)|exact Hk|].
    destruct (opp_spec D S (proj1 HP) (meant q i) Hm) as (E1 & E2 & E3).
    rewrite (dir_nth_error S (meant q i) Hm) in Hd. injection Hd as <-. apply index_of_Some. exact E1. }
  assert (Hjlt : j < length S).
  { rewrite Ej. destruct (snd (px_key q)); [eapply opp_lt; [apply HP|exact Hm]|exact Hm]. }
  exists sy, (map (base p D S t (fst (px_key q))) (seq 0 (length S))), (base p D S t (fst (px_key q)) j).
  split; [exact Hsy|]. split; [|split].
  - destruct (fst (px_key q)); [apply reads_of_seq, supported_next; exact HP|apply writes_of_seq; exact HP].
  - apply nth_error_seqmap. exact Hjlt.
  - rewrite He. unfold target. rewrite <- Ej. reflexivity.
Qed.
