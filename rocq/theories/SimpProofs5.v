(* Results for the two symmetry passes and for the moment substitution; a concrete instance of the contracts. *)
From Coq Require Import String List ZArith QArith Qreals Bool Arith Lia Reals Lra Permutation Sorting.
From Verif Require Import StencilModel StencilProofs SimpModel SimpSpec SimpProofs SimpProofs2 SimpProofs3 SimpProofs4.
Import ListNotations.
Local Open Scope R_scope.

Section P.
  Context {Op : Type} (sem : Op -> R -> R -> R) (K : cas Op) (mixed : name -> Prop) (HK : cas_ok sem K mixed).
  Notation env := (name -> R).
  Notation eval := (eval sem).
  Notation sat := (sat sem).
  Notation asg := (asg Op).
  Notation lhs l := (map fst l).

  (* any admissible order of the assignments gives the same values *)
  Lemma keeps_any_order (a a' : ac Op) l : ordered (all a) -> keeps_values sem a a' -> Permutation (all a') l -> ordered l ->
    forall p s, In s (lhs (mains a)) -> fold_left (assign sem) l p s = run sem a p s.
  Proof.
    intros HO HV HP HL p s Hs. assert (H : computes sem a p s (run sem a p s)) by (now apply computes_run). apply HV in H. destruct H as (e & H1 & H2 & _ & <-).
    apply (sat_unique sem l HL); [now apply run_sat| |].
    - intros t x Hx. apply H1. eapply Permutation_in; [symmetry; exact HP|exact Hx].
    - intros t Ht. rewrite run_other by exact Ht. symmetry. apply H2. intros Hin. apply Ht. eapply Permutation_in; [apply Permutation_map; exact HP|exact Hin].
  Qed.

  (* ---- split ---- *)
  Lemma table_ordered n0 n (t : table Op) (P : name -> Prop) : table_ok n0 n t -> increasing t ->
    (forall y j u, In (y, j) t -> mentions u y = true -> P u \/ exists i, u = Xi i /\ (n0 <= i < j)%nat) -> (forall k, P (Xi k) -> (k < n0)%nat) -> ordered (table_defs t).
  Proof.
    intros HT HI HM HP. split; [apply (table_numbered _ _ _ HT)|]. intros l1 d l2 E u Hu. unfold table_defs in E. apply map_eq_app in E. destruct E as (t1 & t2 & E & _ & E2).
    destruct t2 as [|[x k] t2]; [discriminate|]. cbn [map fst snd] in E2. injection E2 as <- <-. cbn [snd].
    assert (Hx : In (x, k) t) by (rewrite E; apply in_app_iff; right; now left).
    assert (Hk : exists j, u = Xi j /\ (k <= j)%nat).
    { cbn [map fst] in Hu. destruct Hu as [<-|Hu]; [exists k; auto|]. rewrite map_map in Hu. apply in_map_iff in Hu. destruct Hu as ([y j] & <- & Hy). exists j. split; [reflexivity|]. specialize (HI t1 x k t2 E y j Hy). lia. }
    destruct Hk as (j & -> & Hj). destruct (mentions (Xi j) x) eqn:Em; [|reflexivity]. exfalso. destruct (HM x k _ Hx Em) as [H|(i & [= <-] & Hi)]; [|lia].
    apply HP in H. destruct (proj2 HT x k Hx). lia.
  Qed.
  Lemma split_ok S symbols a a' : well_formed a -> fresh a -> split_by_symmetry Op K (Some S) (Some symbols) a = Ok a' -> well_formed a' /\ lhs (mains a') = lhs (mains a) /\ same_values sem a a'.
  Proof.
    intros HW HF H. pose proof HW as HW0. apply well_formed_iff in HW0. destruct HW0 as (W1 & W2 & W3 & W4).
    destruct (split_result sem K mixed HK S symbols a a' HF W2 H) as (st & [Hg Ht Hn Hk Hl Hv Hm Htn Hinc] & ->).
    assert (PF : forall k, (exists d, In d (mains a) /\ mentions (Xi k) (snd d) = true) -> (k < gen a)%nat).
    { intros k (d & Hd & Hm'). apply HF. apply occurs_all. right. right. right. eauto. }
    assert (ML : forall s k, In s (lhs (mains a)) -> s = Xi k -> (k < gen a)%nat) by (intros s k Hs ->; apply HF, occurs_all; auto).
    assert (P : well_formed {| subs := subs a ++ table_defs (s_table Op st); mains := s_dict Op st; gen := s_gen Op st |} /\
                same_values sem a {| subs := subs a ++ table_defs (s_table Op st); mains := s_dict Op st; gen := s_gen Op st |}).
    { apply (pass_ok sem a _ (table_defs (s_table Op st))); auto.
      - eapply table_ordered; [exact Ht|exact Hinc|exact Htn|exact PF].
      - intros t Hin Ho. apply lhs_in in Hin. destruct Hin as (y & Hin). unfold table_defs in Hin. apply in_map_iff in Hin. destruct Hin as ([x k] & [= <- <-] & Hin). specialize (HF k Ho). destruct (proj2 Ht x k Hin). lia.
      - cbn [mains]. rewrite <- Hl. reflexivity.
      - cbn [mains]. intros d s Hd Hs. destruct (mentions s (snd d)) eqn:E; [|reflexivity]. exfalso.
        assert (C : (exists d, In d (mains a) /\ mentions s (snd d) = true) \/ exists i, s = Xi i /\ (gen a <= i)%nat).
        { destruct Hd as [Hd|Hd].
          - unfold table_defs in Hd. apply in_map_iff in Hd. destruct Hd as ([x k] & <- & Hd). cbn [snd fst] in E. destruct (Htn x k s Hd E) as [C|(i & -> & Hi)]; [auto|]. right. exists i. split; [reflexivity|lia].
          - destruct d as [s0 x']. cbn [snd] in E. apply dict_get_in in Hd; [|exact Hn]. destruct (Hm s0 x' s Hd E) as [C|(i & -> & Hi)]; [auto|]. right. exists i. split; [reflexivity|lia]. }
        destruct C as [(d' & Hd' & E')|(i & -> & Hi)]; [rewrite (W4 s d' Hs (all_main _ _ Hd')) in E'; discriminate|]. specialize (ML (Xi i) i Hs eq_refl). lia.
      - cbn [mains]. intros e [s x'] _ He Hin. apply dict_get_in in Hin; [|exact Hn]. destruct (Hv s x' Hin) as (x & Hx & E). exists (s, x). split; [now apply dict_get_some|]. split; [reflexivity|]. cbn [snd]. auto. }
    destruct P as [P1 P2]. split; [exact P1|]. split; [exact Hl|exact P2].
  Qed.

  (* ---- numbered definitions can be ordered ---- *)
  Definition key (d : asg) : nat := match fst d with Xi k => k | _ => 0%nat end.
  Lemma numbered_order (l : list asg) : numbered l -> exists l', Permutation l l' /\ ordered l'.
  Proof.
    intros [HN HB]. set (kl := map (fun d => (key d, d)) l). set (srt := fold_right (insert_keyed Op) [] kl). exists (map snd srt).
    assert (P0 : Permutation srt kl) by (apply sort_keyed_perm). assert (E : map snd kl = l) by (unfold kl; rewrite map_map; cbn [snd]; apply map_id).
    assert (P1 : Permutation l (map snd srt)) by (rewrite <- E at 1; apply Permutation_map; now symmetry). split; [exact P1|].
    assert (HS : StronglySorted keyed_le srt) by (apply sort_keyed_sorted).
    assert (HKy : forall k d, In (k, d) srt -> k = key d) by (intros k d Hin; apply (Permutation_in _ P0) in Hin; unfold kl in Hin; apply in_map_iff in Hin; destruct Hin as (x & [= <- <-] & _); reflexivity).
    split; [eapply Permutation_NoDup; [apply Permutation_map; exact P1|exact HN]|]. intros l1 d l2 Eq t Ht. apply map_eq_app in Eq. destruct Eq as (m1 & m2 & Em & _ & E2).
    destruct m2 as [|[kd d'] m2]; [discriminate|]. cbn [map snd] in E2. injection E2 as -> <-.
    assert (Hmem : forall x, In x (map snd srt) -> In x l) by (intros x Hx; eapply Permutation_in; [symmetry; exact P1|exact Hx]).
    assert (Hd : In d l) by (apply Hmem; rewrite Em, map_app; apply in_app_iff; right; now left). destruct d as [s x]. destruct (HB s x Hd) as (k & -> & Hb).
    assert (Ht' : exists j, t = Xi j /\ (k <= j)%nat).
    { destruct Ht as [<-|Ht]; [exists k; auto|]. apply lhs_in in Ht. destruct Ht as (y & Hy). assert (Hyl : In (t, y) l) by (apply Hmem; rewrite Em, map_app; apply in_app_iff; right; now right).
      destruct (HB t y Hyl) as (j & -> & _). exists j. split; [reflexivity|]. apply in_map_iff in Hy. destruct Hy as ([ky y'] & E3 & Hy). cbn [snd] in E3. subst y'.
      rewrite Em in HS. assert (Hle : (kd <= ky)%nat).
      { clear - HS Hy. induction m1 as [|z m1 IH]; cbn [app] in HS; apply StronglySorted_inv in HS; destruct HS as [HS HF]; [|auto]. rewrite Forall_forall in HF. exact (HF _ Hy). }
      rewrite (HKy kd (Xi k, x)) in Hle by (rewrite Em; apply in_app_iff; right; now left). rewrite (HKy ky (Xi j, y)) in Hle by (rewrite Em; apply in_app_iff; right; now right). exact Hle. }
    destruct Ht' as (j & -> & Hj). cbn [snd]. destruct (mentions (Xi j) x) eqn:Em'; [|reflexivity]. specialize (Hb j Em'). lia.
  Qed.

  (* ---- common subexpressions in opposing directions ---- *)
  Lemma cse_ok S posts rates a a' : fresh a -> NoDup (lhs (mains a)) -> NoDup S -> (length (mains a) <= length S)%nat -> (forall k, In (Xi k) rates -> (k < gen a)%nat) ->
    cse_in_opposing_directions Op K S posts (Some (true, rates)) a = Ok a' ->
    Permutation (lhs (mains a)) (lhs (mains a')) /\ same_values sem a a' /\ (forall l1 x l2 y, mains a' = l1 ++ x :: l2 -> In y l2 -> before posts (fst x) (fst y)).
  Proof.
    intros HF HN HS HL Hr H. destruct (cse_result sem K mixed HK S posts rates a a' HF HN HS) as (st & HI & Es & _ & HP & HV & HB); [intros r Hin k ->; now apply Hr|exact H|].
    assert (Ek : kept S a = mains a) by (unfold kept; now apply firstn_all2). rewrite Ek in HP. split; [exact HP|]. split; [|exact HB].
    assert (Hsub : forall d, In d (subs a') <-> In d (subs a) \/ In d (defs st)) by (intros d; rewrite Es; apply in_app_iff).
    assert (Hfr : forall t, In t (lhs (defs st)) -> ~ occurs t a).
    { intros t Hin Ho. apply lhs_in in Hin. destruct Hin as (y & Hin). destruct (c_defs _ _ HI t y Hin) as (k & -> & Hk & _). specialize (HF k Ho). lia. }
    assert (Hm : forall s, In s (lhs (mains a')) <-> In s (lhs (mains a))) by (intros s; split; apply Permutation_in; [now symmetry|exact HP]).
    assert (Hval : forall e s x', sat e (subs a) -> sat e (defs st) -> In (s, x') (mains a') -> exists x, In (s, x) (mains a) /\ eval e x' = eval e x).
    { intros e s x' Hs1 Hs2 Hin. destruct (HV _ Hin) as ([s0 x] & Hx & [E V]). cbn [fst snd] in *. subst s0. rewrite Ek in Hx. exists x. split; [exact Hx|]. now apply V. }
    intros p s v. split.
    - apply (extension sem a a' (defs st)); auto. eapply numbered_solvable, cse_numbered, HI.
    - apply (extension_back sem a a' (defs st)); auto.
  Qed.
  (* the assignments can be ordered *)
  Lemma cse_order S posts rates a a' : well_formed a -> fresh a -> NoDup S -> (length (mains a) <= length S)%nat -> (forall k, In (Xi k) rates -> (k < gen a)%nat) ->
    (forall r, In r rates -> ~ In r (lhs (mains a))) -> cse_in_opposing_directions Op K S posts (Some (true, rates)) a = Ok a' ->
    exists defs', Permutation (subs a') defs' /\ ordered (defs' ++ mains a').
  Proof.
    intros HW HF HS HL Hr Hrm H. pose proof HW as HW0. apply well_formed_iff in HW0. destruct HW0 as (W1 & W2 & W3 & W4).
    destruct (cse_result sem K mixed HK S posts rates a a' HF W2 HS) as (st & HI & Es & _ & HP & _); [intros r Hin k ->; now apply Hr|exact H|].
    assert (Ek : kept S a = mains a) by (unfold kept; now apply firstn_all2). rewrite Ek in HP.
    assert (Hm : forall s, In s (lhs (mains a')) <-> In s (lhs (mains a))) by (intros s; split; apply Permutation_in; [now symmetry|exact HP]).
    destruct (cse_clean sem K mixed HK S posts rates a a' (fun s => In s (lhs (mains a)))) as (st2 & Es2 & C1 & C2); auto.
    { intros k Hk. apply HF, occurs_all. auto. } { intros d Hd s Hs. apply W4; [exact Hs|now apply all_main]. }
    assert (Ed : defs st2 = defs st) by (rewrite Es2 in Es; exact (app_inv_head _ _ _ Es)). rewrite Ed in C1.
    destruct (numbered_order (defs st) (cse_numbered _ _ HI)) as (l' & P1 & O1). exists (subs a ++ l'). split; [rewrite Es; now apply Permutation_app_head|].
    assert (Hl : forall d, In d l' -> In d (defs st)) by (intros d Hd; eapply Permutation_in; [symmetry; exact P1|exact Hd]).
    assert (Hfr : forall t, In t (lhs l') -> ~ occurs t a).
    { intros t Hin Ho. apply lhs_in in Hin. destruct Hin as (y & Hin). apply Hl in Hin. destruct (c_defs _ _ HI t y Hin) as (k & -> & Hk & _). specialize (HF k Ho). lia. }
    apply ordered_app. split; [|split; [|split]].
    - apply ordered_app. split; [exact W1|]. split; [exact O1|]. split.
      + intros t Ht Ht'. apply (Hfr t Ht'). apply occurs_all. auto.
      + intros d t Hd Ht. destruct (mentions t (snd d)) eqn:E; [|reflexivity]. exfalso. apply (Hfr t Ht). apply occurs_all. right. right. left. eauto.
    - apply flat_ordered; [eapply Permutation_NoDup; [exact HP|exact W2]|]. intros d t Hd Ht. apply (C2 d Hd). now apply Hm.
    - intros t Ht Ht'. apply Hm in Ht'. rewrite map_app in Ht. apply in_app_iff in Ht. destruct Ht as [Ht|Ht]; [exact (W3 t Ht Ht')|]. apply (Hfr t Ht). apply occurs_all. auto.
    - intros d t Hd Ht. apply Hm in Ht. apply in_app_iff in Hd. destruct Hd as [Hd|Hd]; [apply W4; [exact Ht|now apply all_sub]|]. apply (C1 d (Hl d Hd)). exact Ht.
  Qed.
  (* main assignments beyond the stencil are dropped *)
  Lemma cse_drops S posts rates a a' : fresh a -> NoDup (lhs (mains a)) -> NoDup S -> (forall k, In (Xi k) rates -> (k < gen a)%nat) ->
    cse_in_opposing_directions Op K S posts (Some (true, rates)) a = Ok a' ->
    Permutation (lhs (firstn (length S) (mains a))) (lhs (mains a')) /\ forall d, In d (skipn (length S) (mains a)) -> ~ In (fst d) (lhs (mains a')).
  Proof.
    intros HF HN HS Hr H. destruct (cse_result sem K mixed HK S posts rates a a' HF HN HS) as (st & HI & Es & _ & HP & _); [intros r Hin k ->; now apply Hr|exact H|].
    split; [exact HP|]. intros d Hd Hin. eapply Permutation_in in Hin; [|symmetry; exact HP]. unfold kept in Hin.
    rewrite <- (firstn_skipn (length S) (mains a)), map_app in HN. exact (NoDup_app_disjoint _ _ HN _ Hin (in_map fst _ _ Hd)).
  Qed.

  (* ---- the passes succeed on symmetric stencils ---- *)
  Definition closed (S : stencil) : Prop := forall c, In c S -> In (vneg c) S.
  Lemma split_step_succeeds S symbols st i : closed S -> length symbols = length S -> (i < length S)%nat -> (forall s, In s symbols -> In s (lhs (s_dict Op st))) ->
    exists st', split_step Op K S symbols st i = Ok st' /\ forall s, In s symbols -> In s (lhs (s_dict Op st')).
  Proof.
    intros HC HL Hi Hs. unfold split_step. destruct (existsb _ _); [eauto|]. destruct (nth_error S i) as [c|] eqn:E; [|apply nth_error_None in E; lia].
    destruct (forallb _ c); [eauto|]. assert (Hin : In (vneg c) S) by (apply HC; eapply nth_error_In; eauto). destruct (index_of (vneg c) S) as [j|] eqn:Ej; [|apply index_of_None in Ej; contradiction].
    pose proof (index_of_lt _ _ _ Ej) as Hj. destruct (nth_error symbols i) as [f|] eqn:Ef; [|apply nth_error_None in Ef; lia]. destruct (nth_error symbols j) as [g|] eqn:Eg; [|apply nth_error_None in Eg; lia].
    apply nth_error_In in Ef, Eg. apply Hs in Ef as Hf, Eg as Hg. unfold dict_find. destruct (dict_get Op (s_dict Op st) f) as [fe|] eqn:Df; [|apply dict_get_none in Df; contradiction].
    destruct (dict_get Op (s_dict Op st) g) as [ge|] eqn:Dg; [|apply dict_get_none in Dg; contradiction]. cbn [rbind].
    destruct (lookup_symbol Op K _ _ _) as [[k1 n1] t1]. destruct (lookup_symbol Op K n1 t1 _) as [[k2 n2] t2]. eexists. split; [reflexivity|]. cbn [s_dict]. intros s Hin'. rewrite !dict_set_keys. auto.
  Qed.
  Lemma split_succeeds S symbols a : closed S -> length symbols = length S -> NoDup (lhs (mains a)) -> (forall s, In s symbols -> In s (lhs (mains a))) ->
    exists a', split_by_symmetry Op K (Some S) (Some symbols) a = Ok a'.
  Proof.
    intros HC HL HN Hs. cbn [split_by_symmetry]. rewrite (to_dict_id (mains a) HN).
    assert (G : forall idx st, (forall i, In i idx -> (i < length S)%nat) -> (forall s, In s symbols -> In s (lhs (s_dict Op st))) -> exists st', split_loop Op K S symbols idx st = Ok st').
    { induction idx as [|i idx IH]; intros st Hi Hst; [eexists; reflexivity|]. cbn [split_loop]. destruct (split_step_succeeds S symbols st i HC HL (Hi i (or_introl eq_refl)) Hst) as (st1 & E & H1).
      rewrite E. cbn [rbind]. apply IH; [intros j Hj; apply Hi; now right|exact H1]. }
    destruct (G (seq 0 (length symbols)) {| s_dict := mains a; s_done := []; s_gen := gen a; s_table := [] |}) as (st' & E).
    - intros i Hi. apply in_seq in Hi. lia.
    - exact Hs.
    - rewrite E. cbn [rbind]. eauto.
  Qed.
  Lemma cse_loop_succeeds rates : forall l d result st, (forall c, rd_get Op d c <> None -> rd_get Op d (vneg c) <> None) -> exists r, cse_loop Op K rates l d result st = Ok r.
  Proof.
    induction l as [|[rule c] l IH]; intros d result st Hd; cbn [cse_loop]; [eauto|]. destruct (rd_get Op d c) as [r0|] eqn:E; [|auto].
    destruct (rd_get Op d (vneg c)) as [inv|] eqn:Ei; [|exfalso; apply (Hd c); congruence]. destruct (vec_eqb (vneg c) c); [auto|].
    destruct (match rates with [] => _ | _ => _ end) as [[u v] st1]. apply IH. intros b. rewrite !rd_get_del. destruct (vec_eqb c b) eqn:E1; [congruence|]. destruct (vec_eqb (vneg c) b) eqn:E2; [congruence|].
    intros Hb. destruct (vec_eqb c (vneg b)) eqn:E3.
    - apply vec_eqb_eq in E3. exfalso. subst c. rewrite vneg_involutive, vec_eqb_refl in E2. discriminate.
    - destruct (vec_eqb (vneg c) (vneg b)) eqn:E4; [|auto]. apply vec_eqb_eq, vneg_inj in E4. subst b. rewrite vec_eqb_refl in E1. discriminate.
  Qed.
  Lemma sort_rules_succeeds posts l : (forall x, In x l -> In (fst x) posts) -> exists l', sort_rules Op posts l = Ok l'.
  Proof.
    intros H. unfold sort_rules. assert (G : exists ks, mapM (post_index Op posts) l = Ok ks).
    { induction l as [|x l IH]; [eexists; reflexivity|]. destruct IH as (ks & E); [intros y Hy; apply H; now right|].
      assert (P : exists k, post_index Op posts x = Ok k).
      { unfold post_index. destruct (find _ (enum posts)) as [p|] eqn:F; [eauto|]. exfalso. assert (Hx : In (fst x) posts) by (apply H; now left). apply In_nth_error in Hx. destruct Hx as (i & Hi).
        assert (He : In (i, fst x) (enum posts)).
        { unfold enum. clear - Hi. assert (Gn : forall (l : list name) n i s, nth_error l i = Some s -> In ((n + i)%nat, s) (combine (seq n (length l)) l)).
          { induction l as [|y l IHl]; intros n j s Hj; [destruct j; discriminate|]. cbn [length seq combine]. destruct j as [|j]; cbn [nth_error] in Hj; [injection Hj as ->; left; f_equal; lia|]. right. replace (n + Datatypes.S j)%nat with (Datatypes.S n + j)%nat by lia. auto. }
          exact (Gn posts 0%nat i (fst x) Hi). }
        apply (find_none _ _ F) in He. cbn [snd] in He. assert (name_eqb (fst x) (fst x) = true) by (now apply name_eqb_eq). congruence. }
      destruct P as (k & Ek). exists (k :: ks). cbn [mapM]. rewrite Ek. cbn [rbind]. rewrite E. reflexivity. }
    destruct G as (ks & E). rewrite E. cbn [rbind]. eauto.
  Qed.
  Lemma cse_succeeds S posts rates a : fresh a -> NoDup (lhs (mains a)) -> NoDup S -> closed S -> (length S <= length (mains a))%nat -> (forall k, In (Xi k) rates -> (k < gen a)%nat) ->
    (forall d, In d (firstn (length S) (mains a)) -> In (fst d) posts) -> exists a', cse_in_opposing_directions Op K S posts (Some (true, rates)) a = Ok a'.
  Proof.
    intros HF HN HS HC HL Hr Hp. unfold cse_in_opposing_directions. set (pairs := combine (mains a) S).
    assert (Hv : NoDup (map snd pairs)) by (now apply combine_snd_nodup).
    assert (HD := rules_of pairs Hv). set (d := fold_left (fun d p => rd_set Op d (snd p) (fst p)) pairs []) in *.
    assert (Hcl : forall c, rd_get Op d c <> None -> rd_get Op d (vneg c) <> None).
    { intros c Hc. destruct (rd_get Op d c) as [r|] eqn:E; [|congruence]. apply HD in E. apply in_combine_r in E. apply HC in E. apply In_nth_error in E. destruct E as (i & Hi).
      assert (Hlt : (i < length (mains a))%nat) by (assert (i < length S)%nat by (apply nth_error_Some; congruence); lia). destruct (nth_error (mains a) i) as [r'|] eqn:E; [|apply nth_error_None in E; lia].
      assert (Hin : In (r', vneg c) pairs).
      { unfold pairs. clear - Hi E. revert i Hi E. generalize (mains a). induction S as [|b T IHT]; intros l i Hi E; [destruct i; discriminate|]. destruct l as [|y l]; [destruct i; discriminate|]. cbn [combine].
        destruct i as [|i]; cbn [nth_error] in *; [injection Hi as ->; injection E as ->; now left|]. right. eapply IHT; eauto. }
      apply HD in Hin. congruence. }
    destruct (cse_loop_succeeds rates pairs d [] {| q_gen := gen a; q_found := []; q_coeffs := [] |} Hcl) as ([result st] & E). rewrite E. cbn [rbind].
    assert (Ef : map fst pairs = kept S a) by (apply combine_fst).
    assert (HNk : NoDup (lhs (kept S a))). { apply (NoDup_app_l _ (lhs (skipn (length S) (mains a)))). rewrite <- map_app. unfold kept. rewrite firstn_skipn. exact HN. }
    apply (cse_loop_ok sem K mixed HK (gen a) rates pairs) in E; auto.
    - destruct E as (_ & _ & _ & E5). destruct (sort_rules_succeeds posts result) as (sorted & E2).
      + intros x Hx. destruct (E5 x Hx) as (r & c & Hin & [-> _]). apply Hp. fold (kept S a). rewrite <- Ef. apply in_map_iff. exists (r, c). auto.
      + rewrite E2. cbn [rbind]. eauto.
    - intros r Hin k ->. now apply Hr.
    - refine (eq_ind_r (fun l => NoDup l) HNk _). rewrite <- Ef. symmetry. exact (map_map fst fst pairs).
    - intros r c Hin k Hk. apply HF. right. exists r. split; [|exact Hk]. apply in_app_iff. right. exact (in_combine_l _ _ _ _ Hin).
    - constructor; auto.
      + constructor; [cbn [q_gen]; lia|constructor|intros s x []].
      + intros r c Hg. now apply HD.
      + intros r c Hin Hg. apply HD in Hin. congruence.
      + intros r' [].
      + constructor.
  Qed.

  (* ---- moments in the conserved quantity equations ---- *)
  Lemma to_dict_get (l : list asg) s y : dict_get Op (to_dict Op l) s = Some y -> In (s, y) l.
  Proof.
    unfold to_dict. assert (G : forall l d, dict_get Op (fold_left (fun d a => dict_set Op d (fst a) (snd a)) l d) s = Some y -> In (s, y) l \/ dict_get Op d s = Some y).
    { clear. induction l as [|[t x] l IH]; intros d H; cbn [fold_left fst snd] in H; [auto|]. apply IH in H. destruct H as [H|H]; [left; now right|]. rewrite dict_get_set in H.
      destruct (name_eq_dec s t) as [->|]; [injection H as ->; left; now left|auto]. }
    intros H. destruct (G l [] H) as [|H']; [assumption|discriminate].
  Qed.
  Lemma dict_set_in (d : list asg) s x t y : In (t, y) (dict_set Op d s x) -> (t = s /\ y = x) \/ In (t, y) d.
  Proof.
    induction d as [|[u z] d IH]; cbn [dict_set]; [intros [[= <- <-]|[]]; auto|]. destruct (name_eq_dec u s) as [->|]; intros [E|H].
    - injection E as <- <-. auto.
    - right. now right.
    - right. now left.
    - destruct (IH H) as [|H']; [auto|]. right. now right.
  Qed.
  Lemma substitute_loop_ok reduced a : well_formed a -> (forall s y, dict_get Op reduced s = Some y -> (forall e, sat e (all a) -> e s = eval e y) /\ In s (lhs (all a))) ->
    forall hint md sd md' sd', lhs md = lhs (mains a) -> lhs sd = lhs (subs a) -> (forall e, sat e (all a) -> sat e md /\ sat e sd) ->
    substitute_loop Op K reduced hint md sd = Ok (md', sd') -> lhs md' = lhs (mains a) /\ lhs sd' = lhs (subs a) /\ forall e, sat e (all a) -> sat e md' /\ sat e sd'.
  Proof.
    intros HW Hred. induction hint as [|[cq mo] hint IH]; intros md sd md' sd' E1 E2 HV H; cbn [substitute_loop] in H; [injection H as <- <-; auto|].
    unfold dict_find in H. destruct (dict_get Op reduced mo) as [mo_eq|] eqn:Em; [|discriminate]. cbn [rbind] in H. destruct (mentions cq mo_eq); [discriminate|].
    destruct (dict_get Op reduced cq) as [cq_rhs|] eqn:Ec; [|discriminate]. cbn [rbind] in H. destruct (Hred _ _ Em) as [V1 _]. destruct (Hred _ _ Ec) as [V2 Hin].
    set (cq_eq := c_subs_additive Op K cq_rhs mo mo_eq) in *.
    assert (V : forall e, sat e (all a) -> e cq = eval e cq_eq). { intros e He. rewrite (V2 e He). symmetry. apply (ok_subs_additive _ _ _ HK). auto. }
    destruct (dict_get Op md cq) as [old|] eqn:Ed.
    - apply IH in H; [exact H| |exact E2|].
      + rewrite dict_set_lhs; [exact E1|]. apply dict_get_some in Ed. exact (in_lhs _ _ _ Ed).
      + intros e He. destruct (HV e He) as [A B]. split; [|exact B]. intros t y Hy. apply dict_set_in in Hy. destruct Hy as [[-> ->]|Hy]; [auto|now apply A].
    - destruct (dict_get Op sd mo) as [x0|]; [|discriminate]. assert (Hs : In cq (lhs sd)).
      { apply dict_get_none in Ed. unfold all in Hin. rewrite map_app in Hin. apply in_app_iff in Hin. destruct Hin as [Hin|Hin]; [rewrite E2; exact Hin|]. exfalso. apply Ed. rewrite E1. exact Hin. }
      apply IH in H; [exact H|exact E1| |].
      + rewrite dict_set_lhs; [exact E2|exact Hs].
      + intros e He. destruct (HV e He) as [A B]. split; [exact A|]. intros t y Hy. apply dict_set_in in Hy. destruct Hy as [[-> ->]|Hy]; [auto|now apply B].
  Qed.
  Lemma substitute_moments_ok hint a a' : well_formed a -> substitute_moments Op K hint a = Ok a' ->
    lhs (mains a') = lhs (mains a) /\ lhs (subs a') = lhs (subs a) /\ keeps_values sem a a'.
  Proof.
    intros HW H. unfold substitute_moments in H. destruct hint as [[|h0 hint]|]; [injection H as <-; split; [reflexivity|split; [reflexivity|apply keeps_refl]]| |discriminate].
    set (h := h0 :: hint) in *. destruct (substitute_loop _ _ _ _ _ _) as [[md sd]|] eqn:E; [|discriminate]. cbn [rbind fst snd] in H. injection H as <-.
    pose proof HW as HW0. apply well_formed_iff in HW0. destruct HW0 as (W1 & W2 & W3 & W4). rewrite (to_dict_id (mains a) W2), (to_dict_id (subs a) (proj1 W1)) in E.
    apply (substitute_loop_ok _ a HW) in E; [|  |reflexivity|reflexivity|].
    - destruct E as (L1 & L2 & V). cbn [subs mains]. split; [exact L1|]. split; [exact L2|].
      intros p s v (e & H1 & H2 & H3 & H4). destruct (V e H1) as [A B]. exists e. split; [apply sat_app; auto|]. split; [|split; [cbn [mains]; rewrite L1; exact H3|exact H4]].
      intros t Ht. apply H2. intros Hin. apply Ht. unfold all in *. cbn [subs mains]. rewrite map_app in *. apply in_app_iff in Hin. apply in_app_iff.
      destruct Hin as [Hin|Hin]; [left; exact (eq_ind_r (fun l => In t l) Hin L2)|right; exact (eq_ind_r (fun l => In t l) Hin L1)].
    - intros s y Hg. apply to_dict_get in Hg. destruct (definitions_ok sem a _ s y Hg) as (_ & V & Hin & _). split; [|exact Hin]. intros e He. apply sat_app in He. destruct He as [A B]. apply V; auto.
    - intros e He. apply sat_app in He. tauto.
  Qed.
End P.

(* a direction without its inverse in the stencil *)
Section Missing.
  Context {Op : Type} (K : cas Op).
  Let build := fun (d : rule_dict Op) (p : asg Op * vec) => rd_set Op d (snd p) (fst p).
  Lemma build_none pairs : forall d0 b, (forall p, In p pairs -> snd p <> b) -> rd_get Op d0 b = None -> rd_get Op (fold_left build pairs d0) b = None.
  Proof.
    induction pairs as [|[x b'] pairs IH]; intros d0 b H H0; [exact H0|]. cbn [fold_left]. apply IH; [intros p Hp; apply H; now right|]. unfold build. cbn [fst snd]. rewrite rd_get_set.
    destruct (vec_eqb b' b) eqn:E; [|exact H0]. apply StencilProofs.vec_eqb_eq in E. destruct (H (x, b') (or_introl eq_refl)). exact E.
  Qed.
  Lemma build_some pairs : forall d0 b, (exists x, rd_get Op d0 b = Some x) -> exists x, rd_get Op (fold_left build pairs d0) b = Some x.
  Proof.
    induction pairs as [|[x b'] pairs IH]; intros d0 b H; [exact H|]. cbn [fold_left]. apply IH. unfold build. cbn [fst snd]. rewrite rd_get_set. destruct (vec_eqb b' b); [eauto|exact H].
  Qed.
  Lemma cse_missing_inverse posts rates a c m S : mains a <> [] -> S = c :: m -> ~ In (vneg c) S -> cse_in_opposing_directions Op K S posts (Some (true, rates)) a = Err KeyError.
  Proof.
    intros Hm -> Hn. unfold cse_in_opposing_directions. destruct (mains a) as [|r l]; [congruence|]. cbn [combine].
    change (fold_left _ ((r, c) :: combine l m) []) with (fold_left build ((r, c) :: combine l m) []).
    assert (Hx : exists x, rd_get Op (fold_left build ((r, c) :: combine l m) []) c = Some x).
    { cbn [fold_left]. apply build_some. unfold build. cbn [fst snd]. rewrite rd_get_set, (vec_eqb_refl c). eauto. }
    assert (Hi : rd_get Op (fold_left build ((r, c) :: combine l m) []) (vneg c) = None).
    { apply build_none; [|reflexivity]. intros [y b] Hp Eb. cbn [snd] in Eb. subst b. apply Hn. change ((r, c) :: combine l m) with (combine (r :: l) (c :: m)) in Hp. exact (in_combine_r _ _ _ _ Hp). }
    destruct Hx as (x & Hx). cbn [cse_loop]. rewrite Hx, Hi. reflexivity.
  Qed.
End Missing.


(* ---- an instance of the contracts ---- *)
Definition eop := unit.
Definition esem (_ : eop) (x y : R) : R := x - y.
Definition expr_eq_dec : forall x y : expr eop, {x = y} + {x <> y}.
Proof. decide equality; [decide equality; [apply Pos.eq_dec|apply Z.eq_dec]|apply name_eq_dec|decide equality]. Defined.
Fixpoint ex_coeff (x : expr eop) (r : name) : expr eop :=
  match x with
  | Mul (Sym s) y => if name_eq_dec s r then y else Cst 0
  | Add a b => match ex_coeff a r with Cst _ => ex_coeff b r | c => c end
  | _ => Cst 0
  end.
Definition ex_factor (x : expr eop) : Q * expr eop := match x with Mul (Cst q) w => (q, w) | _ => (1%Q, x) end.
Definition ex_cse (n : nat) (xs : list (expr eop)) : nat * list (asg eop) * list (expr eop) :=
  match xs with
  | [x; y] => if expr_eq_dec x y then (S n, [(Xi n, x)], [Sym (Xi n); Sym (Xi n)]) else (n, [], xs)
  | _ => (n, [], xs)
  end.
Fixpoint ex_subs (old new x : expr eop) : expr eop :=
  if expr_eq_dec x old then new
  else match x with
  | Add a b => Add (ex_subs old new a) (ex_subs old new b)
  | Mul a b => Mul (ex_subs old new a) (ex_subs old new b)
  | App o a b => App o (ex_subs old new a) (ex_subs old new b)
  | _ => x
  end.
Definition ex_cas : cas eop := {|
  c_same := fun x y => if expr_eq_dec x y then true else false;
  c_coeff := ex_coeff; c_factor := ex_factor; c_cse := ex_cse; c_subs := ex_subs; c_collect := fun x _ => x; c_expand := fun x => x;
  c_subs_additive := fun x s y => ex_subs y (Sym s) x; c_second_order := fun x _ sub => (x, sub) |}.
Definition no_mixed (s : name) : Prop := False.
Lemma ex_subs_eval sem old new e x : eval sem e old = eval sem e new -> eval sem e (ex_subs old new x) = eval sem e x.
Proof.
  intros H. induction x as [q|t|a IHa b IHb|a IHa b IHb|o a IHa b IHb]; cbn [ex_subs]; destruct (expr_eq_dec _ old) as [<-|]; try (now symmetry); cbn [eval]; try reflexivity; now rewrite IHa, IHb.
Qed.
Lemma ex_subs_mentions old new t x : mentions t (ex_subs old new x) = true -> mentions t x = true \/ mentions t new = true.
Proof.
  induction x as [q|u|a IHa b IHb|a IHa b IHb|o a IHa b IHb]; cbn [ex_subs]; destruct (expr_eq_dec _ old) as [<-|]; auto; cbn [mentions]; rewrite !orb_true_iff; tauto.
Qed.
Lemma ex_coeff_mentions x r t : mentions t (ex_coeff x r) = true -> mentions t x = true.
Proof.
  induction x as [q|u|a IHa b IHb|a IHa b IHb|o a IHa b IHb]; cbn [ex_coeff mentions]; try discriminate.
  - rewrite orb_true_iff. destruct (ex_coeff a r); auto.
  - destruct a as [| s | | |]; try discriminate. destruct (name_eq_dec s r); [|discriminate]. intros H. rewrite H. apply orb_true_r.
Qed.
Lemma ex_cas_ok : cas_ok esem ex_cas no_mixed.
Proof.
  constructor; cbn [ex_cas c_same c_coeff c_factor c_cse c_subs c_collect c_expand c_subs_additive c_second_order].
  - intros x y e. destruct (expr_eq_dec x y) as [->|]; [reflexivity|discriminate].
  - intros x r t. apply ex_coeff_mentions.
  - assert (D : forall x, (forall e, eval esem e x = Q2R 1 * eval esem e x) /\ forall t : name, mentions t x = true -> mentions t x = true)
      by (intros x; split; [intros e; replace (Q2R 1) with 1 by (unfold Q2R; cbn; lra); ring|auto]).
    intros x q w. unfold ex_factor. destruct x as [| | |[] b|]; intros [= <- <-]; try apply D. split; [reflexivity|]. intros t Ht. cbn [mentions]. now rewrite Ht, orb_true_r.
  - intros n xs n' found new H.
    assert (D : (n, @nil (asg eop), xs) = (n', found, new) -> (n <= n')%nat /\ length new = length xs /\ NoDup (map fst found) /\
      (forall s y, In (s, y) found -> exists k, s = Xi k /\ (n <= k < n')%nat /\ forall t, mentions t y = true -> (exists x, In x xs /\ mentions t x = true) \/ exists j, t = Xi j /\ (n <= j < k)%nat) /\
      (forall y t, In y new -> mentions t y = true -> (exists x, In x xs /\ mentions t x = true) \/ exists j, t = Xi j /\ (n <= j < n')%nat) /\
      (forall e, sat esem e found -> map (eval esem e) new = map (eval esem e) xs)).
    { intros [= <- <- <-]. split; [lia|]. split; [reflexivity|]. split; [constructor|]. split; [intros s y []|]. split; [|reflexivity]. intros y t Hy Ht. left. eauto. }
    unfold ex_cse in H. destruct xs as [|x [|y [|]]]; auto. destruct (expr_eq_dec x y) as [<-|]; auto. injection H as <- <- <-.
    split; [lia|]. split; [reflexivity|]. split; [constructor; [intros []|constructor]|]. split.
    { intros s y [[= <- <-]|[]]. exists n. split; [reflexivity|]. split; [lia|]. intros t Ht. left. exists x. split; [now left|exact Ht]. } split.
    { intros y t Hy Ht. right. exists n. split; [|lia]. destruct Hy as [<-|[<-|[]]]; now apply name_eqb_eq in Ht. }
    intros e He. cbn [map eval]. now rewrite (He (Xi n) x (or_introl eq_refl)).
  - intros old new x. split; [intros e; apply ex_subs_eval|intros t; apply ex_subs_mentions].
  - auto.
  - auto.
  - intros x s y. split; [intros e He; apply ex_subs_eval; now symmetry|]. intros t Ht. apply ex_subs_mentions in Ht. destruct Ht as [Ht|Ht]; [auto|]. cbn [mentions] in Ht. apply name_eqb_eq in Ht. auto.
  - intros x u sub x' sub' [= <- <-]. split; [|auto]. exists []. split; [now rewrite app_nil_r|]. split; [constructor|]. split; [intros s []|intros s y []].
Qed.

(* ---- subexpressions with a sum are not inserted as pure products ---- *)
Section PureProducts.
  Context {Op : Type}.
  Lemma pure_no_sum symbols (e : expr Op) : has_sum e -> pure Op symbols e = false.
  Proof. induction e as [| |a IHa b IHb|a IHa b IHb|]; cbn; try easy. intros [H|H]; [now rewrite IHa|]. rewrite IHb by exact H. apply andb_false_r. Qed.
  Lemma pure_product_no_sum symbols (d : asg Op) : has_sum (snd d) -> is_pure_product Op symbols d = false.
  Proof. unfold is_pure_product. destruct (snd d) as [| |a b|a b|]; try easy. intros H. exact (pure_no_sum symbols (Mul a b) H). Qed.
  Lemma subst1_has_sum s x (e : expr Op) : has_sum e -> has_sum (subst1 Op s x e).
  Proof. induction e; cbn; tauto. Qed.
  Lemma insert_loop_keeps symbols fuel : forall before after m s x, In (s, x) (before ++ after) -> has_sum x ->
    In s (map fst (fst (insert_loop Op fuel (is_pure_product Op symbols) before after m))).
  Proof.
    induction fuel as [|fuel IH]; intros before after m s x Hin Hx.
    - cbn. exact (in_map fst _ _ Hin).
    - destruct after as [|d after]; [cbn; exact (in_map fst _ _ Hin)|]. cbn [insert_loop]. destruct (is_pure_product Op symbols d) eqn:E.
      + apply (IH _ _ _ s (subst1 Op (fst d) (snd d) x)); [|now apply subst1_has_sum].
        assert (H : In (s, x) (before ++ after)).
        { apply in_app_or in Hin as [H|[->|H]]; [apply in_or_app; now left| |apply in_or_app; now right]. rewrite pure_product_no_sum in E by exact Hx. discriminate. }
        unfold insert_one. rewrite <- map_app. apply in_map_iff. now exists (s, x).
      + apply (IH _ _ _ s x); [|exact Hx]. rewrite <- app_assoc. exact Hin.
  Qed.
  Lemma insert_pure_keeps symbols a a' s x : insert_pure_products Op symbols a = Ok a' -> In (s, x) (subs a) -> has_sum x -> In s (map fst (subs a')).
  Proof.
    unfold insert_pure_products, insert_subexpressions. intros [= <-] Hin Hx.
    pose proof (insert_loop_keeps symbols (length (subs a)) [] (subs a) (mains a) s x Hin Hx) as H. destruct (insert_loop _ _ _ _ _ _). exact H.
  Qed.
End PureProducts.
