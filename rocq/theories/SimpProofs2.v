(* Splitting by symmetry and common subexpressions in opposing directions keep the values. *)
From Coq Require Import String List ZArith QArith Qreals Bool Arith Lia Reals Lra Permutation.
From Verif Require Import StencilModel SimpModel SimpSpec SimpProofs.
Import ListNotations.
Local Open Scope R_scope.

Lemma NoDup_app_in {A} (l m : list A) : NoDup l -> NoDup m -> (forall a, In a l -> ~ In a m) -> NoDup (l ++ m).
Proof.
  induction l as [|x l IH]; intros HL HM H; [exact HM|]. inversion HL; subst. cbn [app]. constructor.
  - rewrite in_app_iff. intros [|Hx]; [contradiction|]. apply (H x); [now left|exact Hx].
  - apply IH; auto. intros a Ha. apply H. now right.
Qed.
Lemma NoDup_app_r {A} (l m : list A) : NoDup (l ++ m) -> NoDup m.
Proof. induction l as [|x l IH]; [auto|]. intros H. inversion H; auto. Qed.
Lemma NoDup_app_l {A} (l m : list A) : NoDup (l ++ m) -> NoDup l.
Proof. induction l as [|x l IH]; [constructor|]. intros H. inversion H; subst. constructor; [|auto]. intros Hx. apply H2, in_app_iff. now left. Qed.
Lemma NoDup_app_disjoint {A} (l m : list A) : NoDup (l ++ m) -> forall x, In x l -> In x m -> False.
Proof. induction l as [|y l IH]; intros H x Hl Hm; [destruct Hl|]. cbn [app] in H. apply NoDup_cons_iff in H. destruct H as [HA HB]. destruct Hl as [->|Hl]; [apply HA, in_app_iff; now right|eauto]. Qed.

Section P.
  Context {Op : Type} (sem : Op -> R -> R -> R) (K : cas Op) (mixed : name -> Prop) (HK : cas_ok sem K mixed).
  Notation env := (name -> R).
  Notation eval := (eval sem).
  Notation sat := (sat sem).
  Notation asg := (asg Op).

  Definition below (n : nat) (x : expr Op) : Prop := forall k, mentions (Xi k) x = true -> (k < n)%nat.
  Lemma below_mono n n' x : (n <= n')%nat -> below n x -> below n' x.
  Proof. intros H Hb k Hk. specialize (Hb k Hk). lia. Qed.
  Lemma Q2R_half : Q2R (1 # 2) = / 2. Proof. unfold Q2R. cbn. lra. Qed.
  Lemma Q2R_m1 : Q2R (-1) = -1. Proof. unfold Q2R. cbn. lra. Qed.

  (* ---------- split by symmetry ---------- *)
  Definition table_defs (t : table Op) : list asg := map (fun p => (Xi (snd p), fst p)) t.
  (* numbers between n0 and n, definitions numbered below their symbol *)
  Definition table_ok (n0 n : nat) (t : table Op) : Prop :=
    NoDup (map snd t) /\ forall x k, In (x, k) t -> (n0 <= k < n)%nat /\ below k x.
  Lemma table_numbered n0 n t : table_ok n0 n t -> numbered (table_defs t).
  Proof.
    intros [HN H]. unfold table_defs. split.
    - rewrite map_map. cbn [fst]. rewrite <- (map_map snd Xi). apply FinFun.Injective_map_NoDup; [intros x y [= ->]; reflexivity|exact HN].
    - intros s x Hin. apply in_map_iff in Hin. destruct Hin as ([y k] & [= <- <-] & Hin). exists k. split; [reflexivity|]. intros j Hj. now apply (H y k Hin).
  Qed.
  Lemma lookup_symbol_ok n0 n t x k n' t' : lookup_symbol Op K n t x = (k, n', t') -> table_ok n0 n t -> (n0 <= n)%nat -> below n x ->
    table_ok n0 n' t' /\ (n <= n')%nat /\ (k < n')%nat /\ (forall p, In p t -> In p t') /\ forall e, sat e (table_defs t') -> e (Xi k) = eval e x.
  Proof.
    unfold lookup_symbol. intros H [HN HT] Hn Hb. destruct (find _ t) as [[y j]|] eqn:E.
    - injection H as <- <- <-. apply find_some in E. destruct E as [Hin Hs]. cbn [fst snd] in *. split; [split; assumption|]. split; [lia|].
      split; [now apply (HT y j)|]. split; [auto|]. intros e He. rewrite (He (Xi j) y) by (apply in_map_iff; exists (y, j); auto). now apply (ok_same _ _ _ HK).
    - injection H as <- <- <-. split; [split|].
      + rewrite map_app. cbn [map snd]. apply NoDup_app_in; [exact HN|constructor; [intros []|constructor]|]. intros z Hz [<-|[]]. apply in_map_iff in Hz.
        destruct Hz as ([y j] & E' & Hin). cbn [snd] in E'. subst j. specialize (HT y n Hin). lia.
      + intros y j Hin. apply in_app_iff in Hin. destruct Hin as [Hin|[[= <- <-]|[]]]; [destruct (HT y j Hin); split; [lia|assumption]|split; [lia|exact Hb]].
      + split; [lia|]. split; [lia|]. split; [intros p Hp; apply in_app_iff; now left|]. intros e He. apply He. apply in_map_iff. exists (x, n). split; [reflexivity|]. apply in_app_iff. right. now left.
  Qed.
  Lemma lookup_symbol_names (P : name -> Prop) n0 n t x k n' t' : lookup_symbol Op K n t x = (k, n', t') -> (n0 <= n)%nat ->
    (forall y j u, In (y, j) t -> mentions u y = true -> P u \/ exists i, u = Xi i /\ (n0 <= i < j)%nat) ->
    (forall u, mentions u x = true -> P u \/ exists i, u = Xi i /\ (n0 <= i < n)%nat) ->
    forall y j u, In (y, j) t' -> mentions u y = true -> P u \/ exists i, u = Xi i /\ (n0 <= i < j)%nat.
  Proof.
    unfold lookup_symbol. intros H Hn HT Hx y j u Hin Hu. destruct (find _ t) as [[y' j']|]; injection H as <- <- <-; [eapply HT; eauto|].
    apply in_app_iff in Hin. destruct Hin as [Hin|[[= <- <-]|[]]]; [eapply HT; eauto|auto].
  Qed.
  (* the keys of the table are increasing *)
  Definition increasing (t : table Op) : Prop := forall l1 x k l2, t = l1 ++ (x, k) :: l2 -> forall y j, In (y, j) l2 -> (k < j)%nat.
  Lemma lookup_symbol_increasing n0 n t x k n' t' : lookup_symbol Op K n t x = (k, n', t') -> table_ok n0 n t -> increasing t -> increasing t'.
  Proof.
    unfold lookup_symbol. intros H [_ HT] HI. destruct (find _ t) as [[y' j']|]; injection H as <- <- <-; [exact HI|].
    intros l1 z i l2 E y j Hin. destruct (exists_last (l := l2)) as (l3 & w & El); [intros ->; destruct Hin|]. subst l2.
    rewrite app_comm_cons, app_assoc in E. apply app_inj_tail in E. destruct E as [E <-]. apply in_app_iff in Hin. destruct Hin as [Hin|[[= <- <-]|[]]].
    - exact (HI l1 z i l3 E y j Hin).
    - destruct (HT z i); [rewrite E; apply in_app_iff; right; now left|lia].
  Qed.

  Record split_inv (d0 : list asg) (n0 : nat) (st : split_state Op) : Prop := {
    i_gen : (n0 <= s_gen Op st)%nat;
    i_table : table_ok n0 (s_gen Op st) (s_table Op st);
    i_nodup : NoDup (map fst (s_dict Op st));
    i_keys : forall s, In s (map fst (s_dict Op st)) <-> In s (map fst d0);
    i_lhs : map fst (s_dict Op st) = map fst d0;
    i_value : forall s x', dict_get Op (s_dict Op st) s = Some x' -> exists x, dict_get Op d0 s = Some x /\ forall e, sat e (table_defs (s_table Op st)) -> eval e x' = eval e x;
    i_names : forall s x' u, dict_get Op (s_dict Op st) s = Some x' -> mentions u x' = true ->
      (exists d, In d d0 /\ mentions u (snd d) = true) \/ exists i, u = Xi i /\ (n0 <= i < s_gen Op st)%nat;
    i_tnames : forall y j u, In (y, j) (s_table Op st) -> mentions u y = true ->
      (exists d, In d d0 /\ mentions u (snd d) = true) \/ exists i, u = Xi i /\ (n0 <= i < j)%nat;
    i_inc : increasing (s_table Op st)
  }.
  Definition base_below (d0 : list asg) (n0 : nat) : Prop := forall d, In d d0 -> below n0 (snd d).

  Lemma dict_set_lhs (d : list asg) s x : In s (map fst d) -> map fst (dict_set Op d s x) = map fst d.
  Proof.
    induction d as [|[u y] d IH]; cbn [dict_set map fst]; intros H; [destruct H|]. destruct (name_eq_dec u s) as [->|Hne]; cbn [map fst]; [reflexivity|].
    destruct H as [|H]; [congruence|]. now rewrite IH.
  Qed.
  Lemma split_step_inv S symbols d0 n0 st i st' : base_below d0 n0 -> split_inv d0 n0 st -> split_step Op K S symbols st i = Ok st' -> split_inv d0 n0 st'.
  Proof.
    intros HB HI H. unfold split_step in H. destruct (existsb (Nat.eqb i) (s_done Op st)); [now injection H as <-|].
    destruct (nth_error S i) as [c|]; [|discriminate]. destruct (forallb _ c); [now injection H as <-|].
    destruct (index_of (vneg c) S) as [j|]; [|discriminate]. destruct (nth_error symbols i) as [f|]; [|discriminate]. destruct (nth_error symbols j) as [g|]; [|discriminate].
    unfold dict_find in H. destruct (dict_get Op (s_dict Op st) f) as [fe|] eqn:Ef; [|discriminate]. destruct (dict_get Op (s_dict Op st) g) as [ge|] eqn:Eg; [|discriminate]. cbn [rbind] in H.
    destruct (lookup_symbol Op K (s_gen Op st) (s_table Op st) _) as [[k1 n1] t1] eqn:L1. destruct (lookup_symbol Op K n1 t1 _) as [[k2 n2] t2] eqn:L2. injection H as <-.
    destruct HI as [Hg Ht Hn Hk Hl Hv Hm Htn Hinc].
    assert (NB : forall s x', dict_get Op (s_dict Op st) s = Some x' -> below (s_gen Op st) x').
    { intros s x' Hs k Hk'. destruct (Hm s x' (Xi k) Hs Hk') as [(d & Hd & Hd')|(i0 & [= <-] & Hi0)]; [|lia]. specialize (HB d Hd k Hd'). lia. }
    assert (Bf := NB f fe Ef). assert (Bg := NB g ge Eg).
    assert (B1 : below (s_gen Op st) (Mul (Half Op) (Add fe ge))).
    { intros k Hk'. cbn in Hk'. apply orb_true_iff in Hk'. destruct Hk'; auto. }
    assert (B2 : below (s_gen Op st) (Mul (Half Op) (Sub Op fe ge))).
    { intros k Hk'. cbn in Hk'. apply orb_true_iff in Hk'. destruct Hk'; auto. }
    destruct (lookup_symbol_ok n0 _ _ _ _ _ _ L1 Ht Hg B1) as (T1 & G1 & K1 & I1 & V1).
    destruct (lookup_symbol_ok n0 _ _ _ _ _ _ L2 T1 ltac:(lia) (below_mono _ n1 _ G1 B2)) as (T2 & G2 & K2 & I2 & V2).
    assert (In1 : In f (map fst (s_dict Op st))) by (apply dict_get_some in Ef; apply in_map_iff; exists (f, fe); auto).
    assert (In2 : In g (map fst (s_dict Op st))) by (apply dict_get_some in Eg; apply in_map_iff; exists (g, ge); auto).
    assert (Sub1 : forall e, sat e (table_defs t2) -> sat e (table_defs t1)).
    { intros e He s x Hin. apply He. apply in_map_iff in Hin. destruct Hin as (p & E & Hp). apply in_map_iff. exists p. auto. }
    assert (Sub0 : forall e, sat e (table_defs t2) -> sat e (table_defs (s_table Op st))).
    { intros e He. apply Sub1 in He. intros s x Hin. apply He. apply in_map_iff in Hin. destruct Hin as (p & E & Hp). apply in_map_iff. exists p. auto. }
    assert (Nf : forall u, mentions u fe = true -> (exists d, In d d0 /\ mentions u (snd d) = true) \/ exists i, u = Xi i /\ (n0 <= i < s_gen Op st)%nat) by (intros u; now apply (Hm f)).
    assert (Ng : forall u, mentions u ge = true -> (exists d, In d d0 /\ mentions u (snd d) = true) \/ exists i, u = Xi i /\ (n0 <= i < s_gen Op st)%nat) by (intros u; now apply (Hm g)).
    assert (KB1 : (n0 <= k1)%nat). { destruct T1 as [_ T1]. unfold lookup_symbol in L1. destruct (find _ _) as [[y z]|] eqn:E; injection L1 as <- <- <-; [apply find_some in E; destruct E as [E _]; destruct (T1 y z E); cbn [snd]; lia|lia]. }
    assert (KB2 : (n0 <= k2)%nat). { destruct T2 as [_ T2]. unfold lookup_symbol in L2. destruct (find _ t1) as [[y z]|] eqn:E; injection L2 as <- <- <-; [apply find_some in E; destruct E as [E _]; destruct (T2 y z E); cbn [snd]; lia|lia]. }
    constructor; cbn [s_dict s_gen s_table].
    - lia.
    - exact T2.
    - apply dict_set_nodup, dict_set_nodup, Hn.
    - intros s. rewrite !dict_set_keys, <- Hk. split; [intros [[|]|]; subst; auto|auto].
    - rewrite dict_set_lhs, dict_set_lhs; auto. rewrite dict_set_lhs by exact In1. exact In2.
    - intros s x'. rewrite !dict_get_set. destruct (name_eq_dec s g) as [->|Hsg].
      + intros [= <-]. destruct (Hv g ge Eg) as (x & Hx & E). exists x. split; [exact Hx|]. intros e He. rewrite <- E by auto. cbn [SimpSpec.eval Sub].
        rewrite (V1 e (Sub1 e He)), (V2 e He). cbn [SimpSpec.eval Sub Half]. rewrite Q2R_half, Q2R_m1. lra.
      + destruct (name_eq_dec s f) as [->|Hsf].
        * intros [= <-]. destruct (Hv f fe Ef) as (x & Hx & E). exists x. split; [exact Hx|]. intros e He. rewrite <- E by auto. cbn [SimpSpec.eval Sub].
          rewrite (V1 e (Sub1 e He)), (V2 e He). cbn [SimpSpec.eval Sub Half]. rewrite Q2R_half, Q2R_m1. lra.
        * intros Hs. destruct (Hv s x' Hs) as (x & Hx & E). exists x. split; [exact Hx|]. intros e He. apply E. auto.
    - intros s x' u. rewrite !dict_get_set. destruct (name_eq_dec s g) as [->|Hsg]; [|destruct (name_eq_dec s f) as [->|Hsf]].
      + intros [= <-] Hu. cbn [mentions Sub orb] in Hu. apply orb_true_iff in Hu. right. destruct Hu as [Hu|Hu]; apply name_eqb_eq in Hu; subst u; eexists; (split; [reflexivity|lia]).
      + intros [= <-] Hu. cbn [mentions] in Hu. apply orb_true_iff in Hu. right. destruct Hu as [Hu|Hu]; apply name_eqb_eq in Hu; subst u; eexists; (split; [reflexivity|lia]).
      + intros Hs Hu. destruct (Hm s x' u Hs Hu) as [|(i0 & -> & Hi0)]; [auto|]. right. exists i0. split; [reflexivity|lia].
    - eapply (lookup_symbol_names (fun u => exists d, In d d0 /\ mentions u (snd d) = true)); [exact L2|lia| |].
      + eapply (lookup_symbol_names (fun u => exists d, In d d0 /\ mentions u (snd d) = true)); [exact L1|lia|exact Htn|].
        intros u Hu. cbn in Hu. apply orb_true_iff in Hu. destruct Hu; auto.
      + intros u Hu. cbn in Hu. apply orb_true_iff in Hu. assert (D : (exists d, In d d0 /\ mentions u (snd d) = true) \/ exists i, u = Xi i /\ (n0 <= i < s_gen Op st)%nat) by (destruct Hu; auto).
        destruct D as [|(i0 & -> & Hi0)]; [auto|]. right. exists i0. split; [reflexivity|lia].
    - eapply lookup_symbol_increasing; [exact L2|exact T1|]. eapply lookup_symbol_increasing; [exact L1|exact Ht|exact Hinc].
  Qed.
  Lemma split_loop_inv S symbols d0 n0 : base_below d0 n0 -> forall idx st st', split_inv d0 n0 st -> split_loop Op K S symbols idx st = Ok st' -> split_inv d0 n0 st'.
  Proof.
    intros HB. induction idx as [|i idx IH]; intros st st' HI H; cbn [split_loop] in H; [now injection H as <-|].
    destruct (split_step Op K S symbols st i) as [st1|] eqn:E; [|discriminate]. cbn [rbind] in H. eapply IH; [|exact H]. eapply split_step_inv; eauto.
  Qed.
  Lemma split_result S symbols a a' : fresh a -> NoDup (map fst (mains a)) -> split_by_symmetry Op K (Some S) (Some symbols) a = Ok a' ->
    exists st, split_inv (mains a) (gen a) st /\ a' = {| subs := subs a ++ table_defs (s_table Op st); mains := s_dict Op st; gen := s_gen Op st |}.
  Proof.
    intros HF HN H. cbn [split_by_symmetry] in H. rewrite to_dict_id in H by exact HN.
    destruct (split_loop _ _ _ _ _ _) as [st|] eqn:E; [|discriminate]. cbn [rbind] in H. injection H as <-. exists st. split; [|reflexivity].
    eapply split_loop_inv; [|  |exact E].
    - intros d Hd k Hk. apply HF. right. exists d. split; [apply in_app_iff; now right|exact Hk].
    - constructor; cbn [s_dict s_gen s_table].
      + lia.
      + split; [constructor|intros x k []].
      + exact HN.
      + tauto.
      + reflexivity.
      + intros s x' Hs. exists x'. auto.
      + intros s x' u Hs Hu. left. exists (s, x'). split; [now apply dict_get_some|exact Hu].
      + intros y j u [].
      + intros l1 x k l2 E'. destruct l1; discriminate.
  Qed.
  Lemma split_keeps S symbols a a' : fresh a -> NoDup (map fst (mains a)) -> split_by_symmetry Op K (Some S) (Some symbols) a = Ok a' ->
    map fst (mains a') = map fst (mains a) /\ keeps_values sem a a'.
  Proof.
    intros HF HN H. destruct (split_result S symbols a a' HF HN H) as (st & [Hg Ht Hn Hk Hl Hv Hm Htn Hinc] & ->). split; [exact Hl|].
    apply (extension sem a _ (table_defs (s_table Op st))).
    - intros d. cbn [subs]. apply in_app_iff.
    - eapply numbered_solvable, table_numbered, Ht.
    - intros t Hin Ho. apply in_map_iff in Hin. destruct Hin as ([s y] & <- & Hin). unfold table_defs in Hin. apply in_map_iff in Hin. destruct Hin as ([x k] & [= <- <-] & Hin).
      cbn [fst] in Ho. specialize (HF k Ho). destruct Ht as [_ Ht]. destruct (Ht x k Hin). lia.
    - intros s. cbn [mains]. apply Hk.
    - intros e s x' Hs1 Hs2 Hin. cbn [mains] in Hin. apply dict_get_in in Hin; [|exact Hn]. destruct (Hv s x' Hin) as (x & Hx & E). exists x. split; [now apply dict_get_some|auto].
  Qed.
  (* main assignments do not use each other *)
  Definition separate (a : ac Op) : Prop := forall s d, In s (map fst (mains a)) -> In d (mains a) -> mentions s (snd d) = false.
  Lemma split_ordered S symbols a a' : fresh a -> separate a -> ordered (all a) -> split_by_symmetry Op K (Some S) (Some symbols) a = Ok a' -> ordered (all a').
  Proof.
    intros HF HSep [HO1 HO2] H.
    assert (HN : NoDup (map fst (mains a))). { unfold all in HO1. rewrite map_app in HO1. exact (NoDup_app_r _ _ HO1). }
    destruct (split_result S symbols a a' HF HN H) as (st & [Hg Ht Hn Hk Hl Hv Hm Htn Hinc] & ->). unfold all. cbn [subs mains].
    assert (Hl' : forall t, In t (map fst (s_dict Op st)) -> In t (map fst (mains a))) by (intros t Hin; rewrite <- Hl; exact Hin).
    assert (Old : forall t, In t (map fst (all a)) -> forall k, t = Xi k -> (k < gen a)%nat) by (intros t Hin k ->; apply HF; now left).
    assert (TK : forall t, In t (map fst (table_defs (s_table Op st))) -> exists x k, t = Xi k /\ In (x, k) (s_table Op st) /\ (gen a <= k < s_gen Op st)%nat).
    { intros t Hin. unfold table_defs in Hin. rewrite map_map in Hin. apply in_map_iff in Hin. destruct Hin as ([x k] & <- & Hin). exists x, k. split; [reflexivity|]. split; [exact Hin|]. apply (proj2 Ht x k Hin). }
    split.
    - assert (E : map fst ((subs a ++ table_defs (s_table Op st)) ++ s_dict Op st) = (map fst (subs a) ++ map fst (table_defs (s_table Op st))) ++ map fst (mains a))
        by (rewrite !map_app; f_equal; exact Hl). rewrite E. clear E. unfold all in HO1. rewrite map_app in HO1.
      assert (N2 : NoDup (map fst (table_defs (s_table Op st)))) by (apply (table_numbered _ _ _ Ht)).
      assert (D : forall t, In t (map fst (table_defs (s_table Op st))) -> ~ In t (map fst (all a))).
      { intros t Hin Hin'. destruct (TK t Hin) as (x & k & -> & _ & Hr). specialize (Old _ Hin' k eq_refl). lia. }
      unfold all in D. rewrite map_app in D. rewrite <- app_assoc.
      apply NoDup_app_in; [exact (NoDup_app_l _ _ HO1)|apply NoDup_app_in; [exact N2|exact HN|]|].
      + intros t Hin Hin'. apply (D t Hin), in_app_iff. now right.
      + intros t Hin Hin'. apply in_app_iff in Hin'. destruct Hin' as [Hin'|Hin'].
        * apply (D t Hin'), in_app_iff. now left.
        * exact (NoDup_app_disjoint _ _ HO1 t Hin Hin').
    - intros l1 d l2 E t Hin.
      destruct (mentions t (snd d)) eqn:Em; [exfalso|reflexivity].
      rewrite <- app_assoc in E.
      (* where is d? *)
      assert (Cases : (exists r1, subs a = l1 ++ d :: r1 /\ l2 = r1 ++ table_defs (s_table Op st) ++ s_dict Op st) \/
        (exists q r1, table_defs (s_table Op st) = q ++ d :: r1 /\ l2 = r1 ++ s_dict Op st) \/ (In d (s_dict Op st) /\ forall x, In x l2 -> In x (s_dict Op st))).
      { destruct (app_eq_app _ _ _ _ E) as (m1 & [[E1 E2]|[E1 E2]]).
        - destruct m1 as [|y m1].
          + cbn [app] in E2. destruct (table_defs (s_table Op st)) as [|y q] eqn:Et.
            * right; right. cbn [app] in E2. rewrite <- E2. split; [now left|]. intros x Hx. now right.
            * right; left. exists [], q. cbn [app] in E2. injection E2 as -> ->. auto.
          + injection E2 as -> E2. left. exists m1. split; [exact E1|exact E2].
        - right. symmetry in E2. destruct (app_eq_app _ _ _ _ E2) as (m2 & [[E3 E4]|[E3 E4]]).
          + right. rewrite E4. split; [apply in_app_iff; right; now left|]. intros x Hx. apply in_app_iff. right. now right.
          + destruct m2 as [|y m2].
            * right. cbn [app] in E4. rewrite <- E4. split; [now left|]. intros x Hx. now right.
            * left. injection E4 as -> E4. exists m1, m2. auto. }
      destruct Cases as [(r1 & E1 & ->)|[(q & r1 & E1 & ->)|[Hd Hl2]]].
      + (* an old subexpression *)
        assert (Hd : In d (all a)) by (apply in_app_iff; left; rewrite E1; apply in_app_iff; right; now left).
        cbn [map] in Hin. rewrite !map_app in Hin. destruct Hin as [Hin|Hin]; [|apply in_app_iff in Hin; destruct Hin as [Hin|Hin]; [|apply in_app_iff in Hin; destruct Hin as [Hin|Hin]]].
        * rewrite (HO2 l1 d (r1 ++ mains a)) in Em; [discriminate|unfold all; rewrite E1, <- app_assoc; reflexivity|left; exact Hin].
        * rewrite (HO2 l1 d (r1 ++ mains a)) in Em; [discriminate|unfold all; rewrite E1, <- app_assoc; reflexivity|right; rewrite map_app; apply in_app_iff; now left].
        * destruct (TK t Hin) as (x & k & -> & _ & Hr). assert (k < gen a)%nat by (apply HF; right; exists d; auto). lia.
        * apply Hl' in Hin. rewrite (HO2 l1 d (r1 ++ mains a)) in Em; [discriminate|unfold all; rewrite E1, <- app_assoc; reflexivity|right; rewrite map_app; apply in_app_iff; now right].
      + (* a new one *)
        unfold table_defs in E1. apply map_eq_app in E1. destruct E1 as (t1 & t2 & E1 & _ & E2). destruct t2 as [|[x k] t2]; [discriminate|]. cbn [map fst snd] in E2. injection E2 as Ed E2. subst d r1. cbn [snd] in Em.
        assert (Hx : In (x, k) (s_table Op st)) by (rewrite E1; apply in_app_iff; right; now left).
        destruct (Htn x k t Hx Em) as [(d & Hd & Hd')|(i & -> & Hi)].
        * cbn [map fst] in Hin. rewrite map_app in Hin. destruct Hin as [Hin|Hin]; [|apply in_app_iff in Hin; destruct Hin as [Hin|Hin]].
          -- subst t. assert (k < gen a)%nat by (apply HF; right; exists d; split; [apply in_app_iff; now right|exact Hd']). destruct (proj2 Ht x k Hx). lia.
          -- rewrite map_map in Hin. apply in_map_iff in Hin. destruct Hin as ([y j] & <- & Hin). assert (j < gen a)%nat by (apply HF; right; exists d; split; [apply in_app_iff; now right|exact Hd']).
             assert (Hy : In (y, j) (s_table Op st)) by (rewrite E1; apply in_app_iff; right; now right). destruct (proj2 Ht y j Hy). lia.
          -- apply Hl' in Hin. rewrite (HSep t d Hin Hd) in Hd'. discriminate.
        * cbn [map fst] in Hin. rewrite map_app in Hin. destruct Hin as [[= ->]|Hin]; [lia|apply in_app_iff in Hin; destruct Hin as [Hin|Hin]].
          -- rewrite map_map in Hin. apply in_map_iff in Hin. destruct Hin as ([y j] & [= ->] & Hin). specialize (Hinc t1 x k t2 E1 y i Hin). lia.
          -- apply Hl' in Hin. specialize (Old (Xi i)). assert (i < gen a)%nat by (apply Old; [unfold all; rewrite map_app, in_app_iff; now right|reflexivity]). lia.
      + (* a main assignment *)
        assert (Hts : In t (map fst (mains a))).
        { apply Hl'. destruct Hin as [<-|Hin]; [now apply in_map|]. apply in_map_iff in Hin. destruct Hin as (y & <- & Hy). apply in_map, Hl2, Hy. }
        destruct d as [s x']. cbn [snd] in Em. apply dict_get_in in Hd; [|exact Hn]. destruct (Hm s x' t Hd Em) as [(d & Hd' & Hd'')|(i & -> & Hi)].
        * rewrite (HSep t d Hts Hd') in Hd''. discriminate.
        * assert (i < gen a)%nat by (apply (Old (Xi i)); [unfold all; rewrite map_app, in_app_iff; now right|reflexivity]). lia.
  Qed.
End P.
