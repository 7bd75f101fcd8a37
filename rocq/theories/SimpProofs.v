(* Evaluation, solving fresh definitions, and the extension lemma. *)
From Coq Require Import String List ZArith QArith Qreals Bool Arith Lia Reals Lra.
From Verif Require Import StencilModel SimpModel SimpSpec.
Import ListNotations.
Local Open Scope R_scope.

Section P.
  Context {Op : Type} (sem : Op -> R -> R -> R).
  Notation env := (name -> R).
  Notation eval := (eval sem).
  Notation sat := (sat sem).
  Notation asg := (asg Op).

  Lemma name_eqb_eq a b : name_eqb a b = true <-> a = b.
  Proof. unfold name_eqb. destruct (name_eq_dec a b); split; congruence. Qed.
  Lemma eval_ext e e' x : (forall t, mentions t x = true -> e t = e' t) -> eval e x = eval e' x.
  Proof.
    induction x as [q|s|a IHa b IHb|a IHa b IHb|o a IHa b IHb]; intros H; cbn [SimpSpec.eval mentions] in *.
    1: reflexivity.
    1: apply H; now apply name_eqb_eq.
    all: rewrite IHa, IHb; auto; intros t Ht; apply H; rewrite Ht; auto using orb_true_r.
  Qed.
  Lemma sat_app e l l' : sat e (l ++ l') <-> sat e l /\ sat e l'.
  Proof. unfold SimpSpec.sat. setoid_rewrite in_app_iff. split; [intros H; split; intros s x Hx; apply H; auto|intros [H1 H2] s x [Hx|Hx]; auto]. Qed.
  Lemma sat_nil e : sat e []. Proof. intros s x []. Qed.
  Lemma sat_ext e e' l : (forall t, (In t (map fst l) \/ exists d, In d l /\ mentions t (snd d) = true) -> e t = e' t) -> sat e l -> sat e' l.
  Proof.
    intros H Hs s x Hx. rewrite <- H by (left; apply in_map_iff; exists (s, x); auto). rewrite (Hs s x Hx). apply eval_ext.
    intros t Ht. apply H. right. exists (s, x). auto.
  Qed.

  (* ---- sequential execution ---- *)
  Lemma assign_other e (d : asg) t : t <> fst d -> assign sem e d t = e t.
  Proof. unfold assign. destruct (name_eq_dec t (fst d)); congruence. Qed.
  Lemma assign_same e (d : asg) : assign sem e d (fst d) = eval e (snd d).
  Proof. unfold assign. destruct (name_eq_dec (fst d) (fst d)); congruence. Qed.
  Lemma run_other l : forall e t, ~ In t (map fst l) -> fold_left (assign sem) l e t = e t.
  Proof.
    induction l as [|d l IH]; intros e t Ht; [reflexivity|]. cbn [fold_left]. rewrite IH by (intros H; apply Ht; right; exact H).
    apply assign_other. intros E. apply Ht. left. auto.
  Qed.
  Lemma ordered_cons (d : asg) l : ordered (d :: l) -> ordered l /\ ~ In (fst d) (map fst l) /\ (forall t, In t (map fst (d :: l)) -> mentions t (snd d) = false).
  Proof.
    intros [HN H]. cbn [map] in HN. inversion HN; subst. split.
    - split; [assumption|]. intros l1 x l2 -> t Ht. apply (H (d :: l1) x l2); [reflexivity|exact Ht].
    - split; [assumption|]. intros t Ht. exact (H [] d l eq_refl t Ht).
  Qed.
  Lemma run_sat l : ordered l -> forall e, sat (fold_left (assign sem) l e) l.
  Proof.
    induction l as [|d l IH]; intros HO e; [apply sat_nil|]. destruct (ordered_cons d l HO) as (HO' & Hn & Hm). cbn [fold_left].
    intros s x [E|Hx]; [|now apply IH]. subst d. cbn [fst snd] in *. rewrite run_other by exact Hn.
    rewrite (assign_same e (s, x) : assign sem e (s, x) s = _). cbn [snd]. apply eval_ext. intros t Ht.
    rewrite run_other; [|intros Hin; specialize (Hm t (or_intror Hin)); congruence].
    symmetry. apply assign_other. cbn [fst]. intros ->. specialize (Hm s (or_introl eq_refl)). congruence.
  Qed.
  Lemma sat_unique l : ordered l -> forall e e', sat e l -> sat e' l -> (forall t, ~ In t (map fst l) -> e t = e' t) -> forall t, e t = e' t.
  Proof.
    induction l as [|d l IH]; intros HO e e' H1 H2 H t; [apply H; auto|]. destruct (ordered_cons d l HO) as (HO' & Hn & Hm).
    apply (IH HO'); try (intros s x Hx; (apply H1 || apply H2); now right).
    intros t' Ht'. destruct (name_eq_dec t' (fst d)) as [->|Hne].
    - destruct d as [s x]. cbn [fst snd] in *. rewrite (H1 s x (or_introl eq_refl)), (H2 s x (or_introl eq_refl)). apply eval_ext. intros t0 Ht0.
      apply H. intros [E|Hin]; [|specialize (Hm t0 (or_intror Hin)); congruence]. cbn [fst] in E. subst t0. specialize (Hm s (or_introl eq_refl)). cbn [snd] in Hm. congruence.
    - apply H. cbn [map]. intros [E|Hin]; [congruence|contradiction].
  Qed.
  (* for ordered collections the computed values are those of sequential execution *)
  Lemma computes_run a p s v : ordered (all a) -> (computes sem a p s v <-> In s (map fst (mains a)) /\ run sem a p s = v).
  Proof.
    intros HO. split.
    - intros (e & H1 & H2 & H3 & H4). split; [exact H3|]. rewrite <- H4. unfold run.
      apply (sat_unique (all a) HO); [now apply run_sat|exact H1|]. intros t Ht. rewrite run_other by exact Ht. symmetry. now apply H2.
    - intros [H1 H2]. exists (run sem a p). split; [now apply run_sat|]. split; [intros t Ht; now apply run_other|]. now split.
  Qed.

  (* ---- solving definitions of fresh symbols ---- *)
  Lemma dict_get_in (l : list asg) s x : NoDup (map fst l) -> In (s, x) l -> dict_get Op l s = Some x.
  Proof.
    induction l as [|[t y] l IH]; intros HN Hx; [destruct Hx|]. cbn [map] in HN. inversion HN; subst. cbn [dict_get]. destruct Hx as [[= -> ->]|Hx].
    - destruct (name_eq_dec s s); congruence.
    - destruct (name_eq_dec t s) as [->|]; [|auto]. exfalso. apply H1. apply in_map_iff. exists (s, x). auto.
  Qed.
  Lemma dict_get_some (l : list asg) s x : dict_get Op l s = Some x -> In (s, x) l.
  Proof. induction l as [|[t y] l IH]; cbn [dict_get]; [discriminate|]. destruct (name_eq_dec t s) as [->|]; [intros [= ->]; now left|]. intros H. right. auto. Qed.
  Lemma dict_get_none (l : list asg) s : dict_get Op l s = None <-> ~ In s (map fst l).
  Proof.
    induction l as [|[t y] l IH]; cbn [dict_get map fst]; [split; auto|]. destruct (name_eq_dec t s) as [->|Hne].
    - split; [discriminate|]. intros H. exfalso. apply H. now left.
    - rewrite IH. split; [intros H [E|E]; auto|intros H E; apply H; now right].
  Qed.
  Definition numbered (l : list asg) : Prop :=
    NoDup (map fst l) /\ forall s x, In (s, x) l -> exists k, s = Xi k /\ forall j, mentions (Xi j) x = true -> (j < k)%nat.
  Lemma solve_up_to (l : list asg) (e : env) : numbered l -> forall N, exists e',
    (forall t, e' t <> e t -> exists k, t = Xi k /\ (k < N)%nat /\ In t (map fst l)) /\
    forall s x k, In (s, x) l -> s = Xi k -> (k < N)%nat -> e' s = eval e' x.
  Proof.
    intros [HN HB] N. induction N as [|N (e1 & He1 & Hs1)].
    - exists e. split; [intros t Ht; congruence|]. intros. lia.
    - destruct (dict_get Op l (Xi N)) as [y|] eqn:E.
      + apply dict_get_some in E. destruct (HB _ _ E) as (k & [= <-] & Hy).
        exists (assign sem e1 (Xi N, y)). split.
        * intros t Ht. destruct (name_eq_dec t (Xi N)) as [->|Hne].
          -- exists N. split; [reflexivity|]. split; [lia|]. apply in_map_iff. exists (Xi N, y). auto.
          -- rewrite assign_other in Ht by exact Hne. destruct (He1 t Ht) as (k & -> & Hk & Hin). exists k. split; [reflexivity|]. split; [lia|exact Hin].
        * intros s x k Hin -> Hk.
          assert (Ev : forall x', (forall j, mentions (Xi j) x' = true -> (j < N)%nat) -> eval (assign sem e1 (Xi N, y)) x' = eval e1 x').
          { intros x' H. apply eval_ext. intros t Ht. apply assign_other. cbn [fst]. intros ->. specialize (H N Ht). lia. }
          destruct (HB _ _ Hin) as (k' & [= <-] & Hx). destruct (Nat.eq_dec k N) as [->|Hne].
          -- assert (x = y) by (apply dict_get_in in Hin, E; [congruence|assumption|assumption]). subst x.
             rewrite (assign_same e1 (Xi N, y) : assign sem e1 (Xi N, y) (Xi N) = _). cbn [snd]. now rewrite Ev.
          -- rewrite assign_other by (cbn [fst]; congruence). rewrite Ev by (intros j Hj; specialize (Hx j Hj); lia). apply (Hs1 (Xi k) x k); auto. lia.
      + exists e1. split.
        * intros t Ht. destruct (He1 t Ht) as (k & -> & Hk & Hin). exists k. split; [reflexivity|]. split; [lia|exact Hin].
        * intros s x k Hin -> Hk. destruct (Nat.eq_dec k N) as [->|Hne]; [|apply (Hs1 (Xi k) x k); auto; lia].
          apply dict_get_none in E. exfalso. apply E. apply in_map_iff. exists (Xi N, x). auto.
  Qed.
  (* new definitions can be satisfied by changing the defined symbols only *)
  Definition solvable (l : list asg) : Prop := forall e : env, exists e', sat e' l /\ forall t, ~ In t (map fst l) -> e' t = e t.
  Lemma numbered_solvable l : numbered l -> solvable l.
  Proof.
    intros H e. set (N := S (fold_right (fun d m => match fst d with Xi k => Nat.max k m | _ => m end) 0%nat l)).
    destruct (solve_up_to l e H N) as (e' & H1 & H2). exists e'. split.
    - intros s x Hin. destruct H as [_ HB]. destruct (HB s x Hin) as (k & -> & _). apply (H2 (Xi k) x k Hin eq_refl). unfold N. clear - Hin.
      apply Nat.lt_succ_r.
      induction l as [|d l IH]; [destruct Hin|]. cbn [fold_right]. destruct Hin as [->|Hin]; [cbn [fst]; lia|]. specialize (IH Hin). destruct (fst d); lia.
    - intros t Ht. destruct (Req_dec (e' t) (e t)) as [|Hne]; [assumption|]. destruct (H1 t Hne) as (k & _ & _ & Hin). contradiction.
  Qed.
  (* definitions in terms of symbols that are not defined by the list *)
  Lemma flat_solvable (l : list asg) : NoDup (map fst l) -> (forall s x t, In (s, x) l -> mentions t x = true -> ~ In t (map fst l)) -> solvable l.
  Proof.
    intros HN H e. exists (fold_left (assign sem) l e). split; [|intros t Ht; now apply run_other].
    apply run_sat. split; [exact HN|]. intros l1 d l2 -> t Ht. destruct (mentions t (snd d)) eqn:E; [|reflexivity]. exfalso.
    destruct d as [s x]. apply (H s x t); [apply in_app_iff; right; now left|exact E|]. rewrite map_app, in_app_iff. right. exact Ht.
  Qed.

  (* ---- adding definitions of fresh symbols and rewriting the main assignments ---- *)
  Lemma extension (a a' : ac Op) (new : list asg) :
    (forall d, In d (subs a') <-> In d (subs a) \/ In d new) -> solvable new -> (forall t, In t (map fst new) -> ~ occurs t a) ->
    (forall s, In s (map fst (mains a')) <-> In s (map fst (mains a))) ->
    (forall e s x', sat e (subs a) -> sat e new -> In (s, x') (mains a') -> exists x, In (s, x) (mains a) /\ eval e x' = eval e x) ->
    keeps_values sem a a'.
  Proof.
    intros Hsub Hsol Hfr Hm Hv p s v (e & H1 & H2 & H3 & H4). destruct (Hsol e) as (e' & Hn & Ho).
    assert (Heq : forall t, occurs t a -> e' t = e t) by (intros t Ht; apply Ho; intros Hin; exact (Hfr t Hin Ht)).
    assert (H1' : sat e' (all a)).
    { apply (sat_ext e); [|exact H1]. intros t [Ht|(d & Hd & Ht)]; symmetry; apply Heq; [now left|right; exists d; auto]. }
    apply sat_app in H1'. destruct H1' as [Hs1 Hs2].
    exists e'. split; [|split; [|split]].
    - apply sat_app. split; [intros t x Hx; apply Hsub in Hx; destruct Hx; [now apply Hs1|now apply Hn]|].
      intros t x' Hx'. destruct (Hv e' t x' Hs1 Hn Hx') as (x & Hx & E). rewrite E. now apply Hs2.
    - intros t Ht. unfold all in Ht. rewrite map_app, in_app_iff in Ht.
      assert (A : ~ In t (map fst new)) by (intros Hin; apply in_map_iff in Hin; destruct Hin as (d & <- & Hd); apply Ht; left; apply in_map, Hsub; auto).
      rewrite Ho by exact A. apply H2. unfold all. rewrite map_app, in_app_iff. intros [Hin|Hin]; apply Ht.
      + left. apply in_map_iff in Hin. destruct Hin as (d & <- & Hd). apply in_map, Hsub. auto.
      + right. now apply Hm.
    - now apply Hm.
    - rewrite Heq; [exact H4|]. left. unfold all. rewrite map_app, in_app_iff. now right.
  Qed.
  Lemma extension_back (a a' : ac Op) (new : list asg) :
    (forall d, In d (subs a') <-> In d (subs a) \/ In d new) -> (forall t, In t (map fst new) -> ~ occurs t a) -> NoDup (map fst (mains a)) ->
    (forall s, In s (map fst (mains a')) <-> In s (map fst (mains a))) ->
    (forall e s x', sat e (subs a) -> sat e new -> In (s, x') (mains a') -> exists x, In (s, x) (mains a) /\ eval e x' = eval e x) ->
    keeps_values sem a' a.
  Proof.
    intros Hsub Hfr HN Hm Hv p s v (e' & H1 & H2 & H3 & H4).
    set (e := fun t => if in_dec name_eq_dec t (map fst new) then p t else e' t).
    assert (Heq : forall t, ~ In t (map fst new) -> e t = e' t) by (intros t Ht; unfold e; destruct (in_dec _ _ _); [contradiction|reflexivity]).
    apply sat_app in H1. destruct H1 as [Hs1 Hs2].
    assert (A1 : sat e' (subs a)) by (intros t x Hx; apply Hs1, Hsub; auto).
    assert (A2 : sat e' new) by (intros t x Hx; apply Hs1, Hsub; auto).
    assert (A3 : sat e' (mains a)).
    { intros t x Hx. assert (Ht : In t (map fst (mains a'))) by (apply Hm, in_map_iff; exists (t, x); auto). apply in_map_iff in Ht. destruct Ht as ([t0 x'] & E & Hx'). cbn [fst] in E. subst t0.
      rewrite (Hs2 _ _ Hx'). destruct (Hv e' t x' A1 A2 Hx') as (x2 & Hx2 & ->). apply dict_get_in in Hx, Hx2; [|exact HN|exact HN]. congruence. }
    exists e. split; [|split; [|split]].
    - apply (sat_ext e'); [|apply sat_app; auto]. intros t Ht. symmetry. apply Heq. intros Hin. exact (Hfr t Hin Ht).
    - intros t Ht. unfold e. destruct (in_dec _ _ _) as [|Hn]; [reflexivity|]. apply H2. unfold all in *. rewrite map_app, in_app_iff in *. intros [Hin|Hin]; apply Ht.
      + apply in_map_iff in Hin. destruct Hin as (d & <- & Hd). apply Hsub in Hd. destruct Hd as [Hd|Hd]; [left; now apply in_map|]. exfalso. apply Hn. now apply in_map.
      + right. now apply Hm.
    - now apply Hm.
    - rewrite Heq; [exact H4|]. intros Hin. apply (Hfr s Hin). left. unfold all. rewrite map_app, in_app_iff. right. now apply Hm.
  Qed.
  Lemma keeps_refl (a : ac Op) : keeps_values sem a a. Proof. intros p s v H. exact H. Qed.
  Lemma keeps_trans (a b c : ac Op) : keeps_values sem a b -> keeps_values sem b c -> keeps_values sem a c.
  Proof. intros H1 H2 p s v H. apply H2, H1, H. Qed.
  (* same right hand sides up to value *)
  Lemma keeps_mains (a : ac Op) (f : expr Op -> expr Op) :
    (forall e d, sat e (subs a) -> In d (mains a) -> eval e (f (snd d)) = eval e (snd d)) -> keeps_values sem a (map_mains Op f a).
  Proof.
    intros H. apply (extension a _ []).
    - intros d. cbn. tauto.
    - intros e. exists e. split; [apply sat_nil|reflexivity].
    - intros t [].
    - intros s. cbn [map_mains mains]. rewrite map_map. reflexivity.
    - intros e s x' Hs _ Hin. cbn [map_mains mains] in Hin. apply in_map_iff in Hin. destruct Hin as (d & [= <- <-] & Hd). exists (snd d). split; [now destruct d|]. now apply H.
  Qed.

  (* ---- dictionaries ---- *)
  Lemma dict_set_keys (d : list asg) s x t : In t (map fst (dict_set Op d s x)) <-> In t (map fst d) \/ t = s.
  Proof.
    induction d as [|[u y] d IH]; cbn [dict_set map fst]; [cbn; intuition|]. destruct (name_eq_dec u s) as [->|]; cbn [map fst In]; [intuition congruence|]. rewrite IH. tauto.
  Qed.
  Lemma dict_set_nodup (d : list asg) s x : NoDup (map fst d) -> NoDup (map fst (dict_set Op d s x)).
  Proof.
    induction d as [|[u y] d IH]; cbn [dict_set map fst]; intros HN; [constructor; [intros []|constructor]|]. inversion HN; subst.
    destruct (name_eq_dec u s) as [->|Hne]; cbn [map fst]; [now constructor|]. constructor; [|auto]. rewrite dict_set_keys. intros [|]; [contradiction|congruence].
  Qed.
  Lemma dict_get_set (d : list asg) s x t : dict_get Op (dict_set Op d s x) t = if name_eq_dec t s then Some x else dict_get Op d t.
  Proof.
    induction d as [|[u y] d IH]; cbn [dict_set dict_get].
    - destruct (name_eq_dec s t), (name_eq_dec t s); congruence.
    - destruct (name_eq_dec u s) as [->|Hne]; cbn [dict_get].
      + destruct (name_eq_dec s t), (name_eq_dec t s); congruence.
      + rewrite IH. destruct (name_eq_dec u t), (name_eq_dec t s); congruence.
  Qed.
  Lemma dict_set_new (d : list asg) s x : ~ In s (map fst d) -> dict_set Op d s x = d ++ [(s, x)].
  Proof.
    induction d as [|[u y] d IH]; cbn [dict_set map fst app]; intros H; [reflexivity|]. destruct (name_eq_dec u s) as [->|]; [exfalso; apply H; now left|].
    rewrite IH; auto. intros Hin. apply H. now right.
  Qed.
  Lemma to_dict_id (l : list asg) : NoDup (map fst l) -> to_dict Op l = l.
  Proof.
    intros HN. unfold to_dict. assert (G : forall l d, NoDup (map fst (d ++ l)) -> fold_left (fun d a => dict_set Op d (fst a) (snd a)) l d = d ++ l).
    { clear. induction l as [|[s x] l IH]; intros d HN; [now rewrite app_nil_r|]. cbn [fold_left fst snd]. rewrite dict_set_new.
      - rewrite IH; rewrite <- app_assoc; [reflexivity|exact HN].
      - rewrite map_app in HN. cbn [map fst] in HN. apply NoDup_remove_2 in HN. intros H. apply HN, in_app_iff. now left. }
    exact (G l [] HN).
  Qed.
End P.
