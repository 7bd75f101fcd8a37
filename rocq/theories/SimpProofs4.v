(* Well-formed collections; the passes on main assignments; inserting subexpressions; strategies. *)
From Coq Require Import String List ZArith QArith Qreals Bool Arith Lia Reals Lra Permutation Sorting.
From Verif Require Import StencilModel StencilProofs SimpModel SimpSpec SimpProofs SimpProofs2 SimpProofs3.
Import ListNotations.
Local Open Scope R_scope.

Section P.
  Context {Op : Type} (sem : Op -> R -> R -> R).
  Notation env := (name -> R).
  Notation eval := (eval sem).
  Notation sat := (sat sem).
  Notation asg := (asg Op).
  Notation lhs l := (map fst l).

  (* ---- ordered lists ---- *)
  Lemma ordered_nil : ordered (@nil asg).
  Proof. split; [constructor|]. intros l1 d l2 E. destruct l1; discriminate. Qed.
  Lemma ordered_cons_intro (d : asg) l : ordered l -> ~ In (fst d) (lhs l) -> (forall t, In t (lhs (d :: l)) -> mentions t (snd d) = false) -> ordered (d :: l).
  Proof.
    intros [HN H] Hn Hm. split; [cbn [map]; now constructor|]. intros l1 x l2 E t Ht. destruct l1 as [|y l1]; cbn [app] in E; injection E as -> E.
    - subst l2. auto.
    - exact (H l1 x l2 E t Ht).
  Qed.
  Lemma ordered_app (l1 l2 : list asg) : ordered (l1 ++ l2) <->
    ordered l1 /\ ordered l2 /\ (forall t, In t (lhs l1) -> ~ In t (lhs l2)) /\ (forall d t, In d l1 -> In t (lhs l2) -> mentions t (snd d) = false).
  Proof.
    induction l1 as [|d l1 IH]; cbn [app].
    - split; [intros H; split; [apply ordered_nil|]; split; [exact H|]; split; [intros t []|intros d t []]|tauto].
    - split.
      + intros H. apply ordered_cons in H. destruct H as (H & Hn & Hm). apply IH in H. destruct H as (H1 & H2 & H3 & H4). rewrite map_app, in_app_iff in Hn.
        assert (Hm' : forall t, In t (lhs (d :: l1)) \/ In t (lhs l2) -> mentions t (snd d) = false).
        { intros t Ht. apply Hm. cbn [map]. rewrite map_app. cbn [map] in Ht. cbn [In] in *. rewrite in_app_iff. tauto. }
        split; [apply ordered_cons_intro; auto|]. split; [exact H2|]. split.
        * intros t [<-|Ht] Ht'; [auto|exact (H3 t Ht Ht')].
        * intros x t [<-|Hx] Ht; [auto|eauto].
      + intros (H1 & H2 & H3 & H4). apply ordered_cons in H1. destruct H1 as (H1 & Hn & Hm). apply ordered_cons_intro.
        * apply IH. split; [exact H1|]. split; [exact H2|]. split; [intros t Ht; apply H3; now right|intros x t Hx; apply H4; now right].
        * rewrite map_app, in_app_iff. intros [|Hin]; [contradiction|]. apply (H3 (fst d)); [now left|exact Hin].
        * intros t Ht. cbn [map] in Ht. rewrite map_app in Ht. destruct Ht as [<-|Ht]; [apply Hm; now left|]. apply in_app_iff in Ht. destruct Ht as [Ht|Ht]; [apply Hm; now right|]. apply H4; [now left|exact Ht].
  Qed.
  Lemma flat_ordered (l : list asg) : NoDup (lhs l) -> (forall d t, In d l -> In t (lhs l) -> mentions t (snd d) = false) -> ordered l.
  Proof.
    intros HN H. split; [exact HN|]. intros l1 d l2 -> t Ht. apply H; [apply in_app_iff; right; now left|]. rewrite map_app, in_app_iff. now right.
  Qed.
  Lemma well_formed_iff (a : ac Op) : well_formed a <-> ordered (subs a) /\ NoDup (lhs (mains a)) /\ (forall t, In t (lhs (subs a)) -> ~ In t (lhs (mains a))) /\
    (forall s d, In s (lhs (mains a)) -> In d (all a) -> mentions s (snd d) = false).
  Proof.
    unfold well_formed. split.
    - intros [HO HM]. unfold all in HO. apply ordered_app in HO. destruct HO as (H1 & [H2 _] & H3 & _). auto.
    - intros (H1 & H2 & H3 & HM). split; [|exact HM]. unfold all. apply ordered_app. split; [exact H1|]. split.
      + apply flat_ordered; [exact H2|]. intros d t Hd Ht. apply HM; [exact Ht|]. unfold all. apply in_app_iff. now right.
      + split; [exact H3|]. intros d t Hd Ht. apply HM; [exact Ht|]. unfold all. apply in_app_iff. now left.
  Qed.
  Lemma in_lhs (l : list asg) s x : In (s, x) l -> In s (lhs l).
  Proof. intros H. apply in_map_iff. exists (s, x). auto. Qed.
  Lemma lhs_in (l : list asg) s : In s (lhs l) -> exists x, In (s, x) l.
  Proof. intros H. apply in_map_iff in H. destruct H as ([t x] & <- & H). eauto. Qed.

  (* ---- values ---- *)
  Lemma same_refl (a : ac Op) : same_values sem a a. Proof. intros p s v. tauto. Qed.
  Lemma same_trans (a b c : ac Op) : same_values sem a b -> same_values sem b c -> same_values sem a c.
  Proof. intros H1 H2 p s v. rewrite (H1 p s v). apply H2. Qed.
  Lemma same_run (a a' : ac Op) : well_formed a -> well_formed a' -> same_values sem a a' -> forall p s, In s (lhs (mains a)) -> In s (lhs (mains a')) /\ run sem a' p s = run sem a p s.
  Proof.
    intros [HO _] [HO' _] HV p s Hs. assert (H : computes sem a p s (run sem a p s)) by (now apply computes_run). apply HV in H. now apply computes_run in H.
  Qed.
  (* new definitions before the main assignments, which get new right hand sides *)
  Lemma pass_ok (a a' : ac Op) (new : list asg) : well_formed a -> subs a' = subs a ++ new -> ordered new -> (forall t, In t (lhs new) -> ~ occurs t a) ->
    Permutation (lhs (mains a)) (lhs (mains a')) ->
    (forall d s, In d new \/ In d (mains a') -> In s (lhs (mains a)) -> mentions s (snd d) = false) ->
    (forall e x', sat e (subs a) -> sat e new -> In x' (mains a') -> exists x, In x (mains a) /\ fst x = fst x' /\ eval e (snd x') = eval e (snd x)) ->
    well_formed a' /\ same_values sem a a'.
  Proof.
    intros HW Es Hnew Hfr HP Hm Hv. pose proof HW as HW0. apply well_formed_iff in HW. destruct HW as (W1 & W2 & W3 & W4).
    assert (HP' : forall s, In s (lhs (mains a')) <-> In s (lhs (mains a))) by (intros s; split; apply Permutation_in; [now symmetry|exact HP]).
    assert (Hsub : forall d, In d (subs a') <-> In d (subs a) \/ In d new) by (intros d; rewrite Es; apply in_app_iff).
    assert (Hv' : forall e s x', sat e (subs a) -> sat e new -> In (s, x') (mains a') -> exists x, In (s, x) (mains a) /\ eval e x' = eval e x).
    { intros e s x' H1 H2 Hx'. destruct (Hv e _ H1 H2 Hx') as ([s0 x] & Hx & E & EV). cbn [fst snd] in *. subst s0. eauto. }
    split.
    - apply well_formed_iff. split; [|split; [|split]].
      + rewrite Es. apply ordered_app. split; [exact W1|]. split; [exact Hnew|]. split.
        * intros t Ht Ht'. apply (Hfr t Ht'). left. unfold all. rewrite map_app, in_app_iff. now left.
        * intros d t Hd Ht. destruct (mentions t (snd d)) eqn:E; [|reflexivity]. exfalso. apply (Hfr t Ht). right. exists d. split; [|exact E]. unfold all. apply in_app_iff. now left.
      + eapply Permutation_NoDup; [exact HP|exact W2].
      + intros t Ht Ht'. apply HP' in Ht'. rewrite Es, map_app in Ht. apply in_app_iff in Ht. destruct Ht as [Ht|Ht]; [exact (W3 t Ht Ht')|].
        apply (Hfr t Ht). left. unfold all. rewrite map_app, in_app_iff. now right.
      + intros s d Hs Hd. apply HP' in Hs. unfold all in Hd. rewrite Es in Hd. apply in_app_iff in Hd. destruct Hd as [Hd|Hd]; [apply in_app_iff in Hd; destruct Hd as [Hd|Hd]|]; [|auto|auto].
        apply W4; [exact Hs|]. unfold all. apply in_app_iff. now left.
    - intros p s v. split.
      + apply (extension sem a a' new); auto. intros e. exists (fold_left (assign sem) new e). split; [now apply run_sat|]. intros t Ht. now apply run_other.
      + apply (extension_back sem a a' new); auto.
  Qed.
  Lemma occurs_all t (a : ac Op) : occurs t a <-> In t (lhs (subs a)) \/ In t (lhs (mains a)) \/ (exists d, In d (subs a) /\ mentions t (snd d) = true) \/ exists d, In d (mains a) /\ mentions t (snd d) = true.
  Proof.
    unfold occurs, all. rewrite map_app, in_app_iff. setoid_rewrite in_app_iff. split.
    - intros [[H|H]|(d & [H|H] & Hm)]; eauto 6.
    - intros [H|[H|[(d & H & Hm)|(d & H & Hm)]]]; eauto 6.
  Qed.
  (* new right hand sides of the main assignments *)
  Lemma map_mains_ok (a : ac Op) (f : expr Op -> expr Op) : well_formed a ->
    (forall e x, sat e (subs a) -> In x (mains a) -> eval e (f (snd x)) = eval e (snd x)) ->
    (forall x s, In x (mains a) -> In s (lhs (mains a)) -> mentions s (f (snd x)) = false) ->
    well_formed (map_mains Op f a) /\ same_values sem a (map_mains Op f a).
  Proof.
    intros HW Hv Hm. apply (pass_ok a _ []); auto.
    - cbn [map_mains subs]. now rewrite app_nil_r.
    - apply ordered_nil.
    - cbn [map_mains mains]. rewrite map_map. cbn [fst]. reflexivity.
    - intros d s [[]|Hd] Hs. cbn [map_mains mains] in Hd. apply in_map_iff in Hd. destruct Hd as (x & <- & Hx). cbn [snd]. auto.
    - intros e x' Hs _ Hx'. cbn [map_mains mains] in Hx'. apply in_map_iff in Hx'. destruct Hx' as (x & <- & Hx). exists x. cbn [fst snd]. auto.
  Qed.
  Lemma map_mains_lhs (f : expr Op -> expr Op) (a : ac Op) : lhs (mains (map_mains Op f a)) = lhs (mains a).
  Proof. cbn [map_mains mains]. now rewrite map_map. Qed.
  Lemma map_mains_occurs (f : expr Op -> expr Op) (a : ac Op) t (P : Prop) : (forall x, In x (mains a) -> mentions t (f (snd x)) = true -> (exists y, In y (all a) /\ mentions t (snd y) = true) \/ P) ->
    occurs t (map_mains Op f a) -> occurs t a \/ P.
  Proof.
    intros H Ho. apply occurs_all in Ho. rewrite map_mains_lhs in Ho. cbn [map_mains subs mains] in Ho. destruct Ho as [Ho|[Ho|[(d & Hd & Hm)|(d & Hd & Hm)]]].
    - left. apply occurs_all. auto.
    - left. apply occurs_all. auto.
    - left. apply occurs_all. right. right. left. exists d. auto.
    - apply in_map_iff in Hd. destruct Hd as (x & <- & Hx). cbn [snd] in Hm. destruct (H x Hx Hm) as [(y & Hy & Hy')|HP]; [|auto]. left. right. eauto.
  Qed.
  Lemma all_main (a : ac Op) x : In x (mains a) -> In x (all a). Proof. intros H. unfold all. apply in_app_iff. now right. Qed.
  Lemma all_sub (a : ac Op) x : In x (subs a) -> In x (all a). Proof. intros H. unfold all. apply in_app_iff. now left. Qed.

  (* ---- the passes ---- *)
  Section Passes.
  Context (K : cas Op) (mixed : name -> Prop) (HK : cas_ok sem K mixed).

  Lemma expand_ok a a' : well_formed a -> expand_all Op K a = Ok a' -> well_formed a' /\ lhs (mains a') = lhs (mains a) /\ same_values sem a a' /\ forall t, occurs t a' -> occurs t a.
  Proof.
    intros HW [= <-]. pose proof HW as HW0. apply well_formed_iff in HW0. destruct HW0 as (_ & _ & _ & W4).
    assert (M : forall x t, mentions t (c_expand Op K x) = true -> mentions t x = true) by (intros x; apply (ok_expand _ _ _ HK)).
    destruct (map_mains_ok a (c_expand Op K) HW) as [H1 H2].
    - intros e x _ _. apply (ok_expand _ _ _ HK).
    - intros x s Hx Hs. destruct (mentions s (c_expand Op K (snd x))) eqn:E; [|reflexivity]. apply M in E. rewrite (W4 s x Hs (all_main _ _ Hx)) in E. discriminate.
    - split; [exact H1|]. split; [apply map_mains_lhs|]. split; [exact H2|]. intros t Ht. apply (map_mains_occurs _ _ t False) in Ht; [tauto|]. intros x Hx Hm. left. exists x. split; [now apply all_main|auto].
  Qed.
  Lemma collect_fold rates : forall x, (forall e, eval e (fold_left (c_collect Op K) rates x) = eval e x) /\ forall t, mentions t (fold_left (c_collect Op K) rates x) = true -> mentions t x = true.
  Proof.
    induction rates as [|r rates IH]; intros x; cbn [fold_left]; [auto|]. destruct (IH (c_collect Op K x r)) as [H1 H2]. destruct (ok_collect _ _ _ HK x r) as [H3 H4].
    split; [intros e; now rewrite H1|auto].
  Qed.
  Lemma factor_rates_ok hint a a' : well_formed a -> factor_relaxation_rates Op K hint a = Ok a' ->
    well_formed a' /\ lhs (mains a') = lhs (mains a) /\ same_values sem a a' /\ forall t, occurs t a' -> occurs t a.
  Proof.
    intros HW H. unfold factor_relaxation_rates in H. destruct hint as [[number rates]|]; [|discriminate]. destruct (19 <? number)%nat; injection H as <-.
    - split; [exact HW|]. split; [reflexivity|]. split; [apply same_refl|auto].
    - pose proof HW as HW0. apply well_formed_iff in HW0. destruct HW0 as (_ & _ & _ & W4). destruct (map_mains_ok a (fun e => fold_left (c_collect Op K) rates e) HW) as [H1 H2].
      + intros e x _ _. apply collect_fold.
      + intros x s Hx Hs. destruct (mentions s _) eqn:E; [|reflexivity]. apply collect_fold in E. rewrite (W4 s x Hs (all_main _ _ Hx)) in E. discriminate.
      + split; [exact H1|]. split; [apply map_mains_lhs|]. split; [exact H2|]. intros t Ht. apply (map_mains_occurs _ _ t False) in Ht; [tauto|]. intros x Hx Hm. left. exists x. split; [now apply all_main|]. now apply collect_fold in Hm.
  Qed.
  Lemma density_fold rho rates : forall x, let g := fold_left (fun e r => let co := c_coeff Op K e r in c_subs Op K co (c_collect Op K co rho) e) rates x in
    (forall e, eval e g = eval e x) /\ forall t, mentions t g = true -> mentions t x = true.
  Proof.
    induction rates as [|r rates IH]; intros x; cbn [fold_left]; [cbn zeta; auto|]. cbn zeta in *. set (co := c_coeff Op K x r).
    destruct (IH (c_subs Op K co (c_collect Op K co rho) x)) as [H1 H2]. destruct (ok_collect _ _ _ HK co rho) as [H3 H4]. destruct (ok_subs _ _ _ HK co (c_collect Op K co rho) x) as [H5 H6].
    split; [intros e; rewrite H1; apply H5; symmetry; apply H3|]. intros t Ht. apply H2, H6 in Ht. destruct Ht as [Ht|Ht]; [exact Ht|]. apply H4 in Ht. exact (ok_coeff _ _ _ HK _ _ _ Ht).
  Qed.
  Lemma factor_density_ok density hint a a' : well_formed a -> factor_density Op K density hint a = Ok a' ->
    well_formed a' /\ lhs (mains a') = lhs (mains a) /\ same_values sem a a' /\ forall t, occurs t a' -> occurs t a.
  Proof.
    intros HW H. unfold factor_density in H. destruct density as [rho|]; [|discriminate]. destruct hint as [rates|]; [|discriminate]. injection H as <-.
    pose proof HW as HW0. apply well_formed_iff in HW0. destruct HW0 as (_ & _ & _ & W4).
    destruct (map_mains_ok a (fun e => fold_left (fun e r => let co := c_coeff Op K e r in c_subs Op K co (c_collect Op K co rho) e) rates e) HW) as [H1 H2].
    - intros e x _ _. apply density_fold.
    - intros x s Hx Hs. destruct (mentions s _) eqn:E; [|reflexivity]. apply density_fold in E. rewrite (W4 s x Hs (all_main _ _ Hx)) in E. discriminate.
    - split; [exact H1|]. split; [apply map_mains_lhs|]. split; [exact H2|]. intros t Ht. apply (map_mains_occurs _ _ t False) in Ht; [tauto|]. intros x Hx Hm. left. exists x. split; [now apply all_main|]. now apply density_fold in Hm.
  Qed.

  (* definitions with the other subexpressions inserted *)
  Lemma subst1_eval s y e x : e s = eval e y -> eval e (subst1 Op s y x) = eval e x.
  Proof.
    intros H. induction x as [q|t|a IHa b IHb|a IHa b IHb|o a IHa b IHb]; cbn [subst1 SimpSpec.eval]; [reflexivity| |now rewrite IHa, IHb|now rewrite IHa, IHb|now rewrite IHa, IHb].
    destruct (name_eq_dec t s) as [->|]; [now symmetry|reflexivity].
  Qed.
  Lemma subst1_mentions s y t (x : expr Op) : mentions t (subst1 Op s y x) = true -> (mentions t x = true /\ t <> s) \/ mentions t y = true.
  Proof.
    induction x as [q|u|a IHa b IHb|a IHa b IHb|o a IHa b IHb]; cbn [subst1 mentions]; [discriminate| | | |].
    - destruct (name_eq_dec u s) as [->|Hne]; [auto|]. cbn [mentions]. intros H. left. split; [exact H|]. apply name_eqb_eq in H. congruence.
    - rewrite !orb_true_iff. tauto.
    - rewrite !orb_true_iff. tauto.
    - rewrite !orb_true_iff. tauto.
  Qed.
  Lemma inline_eval (l : list asg) e x : sat e l -> eval e (inline Op l x) = eval e x.
  Proof.
    induction l as [|[s y] l IH]; intros H; cbn [inline fold_right fst snd]; [reflexivity|]. rewrite subst1_eval by (apply H; now left). apply IH. intros t z Hz. apply H. now right.
  Qed.
  Lemma inline_mentions (l : list asg) t x : mentions t (inline Op l x) = true -> mentions t x = true \/ exists d, In d l /\ mentions t (snd d) = true.
  Proof.
    induction l as [|[s y] l IH]; cbn [inline fold_right fst snd]; [auto|]. intros H. apply subst1_mentions in H. destruct H as [[H _]|H].
    - destruct (IH H) as [|(d & Hd & Hm)]; [auto|]. right. exists d. split; [now right|exact Hm].
    - right. exists (s, y). split; [now left|exact H].
  Qed.
  Lemma definitions_ok (a : ac Op) symbols s y : In (s, y) (definitions Op a symbols) -> In s symbols /\
    (forall e, sat e (subs a) -> (In s (lhs (mains a)) -> sat e (mains a)) -> e s = eval e y) /\ In s (lhs (all a)) /\
    forall t, mentions t y = true -> exists d, In d (all a) /\ mentions t (snd d) = true.
  Proof.
    unfold definitions. intros H. apply in_flat_map in H. destruct H as ([s0 x] & Hin & H). cbn [fst snd] in H. destruct (existsb (name_eqb s0) symbols) eqn:E; [|destruct H].
    destruct H as [[= <- <-]|[]]. apply existsb_exists in E. destruct E as (z & Hz & Ez). apply name_eqb_eq in Ez. subst z. split; [exact Hz|]. split; [|split].
    - intros e He Hm. rewrite inline_eval.
      + apply in_app_iff in Hin. destruct Hin as [Hin|Hin]; [now apply He|]. apply Hm; [now apply in_lhs in Hin|exact Hin].
      + intros t z Hz'. apply filter_In in Hz'. now apply He.
    - exact (in_lhs _ _ _ Hin).
    - intros t Ht. apply inline_mentions in Ht. destruct Ht as [Ht|(d & Hd & Hm)]; [exists (s0, x); auto|]. apply filter_In in Hd. exists d. split; [now apply all_sub|exact Hm].
  Qed.
  Lemma additive_fold (ds : list asg) : forall x,
    (forall e, (forall s y, In (s, y) ds -> e s = eval e y) -> eval e (fold_left (fun e d => c_subs_additive Op K e (fst d) (snd d)) ds x) = eval e x) /\
    forall t, mentions t (fold_left (fun e d => c_subs_additive Op K e (fst d) (snd d)) ds x) = true -> mentions t x = true \/ exists d, In d ds /\ (t = fst d \/ mentions t (snd d) = true).
  Proof.
    induction ds as [|[s y] ds IH]; intros x; cbn [fold_left fst snd]; [auto|]. destruct (IH (c_subs_additive Op K x s y)) as [H1 H2]. destruct (ok_subs_additive _ _ _ HK x s y) as [H3 H4]. split.
    - intros e He. rewrite H1 by (intros s' y' H'; apply He; now right). apply H3, He. now left.
    - intros t Ht. apply H2 in Ht. destruct Ht as [Ht|(d & Hd & Hm)]; [|right; exists d; split; [now right|exact Hm]]. apply H4 in Ht. destruct Ht as [Ht|Ht]; [auto|]. right. exists (s, y). split; [now left|exact Ht].
  Qed.
  Lemma replace_density_ok rho u a a' : well_formed a -> (forall s, In s (rho :: u) -> ~ In s (lhs (mains a))) -> replace_density_and_velocity Op K (Some rho) (Some u) a = Ok a' ->
    well_formed a' /\ lhs (mains a') = lhs (mains a) /\ same_values sem a a' /\ forall t, occurs t a' -> occurs t a.
  Proof.
    intros HW Hn [= <-]. pose proof HW as HW0. apply well_formed_iff in HW0. destruct HW0 as (_ & _ & _ & W4).
    set (ds := definitions Op a (rho :: u)).
    assert (Hds : forall s y, In (s, y) ds -> (forall e, sat e (subs a) -> e s = eval e y) /\ In s (lhs (all a)) /\ ~ In s (lhs (mains a)) /\ forall t, mentions t y = true -> exists d, In d (all a) /\ mentions t (snd d) = true).
    { intros s y H. destruct (definitions_ok a _ s y H) as (H1 & H2 & H3 & H4). split; [|split; [exact H3|split; [now apply Hn|exact H4]]]. intros e He. apply H2; [exact He|]. intros Hin. exfalso. exact (Hn s H1 Hin). }
    assert (M : forall x t, In x (mains a) -> mentions t (fold_left (fun e d => c_subs_additive Op K e (fst d) (snd d)) ds (snd x)) = true ->
      (exists y, In y (all a) /\ mentions t (snd y) = true) \/ (In t (lhs (all a)) /\ ~ In t (lhs (mains a)))).
    { intros x t Hx Ht. apply additive_fold in Ht. destruct Ht as [Ht|([s y] & Hd & [->|Ht])].
      - left. exists x. split; [now apply all_main|exact Ht].
      - right. destruct (Hds s y Hd) as (_ & H2 & H3 & _). auto.
      - left. now apply (Hds s y Hd). }
    destruct (map_mains_ok a (fun e => fold_left (fun e d => c_subs_additive Op K e (fst d) (snd d)) ds e) HW) as [H1 H2].
    - intros e x He _. apply additive_fold. intros s y H. now apply (Hds s y H).
    - intros x s Hx Hs. destruct (mentions s _) eqn:E; [|reflexivity]. apply (M x s Hx) in E. destruct E as [(y & Hy & E)|[_ E]]; [|contradiction]. rewrite (W4 s y Hs Hy) in E. discriminate.
    - split; [exact H1|]. split; [apply map_mains_lhs|]. split; [exact H2|]. intros t Ht. apply (map_mains_occurs _ _ t (In t (lhs (all a)))) in Ht.
      + destruct Ht as [Ht|Ht]; [exact Ht|now left].
      + intros x Hx Hm. destruct (M x t Hx Hm) as [|[H _]]; auto.
  Qed.
  Lemma replace_common_ok density velocity hint S common a a' : well_formed a -> ~ occurs f_eq_common a ->
    (forall x k, common a = Some (x, k) -> mentions f_eq_common x = false /\ forall s, In s (lhs (mains a)) -> mentions s x = false) ->
    replace_common_term Op K density velocity hint S common a = Ok a' ->
    well_formed a' /\ lhs (mains a') = lhs (mains a) /\ same_values sem a a'.
  Proof.
    intros HW Hf Hc H. unfold replace_common_term in H. destruct density; [|discriminate]. destruct velocity; [|discriminate]. destruct hint; [|discriminate]. destruct S as [|c S]; [discriminate|].
    destruct (negb _); [discriminate|]. destruct (common a) as [[x k]|] eqn:E; [|injection H as <-; split; [exact HW|split; [reflexivity|apply same_refl]]].
    destruct (1 <? k)%nat; [|injection H as <-; split; [exact HW|split; [reflexivity|apply same_refl]]]. injection H as <-. destruct (Hc x k eq_refl) as [Hc1 Hc2].
    pose proof HW as HW0. apply well_formed_iff in HW0. destruct HW0 as (_ & _ & _ & W4).
    assert (EL : lhs (map (fun m => (fst m, c_subs_additive Op K (snd m) f_eq_common x)) (mains a)) = lhs (mains a)) by (rewrite map_map; reflexivity).
    assert (P : well_formed {| subs := subs a ++ [(f_eq_common, x)]; mains := map (fun m => (fst m, c_subs_additive Op K (snd m) f_eq_common x)) (mains a); gen := gen a |} /\
      same_values sem a {| subs := subs a ++ [(f_eq_common, x)]; mains := map (fun m => (fst m, c_subs_additive Op K (snd m) f_eq_common x)) (mains a); gen := gen a |}).
    { apply (pass_ok a _ [(f_eq_common, x)]); auto.
      - apply ordered_cons_intro; [apply ordered_nil|intros []|]. intros t [<-|[]]. exact Hc1.
      - intros t [<-|[]]. exact Hf.
      - cbn [mains]. rewrite EL. reflexivity.
      - cbn [mains]. intros d s [[<-|[]]|Hd] Hs; [now apply Hc2|]. apply in_map_iff in Hd. destruct Hd as (m & <- & Hm). cbn [snd].
        destruct (mentions s (c_subs_additive _ _ _ _ _)) eqn:Em; [|reflexivity]. apply (ok_subs_additive _ _ _ HK) in Em. destruct Em as [Em|[->|Em]].
        + rewrite (W4 s m Hs (all_main _ _ Hm)) in Em. discriminate.
        + exfalso. apply Hf. apply occurs_all. auto.
        + rewrite (Hc2 s Hs) in Em. discriminate.
      - cbn [mains]. intros e x' He1 He2 Hx'. apply in_map_iff in Hx'. destruct Hx' as (m & <- & Hm). exists m. cbn [fst snd]. split; [exact Hm|]. split; [reflexivity|].
        apply (ok_subs_additive _ _ _ HK). apply He2. now left. }
    destruct P as [P1 P2]. split; [exact P1|]. split; [exact EL|exact P2].
  Qed.
  Lemma second_order_loop_ok u : forall l sub l' sub', second_order_loop Op K u l sub = (l', sub') ->
    (exists new, sub' = sub ++ new /\ (NoDup (lhs sub) -> NoDup (lhs sub')) /\ (forall s y, In (s, y) new -> mixed s /\ forall t, mentions t y = true -> In t u)) /\
    lhs l' = lhs l /\
    (forall x', In x' l' -> exists x, In x l /\ fst x = fst x' /\ (forall e, sat e sub' -> eval e (snd x') = eval e (snd x)) /\
       forall t, mentions t (snd x') = true -> mentions t (snd x) = true \/ In t u \/ In t (lhs sub')).
  Proof.
    induction l as [|m l IH]; intros sub l' sub' H; cbn [second_order_loop] in H.
    - injection H as <- <-. split; [exists []; split; [now rewrite app_nil_r|]; split; [auto|intros s y []]|]. split; [reflexivity|]. intros x' [].
    - destruct (c_second_order Op K (snd m) u sub) as [x1 sub1] eqn:E1. destruct (second_order_loop Op K u l sub1) as [l2 sub2] eqn:E2. injection H as <- <-.
      destruct (ok_second_order _ _ _ HK _ _ _ _ _ E1) as ((n1 & -> & A1 & A2 & A3) & A4 & A5). destruct (IH _ _ _ E2) as ((n2 & -> & B1 & B2) & B3 & B4).
      split; [|split].
      + exists (n1 ++ n2). rewrite app_assoc. split; [reflexivity|]. split.
        * intros HN. apply B1. rewrite map_app. apply NoDup_app_in; [exact HN|exact A1|]. intros t Ht Ht'. exact (A2 t Ht' Ht).
        * intros s y Hin. apply in_app_iff in Hin. destruct Hin; auto.
      + cbn [map fst]. now rewrite B3.
      + intros x' [<-|Hx'].
        * exists m. cbn [fst snd]. split; [now left|]. split; [reflexivity|]. split.
          -- intros e He. apply A4. apply sat_app in He. apply He.
          -- intros t Ht. destruct (A5 t Ht) as [|[|Hin]]; auto. right. right. rewrite map_app, in_app_iff. now left.
        * destruct (B4 x' Hx') as (x & Hx & E & V & M). exists x. split; [now right|auto].
  Qed.
  Lemma second_order_ok u a a' : well_formed a -> (forall s, mixed s -> ~ occurs s a /\ ~ In s u) -> (forall s, In s u -> ~ In s (lhs (mains a))) ->
    replace_second_order_velocity_products Op K (Some u) a = Ok a' ->
    well_formed a' /\ lhs (mains a') = lhs (mains a) /\ same_values sem a a' /\ forall t, occurs t a' -> occurs t a \/ mixed t \/ In t u.
  Proof.
    intros HW Hmix Hu H. unfold replace_second_order_velocity_products in H. destruct (second_order_loop Op K u (mains a) []) as [l sub] eqn:E. injection H as <-.
    destruct (second_order_loop_ok u _ _ _ _ E) as ((new & Es & HN & Hnew) & EL & HV). cbn [app] in Es. subst sub. specialize (HN (NoDup_nil _)).
    pose proof HW as HW0. apply well_formed_iff in HW0. destruct HW0 as (_ & _ & _ & W4).
    assert (Hk : forall t, In t (lhs new) -> mixed t) by (intros t Ht; apply lhs_in in Ht; destruct Ht as (y & Hy); now apply (Hnew t y)).
    assert (P : well_formed {| subs := subs a ++ new; mains := l; gen := gen a |} /\ same_values sem a {| subs := subs a ++ new; mains := l; gen := gen a |}).
    { apply (pass_ok a _ new); auto.
      - apply flat_ordered; [exact HN|]. intros [s y] t Hd Ht. cbn [snd]. destruct (mentions t y) eqn:Em; [|reflexivity]. exfalso. apply (proj2 (Hmix t (Hk t Ht))). apply (proj2 (Hnew s y Hd) t Em).
      - intros t Ht. now apply Hmix, Hk.
      - cbn [mains]. rewrite EL. reflexivity.
      - cbn [mains]. intros d s [Hd|Hd] Hs; destruct (mentions s (snd d)) eqn:Em; try reflexivity; exfalso.
        + destruct d as [s0 y]. apply (Hu s); [exact (proj2 (Hnew s0 y Hd) s Em)|exact Hs].
        + destruct (HV d Hd) as (x & Hx & _ & _ & M). destruct (M s Em) as [Em'|[Em'|Em']].
          * rewrite (W4 s x Hs (all_main _ _ Hx)) in Em'. discriminate.
          * exact (Hu s Em' Hs).
          * apply (proj1 (Hmix s (Hk s Em'))). apply occurs_all. auto.
      - cbn [mains]. intros e x' _ He Hx'. destruct (HV x' Hx') as (x & Hx & E1 & V & _). exists x. split; [exact Hx|]. split; [exact E1|auto]. }
    destruct P as [P1 P2]. split; [exact P1|]. split; [exact EL|]. split; [exact P2|].
    intros t Ht. apply occurs_all in Ht. cbn [subs mains] in Ht. destruct Ht as [Ht|[Ht|[(d & Hd & Hm)|(d & Hd & Hm)]]].
    - rewrite map_app in Ht. apply in_app_iff in Ht. destruct Ht as [Ht|Ht]; [|auto]. left. apply occurs_all. auto.
    - left. apply occurs_all. right. left. rewrite <- EL. exact Ht.
    - apply in_app_iff in Hd. destruct Hd as [Hd|Hd]; [left; apply occurs_all; right; right; left; exists d; auto|]. destruct d as [s y]. right. right. exact (proj2 (Hnew s y Hd) t Hm).
    - destruct (HV d Hd) as (x & Hx & _ & _ & M). destruct (M t Hm) as [Hm'|[Hm'|Hm']]; [|auto|auto]. left. apply occurs_all. right. right. right. exists x. auto.
  Qed.

  (* ---- rewriting the right hand sides of subexpressions ---- *)
  Lemma same_equations (a a' : ac Op) : well_formed a -> lhs (subs a') = lhs (subs a) -> lhs (mains a') = lhs (mains a) ->
    (forall d' , In d' (all a') -> exists d, In d (all a) /\ fst d = fst d' /\ (forall e, eval e (snd d') = eval e (snd d))) ->
    same_values sem a a'.
  Proof.
    intros [[HN _] _] E1 E2 H.
    assert (EA : lhs (all a') = lhs (all a)) by (unfold all; rewrite !map_app; f_equal; assumption).
    assert (HS : forall e, sat e (all a) <-> sat e (all a')).
    { intros e. split; intros He s x Hx.
      - destruct (H _ Hx) as ([s0 y] & Hy & E & V). cbn [fst snd] in *. subst s0. rewrite V. now apply He.
      - assert (Hs : In s (lhs (all a'))) by (rewrite EA; exact (in_lhs _ _ _ Hx)). apply lhs_in in Hs. destruct Hs as (y & Hy). destruct (H _ Hy) as ([s0 z] & Hz & E & V). cbn [fst snd] in *. subst s0.
        apply dict_get_in in Hz, Hx; [|exact HN|exact HN]. rewrite (He _ _ Hy), V. congruence. }
    intros p s v. unfold computes. split; intros (e & H1 & H2 & H3 & H4); exists e.
    - split; [now apply HS|]. split; [intros t Ht; apply H2; rewrite <- EA; exact Ht|]. split; [rewrite E2; exact H3|exact H4].
    - split; [now apply HS|]. split; [intros t Ht; apply H2; rewrite EA; exact Ht|]. split; [rewrite <- E2; exact H3|exact H4].
  Qed.
  Lemma expand_subexpressions_ok symbols a a' : well_formed a -> expand_subexpressions Op K symbols a = Ok a' -> well_formed a' /\ lhs (mains a') = lhs (mains a) /\ same_values sem a a'.
  Proof.
    intros HW [= <-]. pose proof HW as HW0. apply well_formed_iff in HW0. destruct HW0 as (W1 & W2 & W3 & W4). rewrite to_dict_id by (apply W1).
    set (g := fun d : asg => (fst d, if existsb (name_eqb (fst d)) symbols then c_expand Op K (snd d) else snd d)).
    assert (M : forall d t, mentions t (snd (g d)) = true -> mentions t (snd d) = true). { intros d t. unfold g. cbn [snd]. destruct (existsb _ _); [|auto]. apply (ok_expand _ _ _ HK). }
    assert (V : forall d e, eval e (snd (g d)) = eval e (snd d)). { intros d e. unfold g. cbn [snd]. destruct (existsb _ _); [|auto]. apply (ok_expand _ _ _ HK). }
    assert (EL : lhs (map g (subs a)) = lhs (subs a)) by (rewrite map_map; reflexivity).
    assert (OM : forall l, ordered l -> ordered (map g l)).
    { induction l as [|d l IH]; intros HO; [exact HO|]. apply ordered_cons in HO. destruct HO as (HO & Hn & Hm). cbn [map]. assert (ELl : lhs (map g l) = lhs l) by (rewrite map_map; reflexivity). apply ordered_cons_intro; [auto| |].
      - rewrite ELl. exact Hn.
      - intros t Ht. cbn [map] in Ht. rewrite ELl in Ht. destruct (mentions t (snd (g d))) eqn:E; [|reflexivity]. apply M in E. rewrite Hm in E; [discriminate|exact Ht]. }
    split; [|split; [reflexivity|]].
    - apply well_formed_iff. cbn [subs mains]. split; [apply OM, W1|]. split; [exact W2|]. split; [intros t Ht; apply W3; rewrite <- EL; exact Ht|]. intros s d Hs Hd. unfold all in Hd. cbn [subs mains] in Hd. apply in_app_iff in Hd. destruct Hd as [Hd|Hd].
      + apply in_map_iff in Hd. destruct Hd as (d0 & <- & Hd). destruct (mentions s (snd (g d0))) eqn:E; [|exact E]. apply M in E. rewrite (W4 s d0 Hs (all_sub _ _ Hd)) in E. discriminate.
      + apply W4; [exact Hs|now apply all_main].
    - apply same_equations; [exact HW|exact EL|reflexivity|]. intros d' Hd'. unfold all in Hd'. cbn [subs mains] in Hd'. apply in_app_iff in Hd'. destruct Hd' as [Hd'|Hd'].
      + apply in_map_iff in Hd'. destruct Hd' as (d & <- & Hd). exists d. split; [now apply all_sub|]. split; [reflexivity|]. intros e. apply V.
      + exists d'. split; [now apply all_main|auto].
  Qed.
  End Passes.

  (* ---- inserting subexpressions ---- *)
  Lemma insert_one_lhs (d : asg) l : lhs (insert_one Op d l) = lhs l.
  Proof. unfold insert_one. now rewrite map_map. Qed.
  Lemma insert_one_ordered (d : asg) l : ordered l -> (forall t, In t (lhs l) -> mentions t (snd d) = false) -> ordered (insert_one Op d l).
  Proof.
    induction l as [|x l IH]; intros HO Hd; [exact HO|]. apply ordered_cons in HO. destruct HO as (HO & Hn & Hm). cbn [insert_one map]. fold (insert_one Op d l). apply ordered_cons_intro.
    - apply IH; [exact HO|]. intros t Ht. apply Hd. now right.
    - cbn [fst]. rewrite insert_one_lhs. exact Hn.
    - intros t Ht. cbn [map fst] in Ht. rewrite insert_one_lhs in Ht. cbn [snd]. destruct (mentions t (subst1 _ _ _ _)) eqn:E; [|reflexivity]. apply subst1_mentions in E. destruct E as [[E _]|E].
      + rewrite (Hm t Ht) in E. discriminate.
      + rewrite (Hd t Ht) in E. discriminate.
  Qed.
  Lemma subst1_id s y (x : expr Op) : mentions s x = false -> subst1 Op s y x = x.
  Proof.
    induction x as [q|t|a IHa b IHb|a IHa b IHb|o a IHa b IHb]; cbn [subst1 mentions]; intros H; [reflexivity| | | |].
    - destruct (name_eq_dec t s) as [->|]; [|reflexivity]. assert (name_eqb s s = true) by (now apply name_eqb_eq). congruence.
    - apply orb_false_iff in H. destruct H. now rewrite IHa, IHb.
    - apply orb_false_iff in H. destruct H. now rewrite IHa, IHb.
    - apply orb_false_iff in H. destruct H. now rewrite IHa, IHb.
  Qed.
  Lemma insert_one_id (d : asg) l : (forall y, In y l -> mentions (fst d) (snd y) = false) -> insert_one Op d l = l.
  Proof.
    intros H. unfold insert_one. rewrite <- (map_id l) at 2. apply map_ext_in. intros [t y] Hy. cbn [fst snd]. now rewrite (subst1_id (fst d) (snd d) y (H _ Hy)).
  Qed.
  Lemma insert_one_in (d : asg) l x' : In x' (insert_one Op d l) -> exists x, In x l /\ x' = (fst x, subst1 Op (fst d) (snd d) (snd x)).
  Proof. intros H. apply in_map_iff in H. destruct H as (x & <- & Hx). eauto. Qed.
  Lemma insert_step n b (d : asg) r m : let a := {| subs := b ++ d :: r; mains := m; gen := n |} in
    let a' := {| subs := insert_one Op d b ++ insert_one Op d r; mains := insert_one Op d m; gen := n |} in
    well_formed a -> well_formed a' /\ same_values sem a a'.
  Proof.
    cbn zeta. intros HW. pose proof HW as HW0. apply well_formed_iff in HW0. cbn [subs mains] in HW0. destruct HW0 as (W1 & W2 & W3 & W4).
    apply ordered_app in W1. destruct W1 as (O1 & O2 & D1 & M1). apply ordered_cons in O2. destruct O2 as (O2 & Nd & Md). destruct d as [s x]. cbn [fst snd] in *.
    assert (Self : mentions s x = false) by (apply Md; now left).
    assert (Nb : ~ In s (lhs b)) by (intros H; apply (D1 s H); now left).
    assert (Nm : ~ In s (lhs m)) by (apply W3; rewrite map_app; apply in_app_iff; right; now left).
    rewrite (insert_one_id (s, x) b) by (intros y Hy; apply (M1 y s Hy); now left).
    set (a := {| subs := b ++ (s, x) :: r; mains := m; gen := n |}) in *.
    set (a' := {| subs := b ++ insert_one Op (s, x) r; mains := insert_one Op (s, x) m; gen := n |}).
    assert (EL : forall t, In t (lhs (all a)) <-> t = s \/ In t (lhs (all a'))).
    { intros t. unfold all, a, a'. cbn [subs mains]. rewrite !map_app, !in_app_iff, !insert_one_lhs. cbn [map fst In]. intuition congruence. }
    assert (NS : ~ In s (lhs (all a'))) by (unfold all, a'; cbn [subs mains]; rewrite !map_app, !in_app_iff, !insert_one_lhs; tauto).
    assert (Idb : forall y, In y b -> (fst y, subst1 Op s x (snd y)) = y).
    { intros [t y] Hy. cbn [fst snd]. rewrite subst1_id; [reflexivity|]. apply (M1 (t, y) s Hy). now left. }
    assert (In' : forall y', In y' (all a') -> exists y, In y (all a) /\ y' = (fst y, subst1 Op s x (snd y))).
    { intros y' Hy'. unfold all, a' in Hy'. cbn [subs mains] in Hy'. rewrite !in_app_iff in Hy'. unfold all, a. cbn [subs mains].
      destruct Hy' as [[Hy'|Hy']|Hy']; [exists y'; split; [apply in_app_iff; left; apply in_app_iff; now left|symmetry; now apply Idb]| |]; apply insert_one_in in Hy'; destruct Hy' as (y & Hy & ->); exists y; (split; [|reflexivity]); rewrite !in_app_iff; cbn [In]; tauto. }
    assert (In2 : forall y, In y (all a) -> y = (s, x) \/ In (fst y, subst1 Op s x (snd y)) (all a')).
    { intros y Hy. unfold all, a in Hy. cbn [subs mains] in Hy. rewrite !in_app_iff in Hy. unfold all, a'. cbn [subs mains]. rewrite !in_app_iff.
      destruct Hy as [[Hy|[Hy|Hy]]|Hy]; [right; left; left; rewrite (Idb y Hy); exact Hy|left; auto|right; left; right|right; right]; apply in_map_iff; exists y; auto. }
    assert (NoS : forall y', In y' (all a') -> mentions s (snd y') = false).
    { intros y' Hy'. destruct (In' y' Hy') as (y & _ & ->). cbn [snd]. destruct (mentions s (subst1 _ _ _ _)) eqn:E; [|reflexivity]. apply subst1_mentions in E. destruct E as [[_ E]|E]; congruence. }
    assert (Sx : In (s, x) (all a)) by (unfold all, a; cbn [subs mains]; rewrite !in_app_iff; left; right; now left).
    split.
    - apply well_formed_iff. unfold a'. cbn [subs mains]. split; [|split; [|split]].
      + apply ordered_app. split; [exact O1|]. split; [|split].
        * apply insert_one_ordered; [exact O2|]. cbn [snd]. intros t Ht. apply Md. now right.
        * intros t Ht. rewrite insert_one_lhs. intros Ht'. apply (D1 t Ht). now right.
        * intros y t Hy Ht. rewrite insert_one_lhs in Ht. apply (M1 y t Hy). now right.
      + rewrite insert_one_lhs. exact W2.
      + intros t. rewrite map_app, in_app_iff, !insert_one_lhs. intros Ht. apply W3. rewrite map_app, in_app_iff. cbn [map In]. tauto.
      + intros t y' Ht Hy'. rewrite insert_one_lhs in Ht. destruct (In' y' Hy') as (y & Hy & ->). cbn [snd]. destruct (mentions t (subst1 _ _ _ _)) eqn:E; [|reflexivity].
        apply subst1_mentions in E. destruct E as [[E _]|E]; [rewrite (W4 t y Ht Hy) in E|rewrite (W4 t (s, x) Ht Sx : mentions t x = false) in E]; discriminate.
    - assert (ML : forall t, In t (lhs (mains a')) <-> In t (lhs (mains a))) by (intros t; unfold a, a'; cbn [mains]; rewrite insert_one_lhs; tauto).
      intros p t v. split.
      + intros (e & H1 & H2 & H3 & H4). set (e' := fun u => if name_eq_dec u s then p u else e u).
        assert (Eo : forall u, u <> s -> e' u = e u) by (intros u Hu; unfold e'; destruct (name_eq_dec u s); [contradiction|reflexivity]).
        exists e'. split; [|split; [|split]].
        * apply (sat_ext sem e).
          -- intros u [Hu|(y & Hy & Hu)]; symmetry; apply Eo; intros ->; [contradiction|]. rewrite (NoS y Hy) in Hu. discriminate.
          -- intros u y' Hy'. destruct (In' _ Hy') as ([u0 y] & Hy & E). cbn [fst snd] in E. injection E as -> ->. rewrite subst1_eval by (now apply H1). now apply H1.
        * intros u Hu. unfold e'. destruct (name_eq_dec u s) as [|Hne]; [reflexivity|]. apply H2. intros Hin. apply EL in Hin. tauto.
        * now apply ML.
        * rewrite Eo; [exact H4|]. intros ->. apply NS. unfold all. rewrite map_app, in_app_iff. right. now apply ML.
      + intros (e' & H1 & H2 & H3 & H4). set (e := fun u => if name_eq_dec u s then eval e' x else e' u).
        assert (Eo : forall u, u <> s -> e u = e' u) by (intros u Hu; unfold e; destruct (name_eq_dec u s); [contradiction|reflexivity]).
        assert (Es : e s = eval e x).
        { unfold e at 1. destruct (name_eq_dec s s); [|congruence]. symmetry. apply eval_ext. intros u Hu. apply Eo. intros ->. congruence. }
        assert (H1' : sat e (all a')). { apply (sat_ext sem e'); [|exact H1]. intros u [Hu|(y & Hy & Hu)]; symmetry; apply Eo; intros ->; [contradiction|]. rewrite (NoS y Hy) in Hu. discriminate. }
        exists e. split; [|split; [|split]].
        * intros u y Hy. destruct (In2 _ Hy) as [E|Hin]; [injection E as -> ->; exact Es|]. cbn [fst snd] in Hin. rewrite (H1' _ _ Hin). now apply subst1_eval.
        * intros u Hu. assert (Hu1 : u <> s) by (intros E; apply Hu, EL; now left). rewrite (Eo u Hu1). apply H2. intros Hin. apply Hu, EL. now right.
        * now apply ML.
        * rewrite Eo; [exact H4|]. intros ->. apply NS. unfold all. rewrite map_app, in_app_iff. now right.
  Qed.
  Lemma insert_loop_ok n callback : forall fuel after before m s' m', insert_loop Op fuel callback before after m = (s', m') ->
    well_formed {| subs := before ++ after; mains := m; gen := n |} ->
    well_formed {| subs := s'; mains := m'; gen := n |} /\ lhs m' = lhs m /\ same_values sem {| subs := before ++ after; mains := m; gen := n |} {| subs := s'; mains := m'; gen := n |}.
  Proof.
    induction fuel as [|fuel IH]; intros after before m s' m' H HW; cbn [insert_loop] in H.
    - injection H as <- <-. split; [exact HW|]. split; [reflexivity|apply same_refl].
    - destruct after as [|d after]; [injection H as <- <-; split; [exact HW|]; split; [reflexivity|apply same_refl]|]. destruct (callback d).
      + destruct (insert_step n before d after m HW) as [W1 V1]. destruct (IH _ _ _ _ _ H W1) as (W2 & L2 & V2). split; [exact W2|]. split; [rewrite L2; apply insert_one_lhs|]. eapply same_trans; eauto.
      + assert (E : before ++ d :: after = (before ++ [d]) ++ after) by (rewrite <- app_assoc; reflexivity). rewrite E in HW |- *. exact (IH _ _ _ _ _ H HW).
  Qed.
  Lemma insert_subexpressions_ok callback a : well_formed a -> well_formed (insert_subexpressions Op callback a) /\ lhs (mains (insert_subexpressions Op callback a)) = lhs (mains a) /\
    same_values sem a (insert_subexpressions Op callback a).
  Proof.
    intros HW. unfold insert_subexpressions. destruct (insert_loop _ _ _ _ _ _) as [s m] eqn:E. destruct a as [sa ma ga]. cbn [subs mains gen] in *. apply (insert_loop_ok ga) in E; [exact E|exact HW].
  Qed.

  (* ---- strategies ---- *)
  Lemma run_strategy_cons f (fs : list (ac Op -> res (ac Op))) a : run_strategy Op (f :: fs) a = rbind (f a) (run_strategy Op fs).
  Proof.
    unfold run_strategy. cbn [fold_left rbind]. destruct (f a) as [b|e]; cbn [rbind]; [reflexivity|]. clear. induction fs as [|g fs IH]; [reflexivity|]. cbn [fold_left rbind]. exact IH.
  Qed.
  Lemma good_list (fs : list (ac Op -> res (ac Op))) : (forall f, In f fs -> good_pass sem f) -> good_pass sem (run_strategy Op fs).
  Proof.
    induction fs as [|f fs IH]; intros H a a' HW Hr.
    - injection Hr as <-. split; [exact HW|]. split; [reflexivity|apply same_refl].
    - rewrite run_strategy_cons in Hr. destruct (f a) as [b|] eqn:E; [|discriminate]. cbn [rbind] in Hr. destruct (H f (or_introl eq_refl) a b HW E) as (W1 & L1 & V1).
      destruct (IH (fun g Hg => H g (or_intror Hg)) b a' W1 Hr) as (W2 & L2 & V2). split; [exact W2|]. split; [congruence|]. eapply same_trans; eauto.
  Qed.
  Lemma insert_good callback : good_pass sem (fun a => Ok (insert_subexpressions Op callback a)).
  Proof. intros a a' HW [= <-]. now apply insert_subexpressions_ok. Qed.
  Section Strategies.
  Context (K : cas Op) (mixed : name -> Prop) (HK : cas_ok sem K mixed) (X : external Op) (HX : external_ok sem X).
  Lemma half_force_good F : good_pass sem (insert_half_force Op K F).
  Proof. intros a a' HW H. unfold insert_half_force in H. destruct F; injection H as <-; [now apply insert_subexpressions_ok|]. split; [exact HW|]. split; [reflexivity|apply same_refl]. Qed.
  Lemma mrt_good : good_pass sem (run_strategy Op (mrt_strategy Op X)).
  Proof. apply good_list. destruct HX. intros f [<-|[<-|[<-|[]]]]; assumption. Qed.
  Lemma moment_space_good h : good_pass sem (run_strategy Op (moment_space_strategy Op K X h)).
  Proof. apply good_list. destruct HX. intros f [<-|[<-|[<-|[<-|[<-|[<-|[]]]]]]]; try assumption. apply half_force_good. Qed.
  Lemma cumulant_good is_log h : good_pass sem (run_strategy Op (cumulant_strategy Op K X is_log h)).
  Proof.
    apply good_list. destruct HX. intros f Hf. cbn [cumulant_strategy In] in Hf.
    destruct Hf as [<-|[<-|[<-|[<-|[<-|[<-|[<-|[<-|[<-|[<-|[<-|[<-|[]]]]]]]]]]]]]; try assumption; try apply insert_good; try apply half_force_good.
    intros a a' HW H. eapply expand_subexpressions_ok; eauto.
  Qed.
  Lemma srt_trt_good h a a' : srt_ready mixed h a -> well_formed a -> run_strategy Op (srt_trt_strategy Op K X h) a = Ok a' -> well_formed a' /\ lhs (mains a') = lhs (mains a) /\ same_values sem a a'.
  Proof.
    intros (rho & u & Hrho & Hu & R1 & R2 & (R3 & R4 & R5) & R6) HW H. unfold srt_trt_strategy in H. rewrite Hrho, Hu in H.
    rewrite run_strategy_cons in H. destruct (expand_all Op K a) as [b1|] eqn:E1; [|discriminate]. cbn [rbind] in H. destruct (expand_ok K mixed HK a b1 HW E1) as (W1 & L1 & V1 & N1).
    rewrite run_strategy_cons in H. destruct (replace_second_order_velocity_products Op K (Some u) b1) as [b2|] eqn:E2; [|discriminate]. cbn [rbind] in H.
    destruct (second_order_ok K mixed HK u b1 b2 W1) as (W2 & L2 & V2 & N2); [intros s Hs; destruct (R2 s Hs) as [A B]; auto|intros s Hs; rewrite L1; apply R1; now right|exact E2|].
    rewrite run_strategy_cons in H. destruct (expand_all Op K b2) as [b3|] eqn:E3; [|discriminate]. cbn [rbind] in H. destruct (expand_ok K mixed HK b2 b3 W2 E3) as (W3 & L3 & V3 & N3).
    rewrite run_strategy_cons in H. destruct (factor_relaxation_rates Op K (h_rates Op h) b3) as [b4|] eqn:E4; [|discriminate]. cbn [rbind] in H. destruct (factor_rates_ok K mixed HK _ b3 b4 W3 E4) as (W4 & L4 & V4 & N4).
    rewrite run_strategy_cons in H. destruct (replace_density_and_velocity Op K (Some rho) (Some u) b4) as [b5|] eqn:E5; [|discriminate]. cbn [rbind] in H.
    destruct (replace_density_ok K mixed HK rho u b4 b5 W4) as (W5 & L5 & V5 & N5); [intros s Hs; rewrite L4, L3, L2, L1; now apply R1|exact E5|].
    rewrite run_strategy_cons in H. destruct (replace_common_term Op K (Some rho) (Some u) _ _ _ b5) as [b6|] eqn:E6; [|discriminate]. cbn [rbind] in H.
    assert (Q1 : ~ occurs f_eq_common b5). { intros Ho. apply N5, N4, N3, N2 in Ho. destruct Ho as [Ho|[Ho|Ho]]; auto. }
    assert (Q2 : forall x k, h_common Op h b5 = Some (x, k) -> mentions f_eq_common x = false /\ forall s, In s (lhs (mains b5)) -> mentions s x = false).
    { intros x k Hx. destruct (R6 b5 x k Hx) as [A B]. split; [exact A|]. intros s Hs. apply B. rewrite <- L1, <- L2, <- L3, <- L4, <- L5. exact Hs. }
    pose proof (replace_common_ok K mixed HK _ _ _ _ _ b5 b6 W5 Q1 Q2 E6) as (W6 & L6 & V6).
    rewrite run_strategy_cons in H. destruct (factor_density Op K (Some rho) _ b6) as [b7|] eqn:E7; [|discriminate]. cbn [rbind] in H. destruct (factor_density_ok K mixed HK _ _ b6 b7 W6 E7) as (W7 & L7 & V7 & _).
    assert (G : good_pass sem (run_strategy Op [x_substitution Op X; x_divisions Op X; x_insert_constants Op X; x_insert_aliases Op X; x_unused Op X])).
    { apply good_list. destruct HX. intros f [<-|[<-|[<-|[<-|[<-|[]]]]]]; assumption. }
    destruct (G b7 a' W7 H) as (W8 & L8 & V8). split; [exact W8|]. split; [congruence|].
    repeat (eapply same_trans; [eassumption|]). apply same_refl.
  Qed.
  End Strategies.
End P.
