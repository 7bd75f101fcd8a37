(* Boundaries with a second assignment into the boundary cell; pressure, concentration and outflow values. *)
From Coq Require Import String List ZArith Bool Arith Reals Lra Lia Permutation QArith Qreals.
From Verif Require Import StencilModel StencilSpec StencilProofs StencilProofs2 AccessModel AccessProofs StreamModel StreamSpec StreamProofs StreamProofs2 RealLib LinLib
  TransSpec EqModel EqSpec EqProofs CollModel CollSpec MacroModel BoundModel BoundSpec BoundProofs BoundProofs2 BoundProofs3 BoundProofs4 RaceProofs.
Import ListNotations.
Local Open Scope R_scope.

Section Two.
  Context (L : lattice) (S : stencil) (p : pattern) (t : timestep) (fluid : cell L -> bool).
  Context (rule : cell L -> nat -> list assignment) (r1 r2 : cell L -> nat -> brule R).
  Context (f : cell L -> list R).
  Notation D := (ldim L).
  Notation Q := (length S).
  Notation W := (waddr D S p t).
  Notation RR := (raddr D S p (ts_next t)).
  Hypothesis HP : supported p D S t.
  Hypothesis Hrule : forall x i, is_link S fluid (x, i) ->
    rule x i = [(FIn (vzero D) (opp S i), r1 x i); (FOut (dir S i) i, r2 x i)].
  Hypothesis H1 : forall x i a, is_link S fluid (x, i) -> In a (b_reads (r1 x i)) -> readable S fluid x a.
  Hypothesis H2 : forall x i a, is_link S fluid (x, i) -> In a (b_reads (r2 x i)) -> readable S fluid x a.
  Notation hp := (holds_post L R 0 S p t fluid f).
  Notation inslot x i := (loc x (RR (opp S i))).
  Notation bslot x i := (loc (shift x (dir S i)) (W i)).

  Lemma two_link m x i : hp m -> is_link S fluid (x, i) ->
    exists m', multi_link L (map W (seq 0 Q)) (map RR (seq 0 Q)) rule m (x, i) = Ok m' /\ hp m' /\
      at_loc L R m' (bslot x i) = rule_value S f x (r2 x i) /\
      (bslot x i <> inslot x i -> at_loc L R m' (inslot x i) = rule_value S f x (r1 x i)) /\
      (forall l, bslot x i <> l -> inslot x i <> l -> at_loc L R m' l = at_loc L R m l).
  Proof.
    intros Hm Hlink. pose proof Hlink as (Hx & Hi & Hnf). cbn [fst snd] in Hx, Hi, Hnf.
    assert (Ho : (opp S i < Q)%nat) by (eapply opp_lt; eauto; apply HP).
    unfold multi_link. cbn [fst snd]. rewrite (Hrule x i Hlink). cbn [foldM]. unfold exec_assignment at 1. cbn [fst snd].
    destruct (mapM_resolve L R 0 S p t HP fluid f x (b_reads (r1 x i))) as (rs & Hrs & Hv). { intros a Ha. eapply H1; eauto. }
    rewrite Hrs. cbn [rbind]. unfold resolve at 1. rewrite nth_error_seqmap by exact Ho. cbn [rbind off idx].
    set (m1 := upd L R m _ _ _).
    assert (E1 : m1 = upd L R m (fst (inslot x i)) (snd (inslot x i)) (rule_value S f x (r1 x i))).
    { unfold m1, loc. cbn [fst snd]. pose proof (raddr_length p D S (ts_next t) (supported_next p D S t HP) _ Ho) as HLr.
      rewrite (vadd_zero_r' _ _ HLr). rewrite Hv by exact Hm. reflexivity. }
    assert (Hp1 : hp m1).
    { intros y j Hy Hj. rewrite <- (Hm y j Hy Hj). rewrite E1. unfold at_loc. apply upd_other.
      intros E. rewrite <- !surjective_pairing in E. rewrite (link_slot L S p t HP fluid x i Hlink) in E.
      apply wloc_inj in E; auto. destruct E as [<- _]. congruence. }
    clearbody m1. unfold exec_assignment. cbn [fst snd].
    destruct (mapM_resolve L R 0 S p t HP fluid f x (b_reads (r2 x i))) as (rs' & Hrs' & Hv'). { intros a Ha. eapply H2; eauto. }
    rewrite Hrs'. cbn [rbind]. unfold resolve. rewrite nth_error_seqmap by exact Hi. cbn [rbind off idx].
    set (m2 := upd L R m1 _ _ _).
    assert (E2 : m2 = upd L R m1 (fst (bslot x i)) (snd (bslot x i)) (rule_value S f x (r2 x i))).
    { unfold m2, loc. cbn [fst snd]. rewrite Hv' by exact Hp1. f_equal. rewrite vadd_comm. symmetry.
      apply shift_add; [apply (dir_length D S (proj1 HP) i Hi)|eapply waddr_length; eauto]. }
    clearbody m2. exists m2. split; [reflexivity|]. split; [|split; [|split]].
    - intros y j Hy Hj. rewrite <- (Hp1 y j Hy Hj). rewrite E2. unfold at_loc. apply upd_other.
      intros E. rewrite <- !surjective_pairing in E. apply wloc_inj in E; auto. destruct E as [<- _]. congruence.
    - rewrite E2. unfold at_loc. apply upd_same.
    - intros Hne. rewrite E2. unfold at_loc. rewrite upd_other by (rewrite <- !surjective_pairing; exact Hne). rewrite E1. apply upd_same.
    - intros l Hb Hi'. destruct l as [c q]. rewrite E2. unfold at_loc. cbn [fst snd]. rewrite upd_other by (rewrite <- !surjective_pairing; exact Hb).
      rewrite E1. apply upd_other. rewrite <- !surjective_pairing. exact Hi'.
  Qed.

  (* b-slots hold r2 values only if nobody overwrites them: stated for the slots we need *)
  Lemma two_fold : forall links m, hp m -> (forall l, In l links -> is_link S fluid l) ->
    exists m', foldM (multi_link L (map W (seq 0 Q)) (map RR (seq 0 Q)) rule) links m = Ok m' /\ hp m' /\
      (forall x i, In (x, i) links -> (forall y j, In (y, j) links -> bslot y j <> inslot x i) ->
         at_loc L R m' (inslot x i) = rule_value S f x (r1 x i)) /\
      (forall l, (forall x i, In (x, i) links -> inslot x i <> l /\ bslot x i <> l) -> at_loc L R m' l = at_loc L R m l).
  Proof.
    induction links as [|[x i] links IH]; intros m Hm Hl.
    - exists m. split; [reflexivity|]. split; [exact Hm|]. split; [intros ? ? []|reflexivity].
    - assert (Hlink : is_link S fluid (x, i)) by (apply Hl; left; reflexivity).
      destruct (two_link m x i Hm Hlink) as (m1 & Hm1 & Hp1 & Hb1 & Hi1 & Ho1).
      destruct (IH m1 Hp1) as (m' & Hf & Hp' & Hv & Ho); [intros; apply Hl; right; assumption|].
      exists m'. cbn [foldM]. rewrite Hm1. cbn [rbind]. split; [exact Hf|]. split; [exact Hp'|]. split.
      + intros y j Hy Hb.
        destruct (in_dec (link_eq_dec L) (y, j) links) as [Hin|Hnin].
        * apply Hv; [exact Hin|]. intros; apply Hb. right; assumption.
        * destruct Hy as [[= -> ->]|Hy]; [|contradiction].
          rewrite Ho.
          -- apply Hi1. apply Hb. left; reflexivity.
          -- intros z k Hz. split; [|apply Hb; right; exact Hz]. intros E.
             assert (Hzl : is_link S fluid (z, k)) by (apply Hl; right; exact Hz).
             apply rloc_inj in E; [|apply supported_next; exact HP| |].
             ++ destruct E as [-> E]. apply opp_inj with (D := D) in E; [|apply HP|apply Hzl|apply Hlink]. subst. contradiction.
             ++ eapply opp_lt; [apply HP|apply Hzl].
             ++ eapply opp_lt; [apply HP|apply Hlink].
      + intros l Hnl. rewrite Ho by (intros; apply Hnl; right; assumption).
        destruct (Hnl x i (or_introl eq_refl)). apply Ho1; assumption.
  Qed.

  (* all values equal: order and thin walls do not matter *)
  Lemma const_fold c : (forall x i, is_link S fluid (x, i) -> rule_value S f x (r1 x i) = c /\ rule_value S f x (r2 x i) = c) ->
    forall links m, hp m -> (forall l, In l links -> is_link S fluid l) ->
    exists m', foldM (multi_link L (map W (seq 0 Q)) (map RR (seq 0 Q)) rule) links m = Ok m' /\ hp m' /\
      (forall l, at_loc L R m l = c -> at_loc L R m' l = c) /\
      (forall x i, In (x, i) links -> at_loc L R m' (inslot x i) = c).
  Proof.
    intros Hc. induction links as [|[x i] links IH]; intros m Hm Hl.
    - exists m. split; [reflexivity|]. split; [exact Hm|]. split; [auto|intros ? ? []].
    - assert (Hlink : is_link S fluid (x, i)) by (apply Hl; left; reflexivity).
      destruct (two_link m x i Hm Hlink) as (m1 & Hm1 & Hp1 & Hb1 & Hi1 & Ho1). destruct (Hc x i Hlink) as [C1 C2].
      destruct (IH m1 Hp1) as (m' & Hf & Hp' & Hk & Hv); [intros; apply Hl; right; assumption|].
      assert (LD : forall l l' : cell L * nat, {l = l'} + {l <> l'}). { intros [c1 q1] [c2 q2]. apply (link_eq_dec L). }
      assert (K : forall l, at_loc L R m l = c \/ l = bslot x i \/ l = inslot x i -> at_loc L R m1 l = c).
      { intros l H. destruct (LD (bslot x i) l) as [<-|Hb]; [congruence|]. destruct (LD (inslot x i) l) as [<-|Hin]; [rewrite Hi1; assumption|].
        rewrite Ho1 by assumption. destruct H as [H|[->| ->]]; [exact H|contradiction|contradiction]. }
      exists m'. cbn [foldM]. rewrite Hm1. cbn [rbind]. split; [exact Hf|]. split; [exact Hp'|]. split.
      + intros l H. apply Hk, K. auto.
      + intros y j [[= <- <-]|Hy]; [|apply Hv; exact Hy]. apply Hk, K. auto.
  Qed.

  Lemma bslot_in x i y j : is_link S fluid (x, i) -> is_link S fluid (y, j) -> bslot y j = inslot x i ->
    x = shift (shift y (dir S j)) (dir S j) /\ j = opp S i.
  Proof.
    intros (Hx & Hi & _) (Hy & Hj & _) E. cbn [fst snd] in *.
    assert (Ho : (opp S i < Q)%nat) by (eapply opp_lt; eauto; apply HP).
    rewrite (rloc_next L S p t x (opp S i) HP Ho) in E. apply wloc_inj in E; auto. destruct E as [E ->].
    split; [|reflexivity]. rewrite E. symmetry. apply (shift_back' L). apply (dir_length D S (proj1 HP) _ Ho).
  Qed.
End Two.
