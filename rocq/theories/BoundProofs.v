(* Mass and momentum balance of one streaming step with boundary rules, for every geometry. *)
From Coq Require Import List ZArith Bool Arith Reals Lra Lia Permutation.
From Verif Require Import StencilModel StencilProofs AccessModel StreamModel StreamSpec AccessProofs StreamProofs StreamProofs2
  RealLib BoundModel BoundSpec.
Import ListNotations.
Local Open Scope R_scope.

Lemma rsum_reindex {A B} (h : A -> B) (g : B -> R) (l : list A) (l' : list B) :
  NoDup l -> NoDup l' ->
  (forall a, In a l -> In (h a) l') ->
  (forall a a', In a l -> In a' l -> h a = h a' -> a = a') ->
  (forall b, In b l' -> exists a, In a l /\ h a = b) ->
  rsum (map (fun a => g (h a)) l) = rsum (map g l').
Proof.
  intros Hl Hl' Hin Hinj Hsur.
  assert (HP : Permutation (map h l) l').
  { apply NoDup_Permutation.
    - clear Hin Hsur. induction Hl as [|a l Ha Hl IH]; simpl; [constructor|]. constructor.
      + intros H. apply in_map_iff in H as (b & E & Hb). apply Hinj in E; simpl; auto. subst. contradiction.
      + apply IH. intros; apply Hinj; simpl; auto.
    - exact Hl'.
    - intros b. split.
      + intros H. apply in_map_iff in H as (a & <- & Ha). apply Hin; exact Ha.
      + intros H. apply Hsur in H as (a & Ha & <-). apply in_map; exact Ha. }
  transitivity (rsum (map g (map h l))); [now rewrite map_map|].
  apply rsum_perm. apply Permutation_map. exact HP.
Qed.

Lemma rsum_list_prod {A B} (g : A -> B -> R) (l : list A) (l' : list B) :
  rsum (map (fun p => g (fst p) (snd p)) (list_prod l l')) = rsum (map (fun a => rsum (map (g a) l')) l).
Proof.
  induction l as [|a l IH]; simpl; [reflexivity|].
  rewrite map_app, rsum_app, IH. f_equal. now rewrite map_map.
Qed.

Lemma rsum_filter_split {A} (P : A -> bool) (g : A -> R) (l : list A) :
  rsum (map g l) = rsum (map g (filter P l)) + rsum (map g (filter (fun a => negb (P a)) l)).
Proof.
  induction l as [|a l IH]; simpl; [lra|]. destruct (P a); simpl; rewrite IH; lra.
Qed.

Lemma NoDup_list_prod {A B} (l : list A) (l' : list B) : NoDup l -> NoDup l' -> NoDup (list_prod l l').
Proof.
  intros Hl Hl'. induction Hl as [|a l Ha Hl IH]; simpl; [constructor|].
  apply NoDup_app_intro || idtac.
  assert (H : forall (l1 l2 : list (A * B)), NoDup l1 -> NoDup l2 -> (forall p, In p l1 -> ~ In p l2) -> NoDup (l1 ++ l2)).
  { clear. induction l1 as [|p l1 IH]; simpl; intros l2 H1 H2 H; [exact H2|]. inversion H1; subst. constructor.
    - intros Hp. apply in_app_or in Hp as [Hp|Hp]; [contradiction|]. apply (H p); auto.
    - apply IH; auto. }
  apply H.
  - clear - Hl'. induction Hl' as [|b l' Hb Hl' IH]; simpl; [constructor|]. constructor; [|exact IH].
    intros Hin. apply in_map_iff in Hin as (c & [= ->] & Hc). contradiction.
  - exact IH.
  - intros [c d] H1 H2. apply in_map_iff in H1 as (b & [= <- <-] & Hb). apply in_prod_iff in H2 as [H2 _]. contradiction.
Qed.

Section Balance.
  Context (L : lattice) (S : stencil) (fluid : cell L -> bool) (cells : list (cell L)) (links : list (link L)).
  Context (B : cell L -> nat -> brule R) (f : cell L -> list R).
  Notation D := (ldim L).
  Notation Q := (length S).
  Hypothesis HS : symmetric_stencil D S.
  Hypothesis HG : lists_geometry S fluid cells links.

  Let A := list_prod cells (seq 0 Q).

  Lemma in_A x j : In (x, j) A <-> fluid x = true /\ (j < Q)%nat.
  Proof.
    unfold A. rewrite in_prod_iff. destruct HG as (_ & Hc & _ & _). rewrite Hc, in_seq. lia || (split; intros [? ?]; split; auto; lia).
  Qed.

  Lemma NoDup_A : NoDup A.
  Proof. apply NoDup_list_prod; [apply HG|apply seq_NoDup]. Qed.

  Lemma shift_there_back (x : cell L) v : length v = D -> shift (shift x v) (vneg v) = x.
  Proof.
    intros Hv. rewrite shift_add by (try rewrite vneg_length; exact Hv). rewrite vadd_neg_r, Hv. apply shift_zero.
  Qed.
  Lemma shift_back_there (x : cell L) v : length v = D -> shift (shift x (vneg v)) v = x.
  Proof.
    intros Hv. rewrite shift_add by (try rewrite vneg_length; exact Hv). rewrite vadd_neg_l, Hv. apply shift_zero.
  Qed.

  (* any quantity phi_j carried by population j *)
  Theorem balance (phi : nat -> R) :
    rsum (map (fun x => rsum (map (fun j => phi j * nth j (arriving S fluid B f x) 0) (seq 0 Q))) cells)
    = rsum (map (fun x => rsum (map (fun j => phi j * nth j (f x) 0) (seq 0 Q))) cells)
      + rsum (map (fun l => phi (opp S (snd l)) * rule_value S f (fst l) (B (fst l) (snd l))
                            - phi (snd l) * nth (snd l) (f (fst l)) 0) links).
  Proof.
    assert (Hdl : forall j, (j < Q)%nat -> length (dir S j) = D) by (intros; apply dir_length; auto).
    rewrite <- (rsum_list_prod (fun x j => phi j * nth j (arriving S fluid B f x) 0)).
    rewrite <- (rsum_list_prod (fun x j => phi j * nth j (f x) 0)). fold A.
    set (up := fun p : cell L * nat => fluid (shift (fst p) (vneg (dir S (snd p))))).
    set (down := fun p : cell L * nat => fluid (shift (fst p) (dir S (snd p)))).
    rewrite (rsum_filter_split up), (rsum_filter_split down (fun p => phi (snd p) * nth (snd p) (f (fst p)) 0) A).
    rewrite rsum_minus.
    assert (Ein : rsum (map (fun p => phi (snd p) * nth (snd p) (arriving S fluid B f (fst p)) 0) (filter up A))
                  = rsum (map (fun p => phi (snd p) * nth (snd p) (f (fst p)) 0) (filter down A))).
    { transitivity (rsum (map (fun p => (fun q => phi (snd q) * nth (snd q) (f (fst q)) 0)
                                          ((fun p : cell L * nat => (shift (fst p) (vneg (dir S (snd p))), snd p)) p)) (filter up A))).
      - apply rsum_ext. intros [x j] Hp. apply filter_In in Hp as [Hp Hu]. apply in_A in Hp as [Hx Hj].
        unfold up in Hu. cbn [fst snd] in *. f_equal. unfold arriving.
        rewrite (nth_indep _ 0 ((fun j => if fluid (shift x (vneg (dir S j))) then nth j (f (shift x (vneg (dir S j)))) 0
                  else rule_value S f x (B x (opp S j))) 0%nat)) by (rewrite map_length, seq_length; exact Hj).
        rewrite (map_nth (fun j => if fluid (shift x (vneg (dir S j))) then nth j (f (shift x (vneg (dir S j)))) 0
                  else rule_value S f x (B x (opp S j)))), seq_nth by exact Hj. cbn [plus]. now rewrite Hu.
      - apply (rsum_reindex (fun p : cell L * nat => (shift (fst p) (vneg (dir S (snd p))), snd p))
                            (fun q => phi (snd q) * nth (snd q) (f (fst q)) 0)).
        + apply NoDup_filter, NoDup_A.
        + apply NoDup_filter, NoDup_A.
        + intros [x j] Hp. apply filter_In in Hp as [Hp Hu]. apply in_A in Hp as [Hx Hj]. cbn [fst snd].
          apply filter_In. split; [apply in_A; split; [exact Hu|exact Hj]|].
          unfold down. cbn [fst snd]. rewrite shift_back_there by auto. exact Hx.
        + intros [x j] [x' j'] Hp Hp' [= E ->]. apply filter_In in Hp as [Hp _]. apply in_A in Hp as [_ Hj]. f_equal.
          rewrite <- (shift_back_there x (dir S j')), E, shift_back_there by auto. reflexivity.
        + intros [y j] Hp. apply filter_In in Hp as [Hp Hd]. apply in_A in Hp as [Hy Hj]. unfold down in Hd. cbn [fst snd] in Hd.
          exists (shift y (dir S j), j). cbn [fst snd]. rewrite shift_there_back by auto. split; [|reflexivity].
          apply filter_In. split; [apply in_A; split; [exact Hd|exact Hj]|].
          unfold up. cbn [fst snd]. rewrite shift_there_back by auto. exact Hy. }
    assert (Ebc : rsum (map (fun p => phi (snd p) * nth (snd p) (arriving S fluid B f (fst p)) 0) (filter (fun a => negb (up a)) A))
                  = rsum (map (fun l => phi (opp S (snd l)) * rule_value S f (fst l) (B (fst l) (snd l))) links)).
    { transitivity (rsum (map (fun p => (fun l : link L => phi (opp S (snd l)) * rule_value S f (fst l) (B (fst l) (snd l)))
                                          ((fun p : cell L * nat => (fst p, opp S (snd p))) p)) (filter (fun a => negb (up a)) A))).
      - apply rsum_ext. intros [x j] Hp. apply filter_In in Hp as [Hp Hu]. apply in_A in Hp as [Hx Hj].
        unfold up in Hu. cbn [fst snd] in *. rewrite (opp_opp D S HS) by exact Hj. f_equal. unfold arriving.
        rewrite (nth_indep _ 0 ((fun j => if fluid (shift x (vneg (dir S j))) then nth j (f (shift x (vneg (dir S j)))) 0
                  else rule_value S f x (B x (opp S j))) 0%nat)) by (rewrite map_length, seq_length; exact Hj).
        rewrite (map_nth (fun j => if fluid (shift x (vneg (dir S j))) then nth j (f (shift x (vneg (dir S j)))) 0
                  else rule_value S f x (B x (opp S j)))), seq_nth by exact Hj. cbn [plus].
        apply negb_true_iff in Hu. now rewrite Hu.
      - apply (rsum_reindex (fun p : cell L * nat => (fst p, opp S (snd p)) : link L)
                            (fun l : link L => phi (opp S (snd l)) * rule_value S f (fst l) (B (fst l) (snd l)))).
        + apply NoDup_filter, NoDup_A.
        + apply HG.
        + intros [x j] Hp. apply filter_In in Hp as [Hp Hu]. apply in_A in Hp as [Hx Hj]. unfold up in Hu. cbn [fst snd] in *.
          apply HG. split; [exact Hx|]. split; [apply (opp_lt D S HS); exact Hj|]. cbn [fst snd].
          rewrite (dir_opp D S HS) by exact Hj. now apply negb_true_iff.
        + intros [x j] [x' j'] Hp Hp' E. apply filter_In in Hp as [Hp _]. apply in_A in Hp as [_ Hj].
          apply filter_In in Hp' as [Hp' _]. apply in_A in Hp' as [_ Hj']. cbn [fst snd] in E. injection E as -> E.
          f_equal. eapply opp_inj; eauto.
        + intros [x i] Hl. apply HG in Hl as (Hx & Hi & Hn). cbn [fst snd] in *. exists (x, opp S i). cbn [fst snd].
          rewrite (opp_opp D S HS) by exact Hi. split; [|reflexivity]. apply filter_In.
          split; [apply in_A; split; [exact Hx|apply (opp_lt D S HS); exact Hi]|]. unfold up. cbn [fst snd].
          rewrite (dir_opp D S HS), vneg_involutive, Hn by exact Hi. reflexivity. }
    assert (Eout : rsum (map (fun p => phi (snd p) * nth (snd p) (f (fst p)) 0) (filter (fun a => negb (down a)) A))
                   = rsum (map (fun l => phi (snd l) * nth (snd l) (f (fst l)) 0) links)).
    { apply rsum_perm, Permutation_map. apply NoDup_Permutation; [apply NoDup_filter, NoDup_A|apply HG|].
      intros [x i]. rewrite filter_In, in_A. destruct HG as (_ & _ & _ & Hl). rewrite Hl. unfold is_link, down. cbn [fst snd].
      rewrite negb_true_iff. tauto. }
    rewrite Ein, Ebc, Eout. lra.
  Qed.
End Balance.
