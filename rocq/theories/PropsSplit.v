(* C41: split groups partition the kernel. *)
From Coq Require Import List ZArith Bool Arith Lia.
From Verif Require Import StencilModel StencilProofs StreamSpec SplitModel SplitProofs.
Import ListNotations.

(* A collision rule: the first Q main assignments store the populations in stencil order; what is precomputed is not a population store *)
Definition population_rule (S : stencil) (r : rule) : Prop :=
  (length S <= length (mains r))%nat /\
  (forall i e, (i < length S)%nat -> nth_error (mains r) i = Some e -> lhs e = Post i) /\
  (forall e i, In e (subexprs r) -> lhs e <> Post i).

(* every population store is in exactly one group, exactly once *)
Theorem C41_partition D S r velocity : symmetric_stencil D S -> population_rule S r -> velocity_hint r = Some velocity -> (forall i, ~ In (Post i) velocity) ->
  exists groups, create_lbm_split_groups S r true = Ok groups /\
    forall i, (i < length S)%nat -> count_occ sym_eq_dec (concat groups) (Post i) = 1%nat.
Proof.
  intros HS (Hl & Hp & Hs) Hv HN. eexists. split; [eapply split_groups_form; eauto|]. intros i Hi. apply (stores_once D S HS); auto.
  rewrite in_app_iff, important_in. unfold other_written. rewrite filter_In. intros [[H|[H _]]|[_ H]].
  - now apply (HN i).
  - apply in_map_iff in H. destruct H as (e & He & Hin). now apply (Hs e i).
  - discriminate.
Qed.
Print Assumptions C41_partition.

(* the first group holds the rest population, every other group one pair of opposite directions, and there is one for each pair *)
Theorem C41_pairs D S r velocity : symmetric_stencil D S -> population_rule S r -> velocity_hint r = Some velocity -> (forall i, ~ In (Post i) velocity) ->
  exists g0 gs, create_lbm_split_groups S r true = Ok (g0 :: gs) /\
    (forall g, In g gs -> exists i j, g = [Post i; Post j] /\ (i < j)%nat /\ opposite S i j) /\
    (forall i, (i < length S)%nat -> (In (Post i) g0 <-> nth_error S i = Some (vzero D))) /\
    (forall i j, opposite S i j -> (i < j)%nat -> In [Post i; Post j] gs) /\
    (In (vzero D) S -> length S = 2 * length gs + 1)%nat.
Proof.
  intros HS (Hl & Hp & Hs) Hv HN. eexists _, _. split; [eapply split_groups_form; eauto|]. split; [|split; [|split]].
  - intros g Hg. apply in_map_iff in Hg. destruct Hg as (i & <- & Hi). apply firsts_in in Hi. exists i, (opp S i). split; auto. split; [tauto|].
    exists (dir S i). split; [now apply AccessProofs.dir_nth_error|]. rewrite <- (AccessProofs.dir_opp D S HS) by tauto.
    apply AccessProofs.dir_nth_error. now apply (AccessProofs.opp_lt D S HS).
  - intros i Hi. rewrite in_app_iff, (in_rests D S HS). rewrite (AccessProofs.dir_nth_error S i Hi). split.
    + intros [H|[_ H]]; [|congruence]. exfalso. rewrite in_app_iff, important_in in H. unfold other_written in H. rewrite filter_In in H.
      destruct H as [[H|[H _]]|[_ H]]; [now apply (HN i)| |discriminate].
      apply in_map_iff in H. destruct H as (e & He & Hin). now apply (Hs e i).
    + intros [= H]. right. split; auto.
  - intros i j (d & Hi & Hj) L. assert (i < length S)%nat by (apply nth_error_Some; congruence). assert (j < length S)%nat by (apply nth_error_Some; congruence).
    assert (E : j = opp S i).
    { eapply (AccessProofs.dir_inj D S HS); auto; [now apply (AccessProofs.opp_lt D S HS)|]. rewrite (AccessProofs.dir_opp D S HS) by auto.
      unfold dir. rewrite (nth_error_nth _ _ _ Hi), (nth_error_nth _ _ _ Hj). reflexivity. }
    apply in_map_iff. exists i. rewrite <- E. split; auto. apply firsts_in. lia.
  - intros H0. rewrite map_length. pose proof (pair_count D S HS) as P. assert (length (rests S (length S)) = 1)%nat; [|lia].
    destruct (In_nth_error _ _ H0) as [z Hz]. assert (Lz : (z < length S)%nat) by (apply nth_error_Some; congruence).
    assert (Iz : In (Post z) (rests S (length S))) by (apply (in_rests D S HS); split; auto; unfold dir; now apply nth_error_nth).
    assert (U : forall x, In x (rests S (length S)) -> x = Post z).
    { intros x Hx. unfold rests in Hx. pose proof Hx as Hx'. apply in_map_iff in Hx'. destruct Hx' as (k & <- & _). fold (rests S (length S)) in Hx. apply (in_rests D S HS) in Hx.
      f_equal. eapply (AccessProofs.dir_inj D S HS); try tauto. destruct Hx as [_ ->]. unfold dir. symmetry. now apply nth_error_nth. }
    assert (ND : NoDup (rests S (length S))).
    { unfold rests. apply FinFun.Injective_map_NoDup; [intros a b H; congruence|]. apply NoDup_filter, seq_NoDup. }
    destruct (rests S (length S)) as [|a [|b l]]; [destruct Iz|reflexivity|]. inversion ND as [|? ? N1 _]; subst. exfalso. apply N1. left.
    rewrite (U a), (U b); auto; [now right; left|now left].
Qed.
Print Assumptions C41_pairs.

(* stores to other fields are in the first group, once *)
Theorem C41_other_fields D S r velocity k : symmetric_stencil D S -> population_rule S r -> velocity_hint r = Some velocity ->
  NoDup (map lhs (mains r)) -> In (Acc k) (map lhs (mains r)) -> ~ In (Acc k) velocity -> ~ In (Acc k) (map lhs (subexprs r)) ->
  exists g0 gs, create_lbm_split_groups S r true = Ok (g0 :: gs) /\ count_occ sym_eq_dec g0 (Acc k) = 1%nat /\ ~ In (Acc k) (concat gs).
Proof.
  intros HS (Hl & Hp & Hs) Hv ND Hin HN1 HN2. eexists _, _. split; [eapply split_groups_form; eauto|]. split.
  - rewrite !count_occ_app. replace (count_occ sym_eq_dec (important r velocity) (Acc k)) with 0%nat.
    2: { symmetry. apply count_occ_not_In. rewrite important_in. tauto. }
    replace (count_occ sym_eq_dec (rests S (length S)) (Acc k)) with 0%nat.
    2: { symmetry. apply count_occ_not_In. unfold rests. rewrite in_map_iff. intros (x & E & _). discriminate. }
    rewrite Nat.add_0_r. cbn [plus]. apply NoDup_count_occ'; [now apply NoDup_filter|]. unfold other_written. apply filter_In. auto.
  - intros H. apply in_concat in H. destruct H as (g & Hg & Hk). apply in_map_iff in Hg. destruct Hg as (i & <- & _). destruct Hk as [E|[E|[]]]; discriminate.
Qed.
Print Assumptions C41_other_fields.

(* precomputed: the velocity, and the subexpressions that depend on a population and are used by every moving population's assignment *)
Theorem C41_precomputed r v s : In s (important r v) <->
  In s v \/ (In s (map lhs (subexprs r)) /\ reaches_pdf (length (subexprs r ++ mains r)) (subexprs r ++ mains r) s = true /\
             forall e i, In e (mains r) -> lhs e = Post (S i) -> In s (atoms e)).
Proof. apply important_in. Qed.
Print Assumptions C41_precomputed.

(* without pairing: every store has its own group *)
Theorem C41_single S r velocity : population_rule S r -> velocity_hint r = Some velocity -> (forall i, ~ In (Post i) velocity) -> NoDup (map lhs (mains r)) ->
  exists g0 gs, create_lbm_split_groups S r false = Ok (g0 :: gs) /\ concat gs = map lhs (mains r) /\
    (forall g, In g gs -> length g = 1%nat) /\ (forall i, (i < length S)%nat -> count_occ sym_eq_dec (concat (g0 :: gs)) (Post i) = 1%nat).
Proof.
  intros (Hl & Hp & Hs) Hv HN ND. unfold create_lbm_split_groups. rewrite Hv. eexists _, _. split; [reflexivity|].
  assert (E : concat (map (fun e => [lhs e]) (mains r)) = map lhs (mains r)) by (generalize (mains r); induction l; cbn; f_equal; auto).
  split; [exact E|]. split; [intros g Hg; apply in_map_iff in Hg; destruct Hg as (e & <- & _); reflexivity|].
  intros i Hi. cbn [concat]. rewrite E, count_occ_app.
  replace (count_occ sym_eq_dec (important r velocity ++ other_written r) (Post i)) with 0%nat.
  - cbn [plus]. apply NoDup_count_occ'; auto. destruct (nth_error (mains r) i) as [e|] eqn:En; [|apply nth_error_None in En; lia].
    rewrite <- (Hp i e Hi En). apply in_map. eapply nth_error_In; eauto.
  - symmetry. apply count_occ_not_In. rewrite in_app_iff, important_in. unfold other_written. rewrite filter_In. intros [[H|[H _]]|[_ H]].
    + now apply (HN i).
    + apply in_map_iff in H. destruct H as (e & He & Hin). now apply (Hs e i).
    + discriminate.
Qed.
Print Assumptions C41_single.

(* ---------- D2Q9 with a density output ---------- *)
Definition demo_rule : rule := {|
  subexprs := [ {| lhs := Sub 5; atoms := [Pre 0; Pre 1] |}; {| lhs := Sub 3; atoms := [Sub 5] |}; {| lhs := Sub 4; atoms := [Sub 9] |} ];
  mains := map (fun i => {| lhs := Post i; atoms := [Pre i; Sub 3; Sub 4; if Nat.eqb i 4 then Sub 8 else Sub 5] |}) (seq 0 9) ++ [ {| lhs := Acc 7; atoms := [Sub 5] |} ];
  velocity_hint := Some [Sub 1; Sub 2] |}.
Example demo_population_rule : population_rule D2Q9_walberla demo_rule.
Proof.
  split; [cbn; lia|]. split.
  - intros i e Hi H. do 9 (destruct i as [|i]; [cbn in H; injection H as <-; reflexivity|]). cbn in Hi. lia.
  - intros e i [<-|[<-|[<-|[]]]]; discriminate.
Qed.
Example demo_groups : create_lbm_split_groups D2Q9_walberla demo_rule true =
  Ok [[Sub 1; Sub 2; Sub 3; Acc 7; Post 0]; [Post 1; Post 2]; [Post 3; Post 4]; [Post 5; Post 8]; [Post 6; Post 7]].
Proof. vm_compute. reflexivity. Qed.

(* With opposing_directions=False a store to another field is in two groups: the first and one of its own. *)
Theorem C41_single_other_fields_refuted : population_rule D2Q9_walberla demo_rule /\ NoDup (map lhs (mains demo_rule)) /\
  exists groups, create_lbm_split_groups D2Q9_walberla demo_rule false = Ok groups /\ count_occ sym_eq_dec (concat groups) (Acc 7) = 2%nat.
Proof.
  split; [exact demo_population_rule|]. split; [cbn; repeat constructor; cbn; intuition discriminate|].
  eexists. split; [vm_compute; reflexivity|]. vm_compute. reflexivity.
Qed.
Print Assumptions C41_single_other_fields_refuted.

(* The groups follow the order of the main assignments, not their left hand sides: with the output first, stores are paired wrongly and the last population is in no group. *)
Theorem C41_order_refuted : let r := {| subexprs := subexprs demo_rule; mains := rev (firstn 1 (rev (mains demo_rule))) ++ firstn 9 (mains demo_rule); velocity_hint := velocity_hint demo_rule |} in
  exists groups, create_lbm_split_groups D2Q9_walberla r true = Ok groups /\ count_occ sym_eq_dec (concat groups) (Post 8) = 0%nat.
Proof. cbv zeta. eexists. split; [vm_compute; reflexivity|]. vm_compute. reflexivity. Qed.
Print Assumptions C41_order_refuted.
