From Coq Require Import String List ZArith Bool Arith Lia Permutation.
From Verif Require Import StencilModel StencilProofs StencilSpec StreamModel StreamSpec GridModel GridProofs.
Import ListNotations.
Local Open Scope Z_scope.

(* ---------- reflection of symmetric_stencil ---------- *)

Definition symmetric_b (D : nat) (S : stencil) : bool :=
  negb (Nat.eqb (length S) 0) && negb (has_dup S) &&
  forallb (fun d => Nat.eqb (length d) D) S &&
  forallb (fun d => existsb (vec_eqb (vneg d)) S) S.

Lemma symmetric_b_sound D S : symmetric_b D S = true -> symmetric_stencil D S.
Proof.
  unfold symmetric_b. intros H. repeat (apply andb_prop in H as [H ?]).
  repeat split.
  - intros ->. discriminate.
  - apply has_dup_NoDup. now apply negb_true_iff.
  - rewrite forallb_forall in H1. intros d Hd. apply Nat.eqb_eq, H1, Hd.
  - rewrite forallb_forall in H0. intros d Hd. apply existsb_vec_In, H0, Hd.
Qed.

Definition eso_pairs_b (S : stencil) : bool :=
  existsb (fun T => Nat.eqb (length S) (length T) &&
                    forallb (fun d => existsb (vec_eqb d) T) S &&
                    match nth_error S 0, nth_error T 0 with
                    | Some a, Some b => vec_eqb a b | _, _ => false end)
          [D2Q9_walberla; D3Q15_walberla; D3Q19_walberla; D3Q27_walberla].

Lemma eso_pairs_b_sound S : eso_pairs_b S = true -> eso_pairs_stencil S.
Proof.
  unfold eso_pairs_b. intros H. apply existsb_exists in H as (T & HT & H).
  repeat (apply andb_prop in H as [H ?]). exists T. split; [exact HT|].
  split; [now apply Nat.eqb_eq|]. split.
  - rewrite forallb_forall in H1. intros d Hd. apply existsb_vec_In, H1, Hd.
  - destruct (nth_error S 0), (nth_error T 0); try discriminate. f_equal. now apply vec_eqb_eq.
Qed.

(* ---------- predefined table ---------- *)

Lemma predefined_In name ord S : predefined_stencils name ord = Ok S -> In (name, ord, S) predefined_table.
Proof.
  unfold predefined_stencils.
  destruct (find _ predefined_table) as [[[n o] T]|] eqn:E; [|discriminate].
  intros [= <-]. apply find_some in E as [Hin H]. apply andb_prop in H as [H1 H2].
  apply String.eqb_eq in H1, H2. simpl in *. subst. exact Hin.
Qed.

Definition maxabs : Z := 3.
Definition count_abs (v : Z) (d : vec) : nat := length (filter (Z.eqb v) (map Z.abs d)).
Definition same_counts (d d' : vec) : bool :=
  forallb (fun v => Nat.eqb (count_abs v d) (count_abs v d')) [0; 1; 2; 3].
Definition bounded (d : vec) : bool := forallb (fun z => Z.abs z <=? maxabs) d.

Lemma Permutation_filter_length {A} (f : A -> bool) l l' :
  Permutation l l' -> length (filter f l) = length (filter f l').
Proof.
  induction 1; simpl; auto.
  - destruct (f x); simpl; lia.
  - destruct (f x), (f y); simpl; lia.
  - lia.
Qed.

Definition closed_b (S : stencil) : bool :=
  forallb (fun d => bounded d &&
    forallb (fun d' => implb (same_counts d d') (existsb (vec_eqb d') S))
            (box_raw (map (fun _ => - maxabs) d) (map (fun _ => maxabs + 1) d))) S.

Lemma nth_const {A} (c : Z) (d : list A) k : (k < length d)%nat -> nth k (map (fun _ => c) d) 0 = c.
Proof. revert k; induction d as [|a d IH]; intros [|k] H; simpl in *; try lia; auto. apply IH; lia. Qed.

Lemma closed_b_sound S d d' : closed_b S = true -> In d S -> signed_permutation d d' -> In d' S.
Proof.
  intros H Hd Hp. unfold closed_b in H. rewrite forallb_forall in H. specialize (H d Hd).
  apply andb_prop in H as [Hb H]. rewrite forallb_forall in H.
  unfold bounded in Hb. rewrite forallb_forall in Hb.
  assert (Hlen : length d' = length d).
  { apply Permutation_length in Hp. now rewrite !map_length in Hp. }
  assert (Hbox : In d' (box_raw (map (fun _ => - maxabs) d) (map (fun _ => maxabs + 1) d))).
  { apply box_raw_In; [now rewrite !map_length|]. rewrite map_length. split; [exact Hlen|].
    intros k Hk. rewrite !nth_const by exact Hk.
    assert (In (Z.abs (nth k d' 0)) (map Z.abs d)) as Hin.
    { eapply Permutation_in; [apply Permutation_sym, Hp|]. apply in_map, nth_In. lia. }
    apply in_map_iff in Hin as (z & Hz & Hzin). specialize (Hb z Hzin). unfold maxabs in *. lia. }
  specialize (H d' Hbox).
  assert (Hc : same_counts d d' = true).
  { unfold same_counts. apply forallb_forall. intros v _. apply Nat.eqb_eq. unfold count_abs.
    apply Permutation_filter_length. exact Hp. }
  rewrite Hc in H. simpl in H. now apply existsb_vec_In.
Qed.

Definition wf_b (e : string * string * stencil) : bool :=
  let S := snd e in
  symmetric_b (dimD S) S && vec_eqb (nth 0 S []) (vzero (dimD S)) && closed_b S.

Lemma table_wf : forallb wf_b predefined_table = true.
Proof. vm_compute. reflexivity. Qed.

Lemma predefined_wf name ord S : predefined_stencils name ord = Ok S ->
  symmetric_stencil (dimD S) S /\ nth_error S 0 = Some (vzero (dimD S)) /\
  (forall d d', In d S -> signed_permutation d d' -> In d' S).
Proof.
  intros H. apply predefined_In in H.
  pose proof (proj1 (forallb_forall _ _) table_wf _ H) as W. unfold wf_b in W. cbn [snd] in W.
  apply andb_prop in W as [W W3]. apply andb_prop in W as [W1 W2].
  apply symmetric_b_sound in W1. apply vec_eqb_eq in W2. split; [exact W1|]. split.
  - rewrite <- W2. apply nth_error_nth'. destruct W1 as (Hne & _). destruct S; [congruence|simpl; lia].
  - intros d d' Hd Hp. eapply closed_b_sound; eauto.
Qed.

Definition perm_b (e e' : string * string * stencil) : bool :=
  implb (String.eqb (fst (fst e)) (fst (fst e')))
        (Nat.eqb (length (snd e)) (length (snd e')) && forallb (fun d => existsb (vec_eqb d) (snd e')) (snd e)).

Lemma table_perm : forallb (fun e => forallb (perm_b e) predefined_table) predefined_table = true.
Proof. vm_compute. reflexivity. Qed.

Lemma predefined_perm name o1 o2 S1 S2 :
  predefined_stencils name o1 = Ok S1 -> predefined_stencils name o2 = Ok S2 -> Permutation S1 S2.
Proof.
  intros H1 H2. pose proof (proj1 (predefined_wf _ _ _ H1)) as W1.
  pose proof (proj1 (predefined_wf _ _ _ H2)) as W2.
  apply predefined_In in H1, H2.
  pose proof (proj1 (forallb_forall _ _) table_perm _ H1) as T. rewrite forallb_forall in T.
  specialize (T _ H2). unfold perm_b in T. cbn [fst snd] in T. rewrite String.eqb_refl in T. simpl in T.
  apply andb_prop in T as [T1 T2]. apply Nat.eqb_eq in T1. rewrite forallb_forall in T2.
  apply NoDup_Permutation_bis; [apply W1|lia|]. intros d Hd. apply existsb_vec_In, T2, Hd.
Qed.

(* ---------- index laws for arbitrary accepted stencils ---------- *)

Lemma tuple_ok S st : lbstencil_of_tuple S = Ok st ->
  st = {| entries := S; ordering := None |} /\ NoDup S /\ S <> [] /\ forall d, In d S -> length d = dimD S.
Proof.
  unfold lbstencil_of_tuple, same_lengths.
  destruct (forallb (fun d => Nat.eqb (length d) (dimD S)) S) eqn:E1; simpl; [|discriminate].
  destruct (has_dup S) eqn:E2; [discriminate|]. apply has_dup_NoDup in E2.
  rewrite forallb_forall in E1.
  destruct S as [|d S']; [discriminate|]. intros [= <-]. repeat split; auto; [congruence|].
  intros e He. apply Nat.eqb_eq, E1, He.
Qed.

Lemma constructible_facts a : constructible a ->
  NoDup (entries a) /\ entries a <> [] /\ forall d, In d (entries a) -> length d = dimD (entries a).
Proof.
  intros [(name & ord & H)|(S & H)].
  - unfold lbstencil_of_name in H. destruct (predefined_stencils name ord) as [S|] eqn:E; [|discriminate].
    cbn [rbind] in H. pose proof (proj1 (predefined_wf _ _ _ E)) as (W1 & W2 & W3 & _).
    destruct (negb (same_lengths S)); [discriminate|]. destruct (has_dup S); [discriminate|].
    injection H as <-. simpl. auto.
  - apply tuple_ok in H as (-> & H1 & H2 & H3). simpl. auto.
Qed.

Lemma st_index_iff S d i : NoDup S -> (forall e, In e S -> length e = dimD S) ->
  st_index S d = Ok i <-> nth_error S i = Some d.
Proof.
  intros Hnd Hlen. unfold st_index. split.
  - destruct (Nat.eqb _ _); [|discriminate]. destruct (index_of d S) eqn:E; [|discriminate].
    intros [= <-]. now apply index_of_Some.
  - intros H. rewrite Hlen by (eapply nth_error_In; eauto). rewrite Nat.eqb_refl.
    rewrite (index_of_nth S i d Hnd H). reflexivity.
Qed.

Lemma st_index_err S d : (exists e, st_index S d = Err e) <-> (~ In d S \/ length d <> dimD S).
Proof.
  unfold st_index. destruct (Nat.eqb_spec (length d) (dimD S)) as [El|El].
  - destruct (index_of d S) eqn:E.
    + split; [intros (e & H); discriminate|]. intros [H|H]; [|contradiction].
      exfalso. apply H. eapply nth_error_In, index_of_Some; eauto.
    + split; [|eauto]. intros _. left. now apply index_of_None.
  - split; eauto.
Qed.

Lemma st_inverse_index_iff S d i : NoDup S -> (forall e, In e S -> length e = dimD S) ->
  st_inverse_index S d = Ok i <-> nth_error S i = Some (vneg d).
Proof.
  intros Hnd Hlen. unfold st_inverse_index. split.
  - destruct (Nat.eqb _ _); [|discriminate]. destruct (index_of (vneg d) S) eqn:E; [|discriminate].
    intros [= <-]. now apply index_of_Some.
  - intros H. assert (length (vneg d) = dimD S) as HL by (apply Hlen; eapply nth_error_In; eauto).
    rewrite vneg_length in HL. rewrite HL, Nat.eqb_refl.
    rewrite (index_of_nth S i _ Hnd H). reflexivity.
Qed.

(* ---------- equality and hash ---------- *)

Lemma have_same_entries_spec S T : NoDup S -> NoDup T ->
  have_same_entries S T = true <-> Permutation S T.
Proof.
  intros HS HT. unfold have_same_entries. split.
  - intros H. apply andb_prop in H as [H1 H2]. apply Nat.eqb_eq in H1. rewrite forallb_forall in H2.
    apply NoDup_Permutation_bis; [exact HS|lia|]. intros d Hd. apply existsb_vec_In, H2, Hd.
  - intros H. apply andb_true_intro. split; [apply Nat.eqb_eq, Permutation_length, H|].
    apply forallb_forall. intros d Hd. apply existsb_vec_In. eapply Permutation_in; eauto.
Qed.

Lemma opt_string_eqb_eq a b : opt_string_eqb a b = true <-> a = b.
Proof.
  destruct a, b; simpl; split; try congruence; try discriminate; intros H.
  - apply String.eqb_eq in H. congruence.
  - injection H as ->. apply String.eqb_refl.
Qed.

Lemma lbstencil_eq_spec a b : constructible a -> constructible b ->
  lbstencil_eq a b = true <-> ordering a = ordering b /\ Permutation (entries a) (entries b).
Proof.
  intros Ha Hb. unfold lbstencil_eq. rewrite andb_true_iff, opt_string_eqb_eq.
  rewrite have_same_entries_spec by (apply constructible_facts; assumption). tauto.
Qed.

Lemma lbstencil_eq_equiv :
  (forall a, constructible a -> lbstencil_eq a a = true) /\
  (forall a b, constructible a -> constructible b -> lbstencil_eq a b = true -> lbstencil_eq b a = true) /\
  (forall a b c, constructible a -> constructible b -> constructible c ->
     lbstencil_eq a b = true -> lbstencil_eq b c = true -> lbstencil_eq a c = true).
Proof.
  split; [|split].
  - intros a Ha. apply lbstencil_eq_spec; auto.
  - intros a b Ha Hb H. apply lbstencil_eq_spec in H; auto. apply lbstencil_eq_spec; auto.
    destruct H as [H1 H2]. split; [congruence|]. now apply Permutation_sym.
  - intros a b c Ha Hb Hc H1 H2. apply lbstencil_eq_spec in H1, H2; auto. apply lbstencil_eq_spec; auto.
    destruct H1, H2. split; [congruence|]. eapply Permutation_trans; eauto.
Qed.

Definition names_sizes_b : bool :=
  forallb (fun e => forallb (fun e' =>
    implb (String.eqb (snd (fst e)) (snd (fst e')) && have_same_entries (snd e) (snd e'))
          (String.eqb (fst (fst e)) (fst (fst e')))) predefined_table) predefined_table.
Lemma names_sizes : names_sizes_b = true.
Proof. vm_compute. reflexivity. Qed.

Lemma predefined_eq_hash n1 o1 n2 o2 a b (H : Type) (h : stencil -> H) :
  lbstencil_of_name n1 o1 = Ok a -> lbstencil_of_name n2 o2 = Ok b ->
  lbstencil_eq a b = true -> lbstencil_hash h a = lbstencil_hash h b.
Proof.
  intros Ha Hb He. unfold lbstencil_of_name in *.
  destruct (predefined_stencils n1 o1) as [S|] eqn:E1; [|discriminate].
  destruct (predefined_stencils n2 o2) as [T|] eqn:E2; [|discriminate].
  cbn [rbind] in *.
  destruct (negb (same_lengths S)); [discriminate|]. destruct (has_dup S); [discriminate|].
  destruct (negb (same_lengths T)); [discriminate|]. destruct (has_dup T); [discriminate|].
  injection Ha as <-. injection Hb as <-. unfold lbstencil_eq in He. simpl in He.
  apply andb_prop in He as [He1 He2]. apply String.eqb_eq in He1. subst o2.
  pose proof names_sizes as NS. unfold names_sizes_b in NS. rewrite forallb_forall in NS.
  specialize (NS _ (predefined_In _ _ _ E1)). rewrite forallb_forall in NS.
  specialize (NS _ (predefined_In _ _ _ E2)). cbn [fst snd] in NS.
  rewrite String.eqb_refl, He2 in NS. simpl in NS. apply String.eqb_eq in NS. subst n2.
  rewrite E1 in E2. injection E2 as <-. reflexivity.
Qed.

Definition wA : lbstencil := {| entries := [[0]; [1]; [-1]]; ordering := None |}.
Definition wB : lbstencil := {| entries := [[0]; [-1]; [1]]; ordering := None |}.
Lemma hash_counterexample :
  constructible wA /\ constructible wB /\ lbstencil_eq wA wB = true /\
  lbstencil_hash py_stencil_hash wA <> lbstencil_hash py_stencil_hash wB.
Proof.
  split; [right; exists [[0]; [1]; [-1]]; reflexivity|].
  split; [right; exists [[0]; [-1]; [1]]; reflexivity|].
  split; [reflexivity|]. vm_compute. discriminate.
Qed.

Lemma inverse_index_involution D S i d k e :
  symmetric_stencil D S ->
  nth_error S i = Some d -> st_inverse_index S d = Ok k -> nth_error S k = Some e ->
  e = map Z.opp d /\ st_inverse_index S e = Ok i.
Proof.
  intros (Hne & Hnd & Hlen & Hneg) Hi Hk He.
  assert (HdimD : dimD S = D).
  { unfold dimD. destruct S as [|s S']; [congruence|]. apply Hlen. left; reflexivity. }
  assert (Hlen' : forall e, In e S -> length e = dimD S) by (intros x Hx; rewrite HdimD; apply Hlen, Hx).
  pose proof (proj1 (st_inverse_index_iff S d k Hnd Hlen') Hk) as Hk'.
  assert (Ee : Some e = Some (vneg d)) by (exact (eq_trans (eq_sym He) Hk')). injection Ee as ->.
  split; [reflexivity|]. apply st_inverse_index_iff; [exact Hnd|exact Hlen'|].
  rewrite vneg_involutive. exact Hi.
Qed.
