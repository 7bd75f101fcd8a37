From Coq Require Import List ZArith Bool Arith Lia Permutation.
From Verif Require PsmProofs.
From Verif Require Import StencilModel StencilProofs StreamSpec SparseModel SparseSpec SparseProofs.
Import ListNotations.
Local Open Scope Z_scope.

Section P.
  Variables (S : stencil) (shape : list nat) (flags : coord -> Z) (fluid_flag no_slip_flag other_mask : Z) (g : nat).
  Notation flagged := (flagged flags).
  Notation active := (active flags fluid_flag other_mask).
  Notation wall := (wall flags no_slip_flag).
  Notation fluid := (fluid shape flags fluid_flag).
  Notation interior := (interior shape g).
  Notation image := (image shape g).
  Notation upwind := (upwind S).
  Notation pulls := (pulls S shape flags fluid_flag no_slip_flag other_mask g).
  Notation coordinates := (coordinates shape flags fluid_flag other_mask).
  Notation fluids := (fluid_coordinates shape flags fluid_flag).
  Notation N := (num_cells shape flags fluid_flag other_mask).
  Notation cell_idx := (cell_idx shape flags fluid_flag other_mask).
  Notation pull_index := (pull_index S shape flags fluid_flag no_slip_flag other_mask g).
  Notation pdf_index := (pdf_index shape flags fluid_flag other_mask).
  Notation create := (create_index_array S shape flags fluid_flag no_slip_flag other_mask g).

  Lemma has_flag_iff m c : has_flag flags m c = true <-> flagged m c.
  Proof. unfold has_flag, SparseSpec.flagged. rewrite negb_true_iff, Z.eqb_neq. tauto. Qed.
  Lemma has_active c : has_flag flags (Z.lor other_mask fluid_flag) c = true <-> active c.
  Proof.
    rewrite has_flag_iff. unfold SparseSpec.active, SparseSpec.flagged. rewrite Z.land_lor_distr_r, Z.lor_eq_0_iff.
    destruct (Z.eq_dec (Z.land (flags c) other_mask) 0), (Z.eq_dec (Z.land (flags c) fluid_flag) 0); tauto.
  Qed.
  Lemma in_fluids c : In c fluids <-> fluid c.
  Proof. unfold fluid_coordinates. rewrite filter_In, all_cells_in, has_flag_iff. unfold SparseSpec.fluid. tauto. Qed.
  Lemma in_coordinates c : In c coordinates <-> in_domain shape c /\ active c.
  Proof.
    unfold SparseModel.coordinates, boundary_coordinates. rewrite in_app_iff, in_fluids, filter_In, all_cells_in, has_flag_iff.
    unfold SparseSpec.fluid, SparseSpec.active. tauto.
  Qed.
  Lemma fluids_nodup : NoDup fluids.
  Proof. apply NoDup_filter, all_cells_nodup. Qed.
  Lemma coordinates_nodup : (forall c, in_domain shape c -> ~ (flagged fluid_flag c /\ flagged other_mask c)) -> NoDup coordinates.
  Proof.
    intros H. apply NoDup_app_intro; try apply NoDup_filter, all_cells_nodup.
    intros c Hc Hb. apply in_fluids in Hc. unfold boundary_coordinates in Hb. apply filter_In in Hb. rewrite has_flag_iff in Hb.
    destruct Hc as [D F]. apply (H c D). tauto.
  Qed.

  (* cell_idx *)
  Lemma cell_idx_Ok c i : cell_idx c = Ok i -> nth_error coordinates i = Some c /\ count_coord coordinates c = 1%nat.
  Proof.
    unfold SparseModel.cell_idx. rewrite search_right_count.
    destruct (Nat.eqb_spec (search_left coordinates c + 1) (search_left coordinates c + count_coord coordinates c)) as [E|E]; cbn [negb]; [|discriminate].
    assert (C : count_coord coordinates c = 1%nat) by lia.
    destruct (argsort_search coordinates c) as (k & Hk & Hc); [apply count_pos; lia|]. rewrite Hk. intros [= <-]. auto.
  Qed.
  Lemma cell_idx_iff c i : cell_idx c = Ok i <-> nth_error coordinates i = Some c /\ count_coord coordinates c = 1%nat.
  Proof.
    split; [apply cell_idx_Ok|]. intros [H C]. unfold SparseModel.cell_idx. rewrite search_right_count, C, Nat.eqb_refl. cbn [negb].
    destruct (argsort_search coordinates c) as (k & Hk & Hc); [eapply nth_error_In; eauto|]. rewrite Hk. f_equal.
    eapply count_unique; eauto.
  Qed.
  Lemma cell_idx_err c : count_coord coordinates c <> 1%nat -> cell_idx c = Err IndexError.
  Proof.
    intros C. unfold SparseModel.cell_idx. rewrite search_right_count.
    destruct (Nat.eqb_spec (search_left coordinates c + 1) (search_left coordinates c + count_coord coordinates c)); [lia|]. reflexivity.
  Qed.

  (* wrapping *)
  Lemma wrap_spec y z b : Forall2 (fun v n => Z.of_nat g - 1 <= v <= Z.of_nat n - Z.of_nat g /\ Z.of_nat g < Z.of_nat n - Z.of_nat g) y shape ->
    wrap shape g y = (b, z) -> interior z /\ congruent g y z shape /\ (b = false <-> interior y) /\ (b = false -> z = y).
  Proof.
    unfold wrap. intros H [= <- <-]. unfold SparseSpec.interior. induction H as [|v n y ns [H1 H2] H IH].
    - cbn. repeat split; constructor.
    - destruct IH as (I1 & I2 & I3 & I4). cbn [combine map existsb fst snd].
      unfold wrap_coordinate at 1 2 3 4 5. set (ws := map _ (combine y ns)) in *. split; [|split; [|split]].
      + constructor; auto. unfold wrap_coordinate. destruct (Z.eqb_spec v (Z.of_nat g - 1)); cbn [snd]; [lia|].
        destruct (Z.eqb_spec v (Z.of_nat n - Z.of_nat g)); cbn [snd]; lia.
      + constructor; auto. unfold wrap_coordinate. destruct (Z.eqb_spec v (Z.of_nat g - 1)); cbn [snd]; [exists 1; lia|].
        destruct (Z.eqb_spec v (Z.of_nat n - Z.of_nat g)); cbn [snd]; [exists (-1); lia|exists 0; lia].
      + rewrite orb_false_iff, I3. split.
        * intros [E HF]. constructor; auto. revert E. destruct (Z.eqb_spec v (Z.of_nat g - 1)); [discriminate|].
          destruct (Z.eqb_spec v (Z.of_nat n - Z.of_nat g)); [discriminate|]. intros _. lia.
        * inversion 1; subst. split; auto. destruct (Z.eqb_spec v (Z.of_nat g - 1)); [lia|].
          destruct (Z.eqb_spec v (Z.of_nat n - Z.of_nat g)); [lia|]. reflexivity.
      + rewrite orb_false_iff. intros [E HF]. rewrite (I4 HF). f_equal. revert E. unfold wrap_coordinate.
        destruct (Z.eqb_spec v (Z.of_nat g - 1)); [discriminate|].
        destruct (Z.eqb_spec v (Z.of_nat n - Z.of_nat g)); [discriminate|]. reflexivity.
  Qed.
  Lemma congruent_unique y z z' : congruent g y z shape -> interior z -> congruent g y z' shape -> interior z' -> z = z'.
  Proof.
    unfold SparseSpec.interior. intros H. revert z'. induction H as [|a b n ys zs ns [k Hk] H IH]; intros z' I C I'.
    - inversion C. auto.
    - remember (2 * Z.of_nat g) as gg eqn:Hgg. inversion C as [|a1 z1 n1 ys1 zs1 ns1 [k' Hk'] C1]; subst a1 ys1 n1 ns1 z'. inversion I as [|x1 x2 x3 x4 I1 I2]. inversion I' as [|w1 w2 w3 w4 J1 J2].
      subst x1 x2 x3 x4 w1 w2 w3 w4. rewrite <- ?Hgg in *. f_equal; [|now apply IH].
      assert ((k - k') * (Z.of_nat n - gg) < Z.of_nat n - gg) by lia.
      assert ((k' - k) * (Z.of_nat n - gg) < Z.of_nat n - gg) by lia.
      assert (k = k') by nia. subst k'. lia.
  Qed.
  Lemma image_unique y z z' : image y z -> image y z' -> z = z'.
  Proof. intros (_ & I & C) (_ & I' & C'). eapply congruent_unique; eauto. Qed.

  Hypothesis H_unit : unit_stencil (length shape) S.
  Hypothesis H_sym : forall d, In d S -> In (vneg d) S.
  Hypothesis H_ghost : (1 <= g)%nat.

  Lemma upwind_range x j : interior x -> (j < length S)%nat ->
    Forall2 (fun v n => Z.of_nat g - 1 <= v <= Z.of_nat n - Z.of_nat g /\ Z.of_nat g < Z.of_nat n - Z.of_nat g) (upwind x j) shape.
  Proof.
    intros I Hj. destruct H_unit as (U & _). rewrite Forall_forall in U. destruct (U (dir S j)) as [Hl Hu].
    { unfold dir. now apply nth_In. }
    unfold SparseSpec.upwind, vadd, vneg. revert Hl Hu. generalize (dir S j) as d. unfold SparseSpec.interior in I.
    clear - I. induction I as [|a n x ns Hx I IH]; intros d Hl Hu; destruct d as [|e d]; try discriminate; cbn; [constructor|].
    inversion Hu; subst. constructor; [lia|]. apply IH; auto.
  Qed.
  Lemma upwind_in_domain x j : interior x -> (j < length S)%nat -> in_domain shape (upwind x j).
  Proof.
    intros I Hj. pose proof (upwind_range x j I Hj) as H. unfold in_domain. clear - H H_ghost.
    induction H; constructor; auto; lia.
  Qed.
  Lemma interior_in_domain z : interior z -> in_domain shape z.
  Proof. unfold SparseSpec.interior, in_domain. clear. induction 1; constructor; auto; lia. Qed.

  Lemma opposite_iff j k : opposite S j k -> index_of (vneg (nth j S [])) S = Some k.
  Proof.
    intros (d & H1 & H2). rewrite (nth_error_nth _ _ _ H1). apply index_of_nth; auto. apply H_unit.
  Qed.
  Lemma pulls_det x j y k y' k' : pulls x j y k -> pulls x j y' k' -> y = y' /\ k = k'.
  Proof.
    intros H H'. inversion H; inversion H'; subst; try tauto.
    - split; auto. repeat match goal with Ho : opposite _ _ _ |- _ => apply opposite_iff in Ho end. congruence.
    - split; auto. eapply image_unique; eauto.
  Qed.

  Lemma pull_index_spec x j own i : interior x -> nth_error coordinates own = Some x -> (j < length S)%nat ->
    pull_index j (dir S j) own x = Ok i ->
    exists m k y, i = pdf_index m k /\ nth_error coordinates m = Some y /\ (k < length S)%nat /\ pulls x j y k.
  Proof.
    intros I Hown Hj. unfold SparseModel.pull_index. fold (upwind x j).
    rewrite (proj2 (in_array_iff shape (upwind x j)) (upwind_in_domain x j I Hj)). cbn [negb].
    destruct (has_flag flags (Z.lor other_mask fluid_flag) (upwind x j)) eqn:A.
    - apply has_active in A. destruct (cell_idx (upwind x j)) eqn:E; cbn [rbind]; [|discriminate]. intros [= <-].
      apply cell_idx_Ok in E. eexists _, j, (upwind x j). repeat split; try apply E; auto. now constructor.
    - assert (A' : ~ active (upwind x j)) by (rewrite <- has_active; congruence).
      destruct (has_flag flags no_slip_flag (upwind x j)) eqn:W.
      + apply has_flag_iff in W. unfold inverse_idx. destruct (index_of _ S) eqn:E; cbn [rbind]; [|discriminate]. intros [= <-].
        exists own, n, x. repeat split; auto; [eapply index_of_lt; eauto|]. apply pull_bounce; auto.
        exists (nth j S []). split; [now apply nth_error_nth'|now apply index_of_Some].
      + assert (W' : ~ wall (upwind x j)) by (unfold SparseSpec.wall; rewrite <- has_flag_iff; congruence).
        destruct (wrap shape g (upwind x j)) as [b z] eqn:E.
        apply wrap_spec in E; [|now apply upwind_range]. destruct E as (Iz & Cz & Bz & _).
        destruct b; [|discriminate].
        rewrite (proj2 (in_array_iff shape z) (interior_in_domain z Iz)). cbn [negb].
        destruct (has_flag flags (Z.lor other_mask fluid_flag) z) eqn:Az; [|discriminate]. apply has_active in Az.
        destruct (cell_idx z) eqn:E; cbn [rbind]; [|discriminate]. intros [= <-]. apply cell_idx_Ok in E.
        eexists _, j, z. repeat split; try apply E; auto. apply pull_periodic; auto. split; auto. intros HI. apply Bz in HI. discriminate.
  Qed.
  Lemma pull_index_total x j own y k : NoDup coordinates -> interior x -> (j < length S)%nat -> pulls x j y k ->
    exists i, pull_index j (dir S j) own x = Ok i.
  Proof.
    intros ND I Hj P. unfold SparseModel.pull_index. fold (upwind x j).
    pose proof (upwind_in_domain x j I Hj) as D.
    rewrite (proj2 (in_array_iff shape (upwind x j)) D). cbn [negb].
    assert (CI : forall c, in_domain shape c -> active c -> exists i, cell_idx c = Ok i).
    { intros c Dc Ac. assert (Hin : In c coordinates) by (apply in_coordinates; auto).
      destruct (In_nth_error _ _ Hin) as [i Hi]. exists i. apply cell_idx_iff. split; auto. now apply count_one. }
    inversion P as [A|k' A W O|z A W Im Az]; subst.
    - rewrite (proj2 (has_active _) A). destruct (CI _ D A) as [i ->]. cbn. eauto.
    - destruct (has_flag flags (Z.lor other_mask fluid_flag) (upwind y j)) eqn:E; [apply has_active in E; tauto|].
      rewrite (proj2 (has_flag_iff _ _) W). unfold inverse_idx. rewrite (opposite_iff _ _ O). cbn. eauto.
    - destruct (has_flag flags (Z.lor other_mask fluid_flag) (upwind x k)) eqn:E; [apply has_active in E; tauto|].
      destruct (has_flag flags no_slip_flag (upwind x k)) eqn:E2; [apply has_flag_iff in E2; tauto|].
      destruct (wrap shape g (upwind x k)) as [b z'] eqn:Ew. apply wrap_spec in Ew; [|now apply upwind_range].
      destruct Ew as (Iz & Cz & Bz & _). destruct Im as (NI & Iy & Cy).
      assert (z' = y) by (eapply congruent_unique; eauto). subst z'.
      destruct b; [|exfalso; tauto].
      rewrite (proj2 (in_array_iff shape y) (interior_in_domain y Iz)). cbn [negb]. rewrite (proj2 (has_active _) Az).
      destruct (CI y (interior_in_domain y Iz) Az) as [i ->]. cbn. eauto.
  Qed.

  (* ---------- the whole array ---------- *)
  Hypothesis H_inside : forall c, fluid c -> interior c.

  Lemma zero_dir d : forallb (Z.eqb 0) d = true -> d = repeat 0 (length d).
  Proof. clear. induction d as [|e d IH]; cbn [forallb length repeat]; auto. rewrite andb_true_iff, Z.eqb_eq. intros [<- H]. f_equal. auto. Qed.
  Lemma stencil_cons : exists T, S = repeat 0 (length shape) :: T.
  Proof. destruct H_unit as (_ & _ & H0). clear - H0. destruct S; cbn in H0; [discriminate|]. injection H0 as ->. eauto. Qed.
  Lemma dir_nonzero j : (1 <= j < length S)%nat -> forallb (Z.eqb 0) (dir S j) = false.
  Proof.
    intros Hj. destruct (forallb (Z.eqb 0) (dir S j)) eqn:E; auto. apply zero_dir in E.
    destruct H_unit as (U & ND & H0). rewrite Forall_forall in U.
    assert (Hl : length (dir S j) = length shape) by (apply U; unfold dir; apply nth_In; lia).
    rewrite Hl in E. assert (j = 0%nat); [|lia].
    apply (proj1 (NoDup_nth_error S) ND); [lia|]. rewrite H0, <- E. apply nth_error_nth'. lia.
  Qed.
  Lemma nth_enum {A} (l : list A) k s i a : nth_error (combine (seq s k) l) i = Some a -> (i < k)%nat -> fst a = (s + i)%nat /\ nth_error l i = Some (snd a).
  Proof.
    clear. revert k s i. induction l as [|b l IH]; intros k s i H Hi.
    - destruct k; cbn in H; destruct i; discriminate.
    - destruct k as [|k]; [lia|]. cbn [seq combine] in H. destruct i as [|i]; cbn in H.
      + injection H as <-. cbn. split; [lia|auto].
      + apply IH in H; [|lia]. destruct H as [-> H]. split; [lia|auto].
  Qed.
  Lemma nth_enum_ex {A} (l : list A) i a : nth_error l i = Some a -> nth_error (combine (seq 0 (length l)) l) i = Some (i, a).
  Proof.
    clear. intros H. assert (G : forall s, nth_error (combine (seq s (length l)) l) i = Some ((s + i)%nat, a)); [|apply G].
    revert i H. induction l as [|b l IH]; intros i H s; [destruct i; discriminate|].
    destruct i as [|i]; cbn in *; [injection H as ->; do 2 f_equal; lia|]. rewrite IH by auto. do 2 f_equal. lia.
  Qed.

  Notation row := (direction_indices S shape flags fluid_flag no_slip_flag other_mask g).
  Lemma fluids_own n x : nth_error fluids n = Some x -> nth_error coordinates n = Some x.
  Proof. intros H. unfold SparseModel.coordinates. rewrite nth_error_app1; auto. apply nth_error_Some. congruence. Qed.

  Lemma row0 d : nth_error S 0 = Some d -> row (0%nat, d) = Ok [].
  Proof.
    destruct H_unit as (_ & _ & H0). rewrite H0. intros [= <-]. unfold direction_indices. cbn [fst snd].
    replace (forallb (Z.eqb 0) (repeat 0 (length shape))) with true; auto.
    symmetry. apply forallb_forall. intros e He. apply repeat_spec in He. subst. reflexivity.
  Qed.
  Lemma rowj j d : nth_error S j = Some d -> (1 <= j)%nat ->
    row (j, d) = mapM (fun q => pull_index j (dir S j) (fst q) (snd q)) (combine (seq 0 (length fluids)) fluids).
  Proof.
    intros H Hj. assert (j < length S)%nat by (apply nth_error_Some; congruence).
    assert (d = dir S j) as -> by (symmetry; apply (nth_error_nth S j [] H)).
    unfold direction_indices. cbn [fst snd]. rewrite dir_nonzero by lia. reflexivity.
  Qed.
  Lemma create_Ok idx : create = Ok idx -> forall n j x, nth_error fluids n = Some x -> (1 <= j < length S)%nat ->
    pull_index j (dir S j) n x = Ok (idx n (j - 1)%nat).
  Proof.
    unfold create_index_array. destruct (mapM row (combine (seq 0 (length S)) S)) as [rows|] eqn:E; cbn [rbind]; [|discriminate].
    destruct (Nat.eqb (length (concat rows)) ((length S - 1) * length fluids)) eqn:EL; cbn [negb]; [|discriminate].
    intros [= <-] n j x Hn Hj. pose proof (mapM_Ok_length _ _ _ E) as Hl. rewrite combine_length, seq_length, Nat.min_id in Hl.
    destruct stencil_cons as [T HT].
    assert (R0 : nth_error rows 0 = Some []).
    { destruct (mapM_nth _ _ _ 0 (0%nat, repeat 0 (length shape)) E) as (b & Hb & Hb').
      - rewrite HT. reflexivity.
      - rewrite row0 in Hb by (rewrite HT; reflexivity). congruence. }
    assert (RJ : forall i, (1 <= i < length S)%nat -> exists b, nth_error rows i = Some b /\
        mapM (fun q => pull_index i (dir S i) (fst q) (snd q)) (combine (seq 0 (length fluids)) fluids) = Ok b).
    { intros i Hi. destruct (nth_error S i) as [d|] eqn:Ed; [|apply nth_error_None in Ed; lia].
      destruct (mapM_nth _ _ _ i (i, d) E (nth_enum_ex _ _ _ Ed)) as (b & Hb & Hb'). rewrite rowj in Hb; auto; [|lia]. eauto. }
    destruct rows as [|r0 rows]; [discriminate|]. cbn in R0. injection R0 as ->. cbn [concat app].
    assert (nF : (n < length fluids)%nat) by (apply nth_error_Some; congruence).
    assert (Hj' : (j - 1 < length rows)%nat) by (cbn in Hl; lia).
    rewrite (PsmProofs.nth_concat_block 0%nat (length fluids) rows (j - 1) n); auto.
    - destruct (RJ j Hj) as (b & Hb & Mb). replace j with (Datatypes.S (j - 1)) in Hb by lia. cbn in Hb.
      rewrite (nth_error_nth _ _ _ Hb). destruct (mapM_nth _ _ _ n (n, x) Mb (nth_enum_ex _ _ _ Hn)) as (v & Hv & Hv').
      cbn [fst snd] in Hv. rewrite (nth_error_nth _ _ _ Hv'). exact Hv.
    - apply Forall_forall. intros r Hr. destruct (In_nth_error _ _ Hr) as [i Hi].
      assert (i < length rows)%nat by (apply nth_error_Some; congruence).
      destruct (RJ (Datatypes.S i)) as (b & Hb & Mb); [cbn in Hl; lia|]. cbn in Hb. assert (b = r) by congruence. subst b.
      apply mapM_Ok_length in Mb. rewrite combine_length, seq_length, Nat.min_id in Mb. exact Mb.
  Qed.
  Lemma create_total : NoDup coordinates -> (forall x j, fluid x -> (1 <= j < length S)%nat -> exists y k, pulls x j y k) ->
    exists idx, create = Ok idx.
  Proof.
    intros ND P. unfold create_index_array.
    assert (Rows : exists rows, mapM row (combine (seq 0 (length S)) S) = Ok rows).
    { apply mapM_ex. intros [j d] Hin. destruct (In_nth_error _ _ Hin) as [i Hi].
      assert (i < length S)%nat. { assert (H : (i < length (combine (seq 0 (length S)) S))%nat) by (apply nth_error_Some; congruence).
        rewrite combine_length, seq_length in H. lia. }
      apply nth_enum in Hi; auto. cbn [fst snd] in Hi. destruct Hi as [-> Hi]. cbn [Nat.add].
      destruct i as [|i]; [rewrite row0 by auto; eauto|]. rewrite rowj by (auto; lia). apply mapM_ex.
      intros [n x] Hx. destruct (In_nth_error _ _ Hx) as [m Hm].
      assert (m < length fluids)%nat. { assert (H' : (m < length (combine (seq 0 (length fluids)) fluids))%nat) by (apply nth_error_Some; congruence).
        rewrite combine_length, seq_length in H'. lia. }
      apply nth_enum in Hm; auto. cbn [fst snd] in Hm. destruct Hm as [_ Hm]. cbn [fst snd].
      apply nth_error_In, in_fluids in Hm. destruct (P x (Datatypes.S i) Hm) as (y & k & Hp); [lia|].
      eapply pull_index_total; eauto. }
    destruct Rows as [rows E]. rewrite E. cbn [rbind].
    pose proof (mapM_Ok_length _ _ _ E) as Hl. rewrite combine_length, seq_length, Nat.min_id in Hl.
    replace (length (concat rows)) with ((length S - 1) * length fluids)%nat; [rewrite Nat.eqb_refl; cbn; eauto|].
    destruct stencil_cons as [T HT].
    assert (R0 : nth_error rows 0 = Some []).
    { destruct (mapM_nth _ _ _ 0 (0%nat, repeat 0 (length shape)) E) as (b & Hb & Hb').
      - rewrite HT. reflexivity.
      - rewrite row0 in Hb by (rewrite HT; reflexivity). congruence. }
    destruct rows as [|r0 rows]; [discriminate|]. cbn in R0. injection R0 as ->. cbn [concat app].
    rewrite (PsmProofs.length_concat_const rows (length fluids)); [cbn in Hl; f_equal; lia|].
    intros r Hr. destruct (In_nth_error _ _ Hr) as [i Hi].
    assert (i < length rows)%nat by (apply nth_error_Some; congruence).
    destruct (nth_error S (Datatypes.S i)) as [d|] eqn:Ed; [|apply nth_error_None in Ed; cbn in Hl; lia].
    destruct (mapM_nth _ _ _ (Datatypes.S i) (Datatypes.S i, d) E (nth_enum_ex _ _ _ Ed)) as (b & Hb & Hb').
    rewrite rowj in Hb; auto; [|lia]. cbn in Hb'. assert (b = r) by congruence. subst b.
    apply mapM_Ok_length in Hb. rewrite combine_length, seq_length, Nat.min_id in Hb. exact Hb.
  Qed.
  Lemma create_spec idx : create = Ok idx -> forall n j x, nth_error fluids n = Some x -> (1 <= j < length S)%nat ->
    exists m k y, idx n (j - 1)%nat = pdf_index m k /\ nth_error coordinates m = Some y /\ (k < length S)%nat /\ pulls x j y k.
  Proof.
    intros E n j x Hn Hj. pose proof (create_Ok idx E n j x Hn Hj) as H. eapply pull_index_spec; eauto; [|now apply fluids_own|lia].
    apply H_inside, in_fluids. eapply nth_error_In; eauto.
  Qed.

  (* ---------- injectivity ---------- *)
  Hypothesis H_wall : forall c, fluid c -> ~ wall c.
  Hypothesis H_periodic : forall x j z, fluid x -> (j < length S)%nat -> ~ active (upwind x j) -> ~ wall (upwind x j) -> image (upwind x j) z ->
    ~ wall (vadd z (dir S j)).

  Lemma vec_upwind_inj (d x x' : vec) : length x = length d -> length x' = length d -> vadd x (vneg d) = vadd x' (vneg d) -> x = x'.
  Proof.
    clear. unfold vadd, vneg. revert x x'. induction d as [|e d IH]; intros [|a x] [|b x'] H1 H2 E; try discriminate; auto.
    cbn in E. injection E as E1 E2. f_equal; [lia|]. apply IH; auto.
  Qed.
  Lemma congruent_upwind (d x x' : vec) ns : length x = length d -> length x' = length d ->
    congruent g (vadd x' (vneg d)) (vadd x (vneg d)) ns -> congruent g x' x ns.
  Proof.
    clear. unfold vadd, vneg. revert x x' ns. induction d as [|e d IH]; intros [|a x] [|b x'] ns H1 H2 E; try discriminate; auto.
    - remember (2 * Z.of_nat g) as gg. cbn [map combine fst snd] in E. inversion E as [|p q n ys zs ns' [k Hk] C']; subst p q ys zs ns. constructor; [|apply IH; auto].
      exists k. lia.
  Qed.
  Lemma congruent_refl x ns : length x = length ns -> congruent g x x ns.
  Proof. clear. revert x. induction ns as [|n ns IH]; intros [|a x] H; try discriminate; constructor; [exists 0; lia|]. apply IH. cbn in H. lia. Qed.
  Lemma congruent_sym x y ns : congruent g x y ns -> congruent g y x ns.
  Proof. clear. induction 1 as [|a b n ys zs ns [k Hk] C IH]; constructor; auto. exists (- k). lia. Qed.
  Lemma congruent_trans x y z ns : congruent g x y ns -> congruent g y z ns -> congruent g x z ns.
  Proof.
    clear. intros H. revert z. induction H as [|a b n ys zs ns [k Hk] C IH]; intros z H; auto.
    remember (2 * Z.of_nat g) as gg. inversion H as [|p q n' ys' zs' ns' [k' Hk'] C']; subst p ys' n' ns' z. constructor; auto. exists (k + k'). lia.
  Qed.
  Lemma interior_length x : interior x -> length x = length shape.
  Proof. clear. unfold SparseSpec.interior. induction 1; cbn; auto. Qed.
  Lemma dir_length j : (j < length S)%nat -> length (dir S j) = length shape.
  Proof. intros Hj. destruct H_unit as (U & _). rewrite Forall_forall in U. apply U. unfold dir. now apply nth_In. Qed.
  Lemma vneg_invol (d : vec) : vneg (vneg d) = d.
  Proof. clear. unfold vneg. induction d; cbn; f_equal; auto. lia. Qed.
  Lemma vadd_cancel (d x : vec) : length x = length d -> vadd (vadd x (vneg d)) d = x.
  Proof. clear. unfold vadd, vneg. revert x. induction d as [|e d IH]; intros [|a x] H; try discriminate; auto. cbn. f_equal; [lia|]. apply IH. cbn in H. lia. Qed.
  Lemma opposite_dir j k : opposite S j k -> dir S j = vneg (dir S k).
  Proof. intros (d & H1 & H2). unfold dir. rewrite (nth_error_nth _ _ _ H1), (nth_error_nth _ _ _ H2). now rewrite vneg_invol. Qed.

  Lemma pulls_inj x j x' j' y k : fluid x -> fluid x' -> (j < length S)%nat -> (j' < length S)%nat ->
    pulls x j y k -> pulls x' j' y k -> x = x' /\ j = j'.
  Proof.
    intros Fx Fx' Hj Hj' P P'.
    pose proof (H_inside x Fx) as Ix. pose proof (H_inside x' Fx') as Ix'.
    pose proof (interior_length x Ix) as Lx. pose proof (interior_length x' Ix') as Lx'.
    pose proof (dir_length j Hj) as Ld. pose proof (dir_length j' Hj') as Ld'.
    assert (CC : forall a b i, fluid a -> fluid b -> (i < length S)%nat -> congruent g (upwind b i) (upwind a i) shape -> a = b).
    { intros a b i Fa Fb Hi C. pose proof (H_inside a Fa) as Ia. pose proof (H_inside b Fb) as Ib.
      apply congruent_upwind in C; try (rewrite dir_length by auto; now apply interior_length).
      eapply congruent_unique; eauto. apply congruent_refl. now apply interior_length. }
    (* a wall behind a cell that is streamed out of *)
    assert (BW : forall a b i i', fluid a -> fluid b -> (i < length S)%nat -> (i' < length S)%nat -> wall (upwind b i') -> opposite S i' i ->
      ((upwind a i = b) \/ (~ active (upwind a i) /\ ~ wall (upwind a i) /\ image (upwind a i) b)) -> False).
    { intros a b i i' Fa Fb Hi Hi' W O [E|(A & W' & Im)].
      - apply (H_wall a Fa). replace a with (upwind b i'); auto. unfold SparseSpec.upwind. rewrite (opposite_dir _ _ O), vneg_invol, <- E.
        unfold SparseSpec.upwind. apply vadd_cancel. rewrite dir_length by auto. apply interior_length. auto.
      - apply (H_periodic a i b Fa Hi A W' Im). unfold SparseSpec.upwind in W. rewrite (opposite_dir _ _ O), vneg_invol in W. exact W. }
    inversion P as [A Ey|k1 A W O Ey|z A W Im Az Ey]; inversion P' as [A' Ey'|k1' A' W' O' Ey'|z' A' W' Im' Az' Ey']; subst.
    - split; auto. eapply vec_upwind_inj; [| |symmetry; exact Ey']; congruence.
    - exfalso. eapply (BW x (upwind x k) k j'); eauto.
    - exfalso. destruct Im' as (_ & Iz & C). assert (x = x') by (eapply CC; eauto). subst. tauto.
    - exfalso. eapply (BW x' (upwind x' k) k j); eauto.
    - split; auto. destruct O as (d & O1 & O2), O' as (d' & O1' & O2'). apply (proj1 (NoDup_nth_error S)); [apply H_unit|auto|].
      rewrite O1, O1'. f_equal. rewrite <- (vneg_invol d), <- (vneg_invol d'). congruence.
    - exfalso. eapply (BW x' y k j); eauto.
    - exfalso. destruct Im as (_ & Iz & C). assert (x' = x) by (eapply CC; eauto). subst. tauto.
    - exfalso. eapply (BW x y k j'); eauto.
    - split; auto. destruct Im as (_ & Iz & C), Im' as (_ & Iz' & C'). eapply CC; eauto.
      eapply congruent_trans; [exact C'|]. now apply congruent_sym.
  Qed.
  Lemma pdf_index_inj m k m' k' : (m < N)%nat -> (m' < N)%nat -> pdf_index m k = pdf_index m' k' -> m = m' /\ k = k'.
  Proof. unfold SparseModel.pdf_index. intros H H' E. destruct (lt_eq_lt_dec k k') as [[L| ->]|L].
    - pose proof (Nat.mul_le_mono_r (Datatypes.S k) k' N L). lia.
    - split; lia.
    - pose proof (Nat.mul_le_mono_r (Datatypes.S k') k N L). lia.
  Qed.
  Lemma pulls_moving x j y k : (1 <= j < length S)%nat -> pulls x j y k -> (1 <= k < length S)%nat.
  Proof.
    intros Hj P. inversion P as [A Ey|k1 A W O Ey|z A W Im Az Ey]; subst; auto.
    assert (k < length S)%nat. { destruct O as (d & _ & O2). apply nth_error_Some. congruence. }
    split; auto. destruct k; [|lia]. exfalso. pose proof (dir_nonzero j Hj) as D. rewrite (opposite_dir _ _ O) in D.
    destruct H_unit as (_ & _ & H0). unfold dir in D. rewrite (nth_error_nth _ _ _ H0) in D.
    revert D. clear. induction (length shape); cbn; auto; discriminate.
  Qed.
  Lemma create_inj idx : create = Ok idx -> forall n j n' j', (n < length fluids)%nat -> (n' < length fluids)%nat ->
    (1 <= j < length S)%nat -> (1 <= j' < length S)%nat -> idx n (j - 1)%nat = idx n' (j' - 1)%nat -> n = n' /\ j = j'.
  Proof.
    intros E n j n' j' Hn Hn' Hj Hj' EQ.
    destruct (nth_error fluids n) as [x|] eqn:En; [|apply nth_error_None in En; lia].
    destruct (nth_error fluids n') as [x'|] eqn:En'; [|apply nth_error_None in En'; lia].
    destruct (create_spec idx E n j x En Hj) as (m & k & y & I1 & I2 & I3 & I4).
    destruct (create_spec idx E n' j' x' En' Hj') as (m' & k' & y' & J1 & J2 & J3 & J4).
    rewrite I1, J1 in EQ. apply pdf_index_inj in EQ; try (apply nth_error_Some; congruence). destruct EQ as [-> ->].
    assert (y = y') by congruence. subst y'.
    assert (F : fluid x) by (apply in_fluids; eapply nth_error_In; eauto).
    assert (F' : fluid x') by (apply in_fluids; eapply nth_error_In; eauto).
    destruct (pulls_inj x j x' j' y k') as [-> ->]; auto; try lia. split; auto.
    apply (proj1 (NoDup_nth_error fluids) fluids_nodup); [auto|congruence].
  Qed.

  (* ---------- slots read by the kernel ---------- *)
  Definition slot_read (idx : nat -> nat -> nat) (p : nat * nat) : nat :=
    if (snd p =? 0)%nat then pdf_index (fst p) 0 else idx (fst p) (snd p - 1)%nat.
  Lemma slots_perm idx : create = Ok idx -> (forall c, in_domain shape c -> ~ flagged other_mask c) ->
    Permutation (map (slot_read idx) (list_prod (seq 0 N) (seq 0 (length S)))) (seq 0 (N * length S)).
  Proof.
    intros E NB.
    assert (B0 : boundary_coordinates shape flags other_mask = []).
    { destruct (boundary_coordinates shape flags other_mask) as [|c l] eqn:B; auto. exfalso.
      assert (H : In c (boundary_coordinates shape flags other_mask)) by (rewrite B; now left).
      unfold boundary_coordinates in H. apply filter_In in H. rewrite all_cells_in, has_flag_iff in H. now apply (NB c). }
    assert (NF : N = length fluids). { unfold num_cells, SparseModel.coordinates. now rewrite B0, app_nil_r. }
    assert (Rng : forall n i, (n < N)%nat -> (i < length S)%nat -> exists m k, slot_read idx (n, i) = pdf_index m k /\ (m < N)%nat /\ (k < length S)%nat /\
       ((i = 0 /\ k = 0 /\ m = n) \/ (1 <= i /\ 1 <= k))%nat).
    { intros n i Hn Hi. unfold slot_read. cbn [fst snd]. destruct (Nat.eqb_spec i 0) as [->|Ni].
      - exists n, 0%nat. repeat split; auto.
      - destruct (nth_error fluids n) as [x|] eqn:En; [|apply nth_error_None in En; lia].
        destruct (create_spec idx E n i x En) as (m & k & y & I1 & I2 & I3 & I4); [lia|]. exists m, k. repeat split; auto.
        + apply nth_error_Some. congruence.
        + right. apply pulls_moving in I4; lia. }
    apply NoDup_Permutation_bis.
    - assert (ND : NoDup (list_prod (seq 0 N) (seq 0 (length S)))).
      { generalize (seq_NoDup N 0), (seq_NoDup (length S) 0). generalize (seq 0 N), (seq 0 (length S)). clear.
        intros l l' H H'. induction H as [|a l Ha H IH]; cbn; [constructor|]. apply NoDup_app_intro; auto.
        - apply FinFun.Injective_map_NoDup; auto. intros u v. congruence.
        - intros [u v] H1 H2. apply in_map_iff in H1. destruct H1 as (w & [= <- <-] & _). apply in_prod_iff in H2. tauto. }
      assert (Inj : forall p q, In p (list_prod (seq 0 N) (seq 0 (length S))) -> In q (list_prod (seq 0 N) (seq 0 (length S))) -> slot_read idx p = slot_read idx q -> p = q).
      { intros [n i] [n' i'] Hp Hq. apply in_prod_iff in Hp, Hq. rewrite !in_seq in Hp, Hq. intros EQ.
        destruct (Rng n i) as (m & k & R1 & R2 & R3 & R4); [lia..|]. destruct (Rng n' i') as (m' & k' & R1' & R2' & R3' & R4'); [lia..|].
        destruct R4 as [(-> & -> & ->)|[R4 R5]], R4' as [(-> & -> & ->)|[R4' R5']].
        - rewrite R1, R1' in EQ. apply pdf_index_inj in EQ; auto. f_equal. tauto.
        - exfalso. rewrite R1, R1' in EQ. apply pdf_index_inj in EQ; auto. lia.
        - exfalso. rewrite R1, R1' in EQ. apply pdf_index_inj in EQ; auto. lia.
        - unfold slot_read in EQ. cbn [fst snd] in EQ. destruct (Nat.eqb_spec i 0); [lia|]. destruct (Nat.eqb_spec i' 0); [lia|].
          apply (create_inj idx E) in EQ; try lia. f_equal; tauto. }
      revert ND Inj. generalize (list_prod (seq 0 N) (seq 0 (length S))). generalize (slot_read idx). clear.
      intros f l ND Inj. induction ND as [|a l Ha ND IH]; cbn; constructor.
      + intros Hin. apply in_map_iff in Hin. destruct Hin as (b & Hb & Hb'). apply Inj in Hb; [subst; tauto|now right|now left].
      + apply IH. intros p q Hp Hq. apply Inj; now right.
    - rewrite map_length, prod_length, !seq_length. lia.
    - intros s Hs. apply in_map_iff in Hs. destruct Hs as ([n i] & <- & Hp). apply in_prod_iff in Hp. rewrite !in_seq in Hp.
      destruct (Rng n i) as (m & k & -> & R2 & R3 & _); [lia..|]. apply in_seq. unfold SparseModel.pdf_index. nia.
  Qed.
End P.
