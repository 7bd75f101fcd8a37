From Coq Require Import List ZArith Bool Arith Lia Permutation Reals.
From Verif Require Import StencilModel StencilProofs StreamSpec RealLib SparseModel SparseSpec SparseProofs SparseProofs2.
Import ListNotations.
Local Open Scope Z_scope.

Section P.
  Variables (S : stencil) (shape : list nat) (flags : coord -> Z) (fluid_flag no_slip_flag other_mask : Z) (g : nat).
  Notation coordinates := (coordinates shape flags fluid_flag other_mask).
  Notation fluids := (fluid_coordinates shape flags fluid_flag).
  Notation N := (num_cells shape flags fluid_flag other_mask).
  Notation create := (create_index_array S shape flags fluid_flag no_slip_flag other_mask g).
  Notation pulls := (pulls S shape flags fluid_flag no_slip_flag other_mask g).
  Notation access := (list_access S shape flags fluid_flag other_mask).
  Notation absolute := (absolute_access S shape flags fluid_flag other_mask).
  Notation pre := (pre_collision S shape flags fluid_flag other_mask).
  Hypothesis G : sparse_geometry S shape flags fluid_flag other_mask g.

  Lemma soa_absolute m k : absolute SoA (pdf_index shape flags fluid_flag other_mask m k) = access SoA m k.
  Proof. unfold absolute_access, list_access, pdf_index. cbn [list_strides fst snd]. lia. Qed.
  Lemma vadd_zero (x : vec) : vadd x (vneg (repeat 0 (length x))) = x.
  Proof. clear. unfold vadd, vneg. induction x; cbn; f_equal; auto. lia. Qed.
  Lemma pull_rest x : fluid shape flags fluid_flag x -> pulls x 0 x 0.
  Proof.
    intros F. destruct G as (U & _ & _ & I & _). pose proof (interior_length shape g x (I x F)) as L.
    assert (E : upwind S x 0 = x).
    { unfold upwind. destruct U as (_ & _ & U0). unfold dir. rewrite (nth_error_nth _ _ _ U0), <- L. apply vadd_zero. }
    rewrite <- E at 2. apply pull_neighbour. rewrite E. left. apply F.
  Qed.
  Lemma pre_values {V} (idx : nat -> nat -> nat) (src : nat -> V) (f : coord -> nat -> V) : create = Ok idx ->
    (forall m k y, nth_error coordinates m = Some y -> (k < length S)%nat -> src (access SoA m k) = f y k) ->
    forall n x, nth_error fluids n = Some x -> forall j, (j < length S)%nat ->
    exists y k, pulls x j y k /\ nth_error (pre SoA idx src n) j = Some (f y k).
  Proof.
    intros E Hm n x Hn j Hj. destruct G as (U & Sy & Hg & I & D).
    unfold pre_collision. rewrite nth_error_map.
    assert (Hs : nth_error (seq 0 (length S)) j = Some j).
    { rewrite (nth_error_nth' (seq 0 (length S)) 0%nat) by (rewrite seq_length; auto). now rewrite seq_nth by auto. }
    rewrite Hs. cbn [option_map].
    pose proof (fluids_own shape flags fluid_flag other_mask n x Hn) as Ho.
    assert (F : fluid shape flags fluid_flag x) by (apply in_fluids; eapply nth_error_In; eauto).
    destruct (Nat.eqb_spec j 0) as [->|Nj].
    - exists x, 0%nat. split; [now apply pull_rest|]. f_equal. now apply Hm.
    - destruct (create_spec S shape flags fluid_flag no_slip_flag other_mask g U Hg I idx E n j x Hn) as (m & k & y & I1 & I2 & I3 & I4); [lia|].
      exists y, k. split; auto. f_equal. rewrite I1, soa_absolute. auto.
  Qed.
  Lemma flat_map_prod {A B C} (f : A * B -> C) (l : list A) (m : list B) :
    flat_map (fun a => map (fun b => f (a, b)) m) l = map f (list_prod l m).
  Proof. clear. induction l as [|a l IH]; cbn; auto. rewrite map_app, map_map, IH. reflexivity. Qed.
  Lemma pre_perm {V} (idx : nat -> nat -> nat) (src : nat -> V) : create = Ok idx ->
    two_sided_walls S shape flags fluid_flag no_slip_flag other_mask g -> (forall c, in_domain shape c -> ~ flagged flags other_mask c) ->
    Permutation (flat_map (pre SoA idx src) (seq 0 N)) (map src (seq 0 (N * length S))).
  Proof.
    intros E (W & P) NB. destruct G as (U & Sy & Hg & I & D).
    rewrite <- (Permutation_map src (slots_perm S shape flags fluid_flag no_slip_flag other_mask g U Hg I W P idx E NB)).
    rewrite map_map. rewrite <- flat_map_prod. apply Permutation_refl'. 
    generalize (seq 0 N). intros l. induction l as [|n l IH]; auto. cbn [flat_map]. rewrite IH. f_equal.
    unfold pre_collision. apply map_ext. intros i. unfold slot_read. cbn [fst snd].
    destruct (i =? 0)%nat; f_equal.
    - unfold list_access, pdf_index. cbn. lia.
    - unfold absolute_access. cbn. lia.
  Qed.
  Lemma aos_beyond m k : (1 <= k)%nat -> (length S * N <= absolute AoS (pdf_index shape flags fluid_flag other_mask m k))%nat.
  Proof. clear. intros H. unfold absolute_access, pdf_index. cbn [list_strides fst]. nia. Qed.

  Lemma mapM_Err {A B} (h : A -> res B) l e : mapM h l = Err e -> exists a, In a l /\ h a = Err e.
  Proof.
    clear. induction l as [|a l IH]; cbn [mapM]; [discriminate|]. destruct (h a) eqn:E; cbn [rbind].
    - destruct (mapM h l); cbn [rbind]; [discriminate|]. intros [= <-]. destruct IH as (a' & H1 & H2); auto. exists a'. split; auto. now right.
    - intros [= <-]. exists a. split; auto. now left.
  Qed.
  Lemma create_errors e : create = Err e -> exists x j, fluid shape flags fluid_flag x /\ (1 <= j < length S)%nat /\
    ~ active flags fluid_flag other_mask (upwind S x j) /\ ~ wall flags no_slip_flag (upwind S x j) /\
    ((e = ValueError /\ interior shape g (upwind S x j)) \/
     (e = AssertionError /\ exists z, image shape g (upwind S x j) z /\ ~ active flags fluid_flag other_mask z)).
  Proof.
    intros E. pose proof G as (U & Sy & Hg & I & D).
    pose proof (coordinates_nodup shape flags fluid_flag other_mask D) as ND.
    assert (NT : ~ (forall x j, fluid shape flags fluid_flag x -> (1 <= j < length S)%nat -> exists y k, pulls x j y k)).
    { intros HT. destruct (create_total S shape flags fluid_flag no_slip_flag other_mask g U Hg I ND HT) as [idx Hi]. congruence. }
    unfold create_index_array in E. destruct (mapM _ (combine (seq 0 (length S)) S)) as [rows|e'] eqn:M; cbn [rbind] in E.
    { (* the reshape cannot fail *)
      exfalso. apply NT. intros x j Fx Hj. pose proof Fx as Fx'. apply in_fluids in Fx'. destruct (In_nth_error _ _ Fx') as [n Hn].
      destruct (nth_error S j) as [d|] eqn:Ed; [|apply nth_error_None in Ed; lia].
      destruct (mapM_nth _ _ _ j (j, d) M (nth_enum_ex _ _ _ Ed)) as (b & Hb & _).
      rewrite (rowj S shape flags fluid_flag no_slip_flag other_mask g U Hg j d Ed) in Hb by lia.
      destruct (mapM_nth _ _ _ n (n, x) Hb (nth_enum_ex _ _ _ Hn)) as (v & Hv & _). cbn [fst snd] in Hv.
      destruct (pull_index_spec S shape flags fluid_flag no_slip_flag other_mask g U Hg x j n v (I x Fx)) as (m & k & y & _ & _ & _ & P); eauto;
        [now apply fluids_own|lia]. }
    injection E as ->. apply mapM_Err in M. destruct M as ([j d] & Hin & He).
    destruct (In_nth_error _ _ Hin) as [j' Hj']. assert (Lj : (j' < length S)%nat).
    { assert (H : (j' < length (combine (seq 0 (length S)) S))%nat) by (apply nth_error_Some; congruence). rewrite combine_length, seq_length in H. lia. }
    apply nth_enum in Hj'; auto. cbn [fst snd] in Hj'. destruct Hj' as [-> Hd]. cbn [Nat.add] in *.
    destruct j' as [|j']; [rewrite (row0 S shape flags fluid_flag no_slip_flag other_mask g U d Hd) in He; discriminate|].
    rewrite (rowj S shape flags fluid_flag no_slip_flag other_mask g U Hg _ d Hd) in He by lia. set (j := Datatypes.S j') in *.
    apply mapM_Err in He. destruct He as ([n x] & Hx & He). destruct (In_nth_error _ _ Hx) as [n' Hn'].
    assert (Ln : (n' < length fluids)%nat).
    { assert (H : (n' < length (combine (seq 0 (length fluids)) fluids))%nat) by (apply nth_error_Some; congruence). rewrite combine_length, seq_length in H. lia. }
    apply nth_enum in Hn'; auto. cbn [fst snd] in Hn', He. destruct Hn' as [_ Hf].
    assert (F : fluid shape flags fluid_flag x) by (apply in_fluids; eapply nth_error_In; eauto).
    exists x, j. split; auto. split; [unfold j in *; lia|].
    assert (NP : forall y k, ~ pulls x j y k).
    { intros y k P. destruct (pull_index_total S shape flags fluid_flag no_slip_flag other_mask g U Hg x j n y k ND (I x F) Lj P) as [i Hi]. congruence. }
    assert (NA : ~ active flags fluid_flag other_mask (upwind S x j)) by (intros A; eapply NP; now apply pull_neighbour).
    assert (NW : ~ wall flags no_slip_flag (upwind S x j)).
    { intros W. destruct (In_nth_error _ _ (Sy (dir S j) (nth_In S [] Lj))) as [k Hk].
      refine (NP _ _ (pull_bounce _ _ _ _ _ _ _ _ _ k NA W _)). exists (dir S j). split; auto. exact (nth_error_nth' S [] Lj). }
    split; auto. split; auto.
    revert He. unfold pull_index. fold (upwind S x j).
    rewrite (proj2 (in_array_iff shape (upwind S x j)) (upwind_in_domain S shape g U Hg x j (I x F) Lj)). cbn [negb].
    destruct (has_flag flags (Z.lor other_mask fluid_flag) (upwind S x j)) eqn:A; [apply has_active in A; tauto|].
    destruct (has_flag flags no_slip_flag (upwind S x j)) eqn:W; [apply has_flag_iff in W; tauto|].
    destruct (wrap shape g (upwind S x j)) as [b z] eqn:Ew. apply wrap_spec in Ew; [|apply upwind_range; auto].
    destruct Ew as (Iz & Cz & Bz & _). destruct b.
    - assert (Im : image shape g (upwind S x j) z). { split; auto. intros HI. apply Bz in HI. discriminate. }
      rewrite (proj2 (in_array_iff shape z) (interior_in_domain shape g z Iz)). cbn [negb].
      destruct (has_flag flags (Z.lor other_mask fluid_flag) z) eqn:Az.
      + apply has_active in Az. exfalso. exact (NP _ _ (pull_periodic _ _ _ _ _ _ _ _ _ z NA NW Im Az)).
      + intros [= <-]. right. split; auto. exists z. split; auto. rewrite <- has_active. congruence.
    - intros [= <-]. left. split; auto. now apply Bz.
  Qed.
  Lemma bulk_listed c i : cell_idx shape flags fluid_flag other_mask c = Ok i -> cell_idx_bulk shape flags fluid_flag other_mask c = Ok i.
  Proof.
    clear. unfold cell_idx, cell_idx_bulk. destruct (Nat.eqb _ _); cbn [negb]; [auto|discriminate].
  Qed.
End P.

(* executable checks of the geometry hypotheses, for the examples *)
Definition interior_b (shape : list nat) (g : nat) (c : coord) : bool :=
  (length c =? length shape)%nat && forallb (fun p => (Z.of_nat g <=? fst p) && (fst p <? Z.of_nat (snd p) - Z.of_nat g)) (combine c shape).
Lemma interior_b_true shape g c : interior_b shape g c = true -> interior shape g c.
Proof.
  unfold interior_b, interior. rewrite andb_true_iff, Nat.eqb_eq. revert c.
  induction shape as [|n ns IH]; intros [|x c]; cbn; intros [H1 H2]; try discriminate; [constructor|].
  apply andb_true_iff in H2. destruct H2 as [H2 H3]. constructor; [lia|]. apply IH. split; auto; lia.
Qed.

Section Check.
  Variables (S : stencil) (shape : list nat) (flags : coord -> Z) (fluid_flag no_slip_flag other_mask : Z) (g : nat).
  Notation fluids := (fluid_coordinates shape flags fluid_flag).
  Lemma geometry_check : unit_stencil (length shape) S -> forallb (fun d => existsb (vec_eqb (vneg d)) S) S = true -> (1 <= g)%nat ->
    forallb (interior_b shape g) fluids = true ->
    forallb (fun c => negb (has_flag flags fluid_flag c && has_flag flags other_mask c)) (all_cells shape) = true ->
    sparse_geometry S shape flags fluid_flag other_mask g.
  Proof.
    intros U Sy Hg I D. rewrite forallb_forall in Sy, I, D. repeat split; try apply U; auto.
    - intros d Hd. apply Sy in Hd. apply existsb_exists in Hd. destruct Hd as (e & He & E). unfold vec_eqb in E. destruct (vec_eq_dec (vneg d) e); [now subst|discriminate].
    - intros c Hc. apply interior_b_true, I, in_fluids, Hc.
    - intros c Hc [F O]. apply all_cells_in, D in Hc. apply has_flag_iff in F, O. rewrite F, O in Hc. discriminate.
  Qed.
  Lemma walls_check : sparse_geometry S shape flags fluid_flag other_mask g ->
    forallb (fun c => negb (has_flag flags no_slip_flag c)) fluids = true ->
    forallb (fun x => forallb (fun j => let y := upwind S x j in
      has_flag flags (Z.lor other_mask fluid_flag) y || has_flag flags no_slip_flag y || negb (fst (wrap shape g y)) ||
      negb (has_flag flags no_slip_flag (vadd (snd (wrap shape g y)) (dir S j)))) (seq 0 (length S))) fluids = true ->
    two_sided_walls S shape flags fluid_flag no_slip_flag other_mask g.
  Proof.
    intros G W P. rewrite forallb_forall in W, P. destruct G as (U & Sy & Hg & I & D). split.
    - intros c Hc HW. apply in_fluids in Hc. apply W in Hc. unfold wall in HW. apply has_flag_iff in HW. rewrite HW in Hc. discriminate.
    - intros x j z Fx Hj A NW Im HW. pose proof (I x Fx) as Ix. apply in_fluids in Fx. apply P in Fx. rewrite forallb_forall in Fx.
      assert (Hin : In j (seq 0 (length S))) by (apply in_seq; lia). apply Fx in Hin. cbv zeta in Hin.
      destruct (wrap shape g (upwind S x j)) as [b z'] eqn:E. pose proof E as E'. apply wrap_spec in E'; [|now apply upwind_range].
      destruct E' as (Iz & Cz & Bz & _). destruct Im as (NI & Iz0 & Cz0).
      assert (z' = z) by (eapply congruent_unique; eauto). subst z'. cbn [fst snd] in Hin.
      rewrite !orb_true_iff, has_active, has_flag_iff, negb_true_iff in Hin. apply has_flag_iff in HW. rewrite HW in Hin. cbn in Hin.
      destruct Hin as [[[Hin|Hin]|Hin]|Hin]; try tauto; discriminate.
  Qed.
End Check.
