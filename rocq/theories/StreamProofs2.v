(* Corollaries: torus, infinite lattice, pattern independence, simultaneous update. *)
From Coq Require Import String List ZArith Bool Arith Lia Permutation.
From Verif Require Import StencilModel StencilProofs AccessModel StreamModel StreamSpec AccessProofs
  StreamProofs RaceModel RaceProofs GridModel GridProofs.
Import ListNotations.

Lemma post_stream_collide L V v0 S C B f0 n x :
  post v0 S (fun _ : cell L => true) C B f0 n x = stream_collide v0 S C f0 n x :> list V.
Proof. reflexivity. Qed.

Theorem torus_correct V (v0 : V) N S p t xs0 xs C B f0 m_src m_tmp n x :
  supported p (length N) S t ->
  Permutation xs0 (torus_cells N) ->
  (forall n, Permutation (xs n) (torus_cells N)) ->
  (forall n x f, length f = length S -> length (C n x f) = length S) ->
  (forall x, length (f0 x) = length S) ->
  simulate (torus N) V p t S xs0 xs (fun _ => []) C B f0 m_src m_tmp n x
  = Ok (stream_collide v0 S C f0 n x).
Proof.
  intros HP H0 Hxs HC Hf0.
  assert (HD : length N = ldim (torus N)) by (simpl; unfold torus_shape; now rewrite map_length).
  rewrite HD in HP.
  rewrite (simulate_correct (torus N) V v0 S p (fun _ => true)); try assumption; try reflexivity.
  - intros y _. eapply Permutation_in; [apply Permutation_sym, H0|]. apply torus_cells_all.
  - intros k. eapply Permutation_NoDup; [apply Permutation_sym, Hxs|]. apply torus_cells_NoDup.
  - intros k y. split; [reflexivity|]. intros _.
    eapply Permutation_in; [apply Permutation_sym, Hxs|]. apply torus_cells_all.
  - intros k l. split; [intros []|]. intros (_ & _ & H). discriminate.
  - intros k y i a (_ & _ & H). discriminate.
Qed.

Lemma simultaneous_holds L V S p t C (P : cell L -> Prop) s s' v0 :
  supported p (ldim L) S t ->
  simultaneous_update L V p t S P C s s' ->
  forall x i, P x -> i < length S ->
    at_loc L V (src s') (loc x (waddr (ldim L) S p t i)) =
    nth i (C x (map (fun j => at_loc L V (src s) (loc x (raddr (ldim L) S p t j))) (seq 0 (length S)))) v0.
Proof.
  intros HP (rs & ws & Hr & Hw & H1 & _) x i Hx Hi.
  rewrite (reads_of_seq p _ S t HP) in Hr. rewrite (writes_of_seq p _ S t HP) in Hw.
  injection Hr as <-. injection Hw as <-.
  assert (Hn : nth_error (map (waddr (ldim L) S p t) (seq 0 (length S))) i = Some (waddr (ldim L) S p t i))
    by (apply nth_error_seqmap; exact Hi).
  specialize (H1 x i _ Hx Hn). rewrite load_eq in H1.
  apply nth_error_nth with (d := v0) in H1. symmetry. exact H1.
Qed.

(* any lattice, in particular the infinite one: a history of states produced by simultaneous updates *)
Theorem lattice_correct L V (v0 : V) S p t C f0 (hist : nat -> state L V) :
  supported p (ldim L) S t ->
  (forall n x f, length f = length S -> length (C n x f) = length S) ->
  (forall x, length (f0 x) = length S) ->
  (forall x, getter L V p t S false (src (hist 0)) x = Ok (f0 x)) ->
  (forall n, simultaneous_update L V p (ts_after t (Datatypes.S n)) S (fun _ => True) (C n)
               (hist n) (hist (Datatypes.S n))) ->
  forall n x, getter L V p (ts_after t n) S false (src (hist n)) x = Ok (stream_collide v0 S C f0 n x).
Proof.
  intros HP HC Hf0 H0 Hst.
  assert (HP' : forall n, supported p (ldim L) S (ts_after t n)) by (intros; apply supported_after; exact HP).
  assert (Hg : forall n m x, getter L V p (ts_after t n) S false m x =
            Ok (map (fun i => at_loc L V m (loc x (waddr (ldim L) S p (ts_after t n) i))) (seq 0 (length S)))).
  { intros n m x. unfold getter, get_field_accesses.
    pose proof (writes_of_seq p _ S _ (HP' n)) as HW. unfold writes_of in HW.
    destruct (get_accessor p (ts_after t n)) as [a|]; [|discriminate]. simpl in *. rewrite HW. simpl.
    rewrite load_eq_w. reflexivity. }
  assert (Hlen : forall n x, length (stream_collide v0 S C f0 n x) = length S).
  { intros [|n] x; simpl; [apply Hf0|]. apply HC. now rewrite map_length, seq_length. }
  induction n as [|n IH]; intros x; [apply H0|].
  rewrite (Hg (Datatypes.S n)). f_equal.
  rewrite <- (map_nth_seq v0 (stream_collide v0 S C f0 (Datatypes.S n) x) (length S)) by apply Hlen.
  apply map_ext_in. intros i Hi. apply in_seq in Hi.
  rewrite (simultaneous_holds L V S p _ (C n) (fun _ => True) _ _ v0 (HP' (Datatypes.S n)) (Hst n))
    by (try exact I; lia).
  cbn [stream_collide]. f_equal. f_equal. apply map_ext_in. intros j Hj. apply in_seq in Hj.
  cbn [ts_after]. rewrite (rloc_next L S p _ x j (HP' n)) by lia.
  specialize (IH (shift x (vneg (nth j S [])))). rewrite Hg in IH. injection IH as IH.
  rewrite <- IH.
  rewrite (nth_indep _ v0 ((fun i => at_loc L V (src (hist n)) (loc (shift x (vneg (nth j S []))) (waddr (ldim L) S p (ts_after t n) i))) 0))
    by (rewrite map_length, seq_length; lia).
  rewrite (map_nth (fun i => at_loc L V (src (hist n)) (loc (shift x (vneg (nth j S []))) (waddr (ldim L) S p (ts_after t n) i)))).
  rewrite seq_nth by lia. reflexivity.
Qed.

(* the sequential in-place / two-field kernel is the simultaneous update *)
Theorem update_simultaneous L V S p t C xs s :
  supported p (ldim L) S t -> NoDup xs ->
  (forall x f, length f = length S -> length (C x f) = length S) ->
  exists s', update L V p t S xs C s = Ok s' /\
    simultaneous_update L V p t S (fun x => In x xs) C s s'.
Proof.
  intros HP Hnd HC.
  assert (Hu : exists s', update L V p t S xs C s = Ok s' /\ tmp s' = if is_inplace p then tmp s else src s).
  { unfold update. 
    pose proof (reads_of_seq p _ S t HP) as HR. pose proof (writes_of_seq p _ S t HP) as HW.
    unfold reads_of, writes_of in *.
    destruct (get_accessor p t) as [a|] eqn:Ea; [|discriminate]. simpl in *. rewrite HR, HW. simpl.
    destruct (is_inplace p); eexists; split; reflexivity. }
  destruct Hu as (s' & Hu & Htmp). exists s'. split; [exact Hu|].
  do 2 eexists. split; [apply reads_of_seq; exact HP|]. split; [apply writes_of_seq; exact HP|].
  split; [|split].
  - intros x i a Hx Ha.
    assert (Hi : i < length S).
    { assert (nth_error (map (waddr (ldim L) S p t) (seq 0 (length S))) i <> None) as Hne by congruence.
      apply nth_error_Some in Hne. now rewrite map_length, seq_length in Hne. }
    rewrite nth_error_seqmap in Ha by exact Hi. injection Ha as <-.
    set (v0 := src s x 0).
    destruct (update_spec L V v0 S p t C xs s HP Hnd HC) as (s2 & Hu2 & Hw & _).
    rewrite Hu in Hu2. injection Hu2 as <-. specialize (Hw x i Hx Hi).
    unfold at_loc, loc in Hw. unfold slot. rewrite load_seq. simpl in *. rewrite Hw.
    apply nth_error_nth'. rewrite HC; [exact Hi|]. now rewrite map_length, seq_length.
  - intros c k Hno. set (v0 := src s c k).
    destruct (update_spec L V v0 S p t C xs s HP Hnd HC) as (s2 & Hu2 & _ & Hin & Htw).
    rewrite Hu in Hu2. injection Hu2 as <-.
    assert (Hno' : forall (x : cell L) i, In x xs -> i < length S -> loc x (waddr (ldim L) S p t i) <> (c, k)).
    { intros x i Hx Hi. apply Hno; [exact Hx|]. apply in_map, in_seq. lia. }
    destruct (is_inplace p).
    + apply (proj2 (Hin eq_refl) (c, k)). exact Hno'.
    + apply (proj2 (Htw eq_refl) (c, k)). exact Hno'.
  - intros c k. rewrite Htmp. reflexivity.
Qed.

Theorem exclusive_slots L S p t rs ws :
  supported p (ldim L) S t -> is_inplace p = true ->
  reads_of p t S = Ok rs -> writes_of p t S = Ok ws ->
  (forall i a, nth_error rs i = Some a -> exists j b, nth_error ws j = Some b /\
     forall x : cell L, slot x a = slot x b) /\
  (forall (x y : cell L) a b, In a rs -> In b ws -> slot x a = slot y b -> x = y) /\
  (forall (x y : cell L) i j a b, nth_error ws i = Some a -> nth_error ws j = Some b ->
     slot x a = slot y b -> x = y /\ i = j).
Proof.
  intros HP Hip Hr Hw.
  rewrite (reads_of_seq p _ S t HP) in Hr. rewrite (writes_of_seq p _ S t HP) in Hw.
  injection Hr as <-. injection Hw as <-.
  assert (HN : forall (g : nat -> access) i a, nth_error (map g (seq 0 (length S))) i = Some a ->
             i < length S /\ a = g i).
  { intros g i a Ha.
    assert (Hi : i < length S).
    { assert (nth_error (map g (seq 0 (length S))) i <> None) as Hne by congruence.
      apply nth_error_Some in Hne. now rewrite map_length, seq_length in Hne. }
    split; [exact Hi|]. rewrite nth_error_seqmap in Ha by exact Hi. congruence. }
  split; [|split].
  - intros i a Ha. apply HN in Ha as [Hi ->].
    assert (Ho : opp S i < length S) by (eapply opp_lt; [apply HP|exact Hi]).
    exists (opp S i). eexists. split; [apply nth_error_seqmap; exact Ho|].
    intros x. apply (inplace_loc' L S p t x i HP Hip Hi).
  - intros x y a b Ha Hb E. apply in_map_iff in Ha as (i & <- & Hi). apply in_map_iff in Hb as (j & <- & Hj).
    apply in_seq in Hi, Hj.
    change (loc x (raddr (ldim L) S p t i) = loc y (waddr (ldim L) S p t j)) in E.
    rewrite inplace_loc' in E by (auto; lia). apply wloc_inj in E; [tauto|exact HP| |lia].
    eapply opp_lt; [apply HP|lia].
  - intros x y i j a b Ha Hb E. apply HN in Ha as [Hi ->]. apply HN in Hb as [Hj ->].
    apply (wloc_inj L S p t) in E; auto.
Qed.

(* ----- the boundary kernel on its own ----- *)
Section BoundaryAlone.
  Context (L : lattice) (V : Type) (v0 : V) (S : stencil) (p : pattern) (t : timestep).
  Context (fluid : cell L -> bool) (B : cell L -> nat -> brule V).
  Hypothesis HP : supported p (ldim L) S t.
  Hypothesis HB : forall x i a, is_link S fluid (x, i) -> In a (b_reads (B x i)) -> readable S fluid x a.

  (* populations as seen by the getter *)
  Definition pops (m : mem L V) (x : cell L) : list V :=
    map (fun i => at_loc L V m (loc x (waddr (ldim L) S p t i))) (seq 0 (length S)).

  Lemma getter_pops m x : getter L V p t S false m x = Ok (pops m x).
  Proof.
    unfold getter, get_field_accesses.
    pose proof (writes_of_seq p _ S _ HP) as HW. unfold writes_of in HW.
    destruct (get_accessor p t) as [a|]; [|discriminate]. simpl in *. rewrite HW. simpl.
    rewrite load_eq_w. reflexivity.
  Qed.

  Lemma nth_pops m x i : i < length S ->
    nth i (pops m x) v0 = at_loc L V m (loc x (waddr (ldim L) S p t i)).
  Proof.
    intros Hi. unfold pops.
    set (g := fun i => at_loc L V m (loc x (waddr (ldim L) S p t i))).
    rewrite (nth_indep _ v0 (g 0)) by (rewrite map_length, seq_length; lia).
    rewrite map_nth, seq_nth by lia. reflexivity.
  Qed.

  Lemma boundary_alone links s : (forall l, In l links -> is_link S fluid l) ->
    exists s', boundary L V p t S B links s = Ok s' /\ tmp s' = tmp s /\
      (forall x i, In (x, i) links ->
         at_loc L V (src s') (loc x (raddr (ldim L) S p (ts_next t) (opp S i))) =
         b_fun (B x i) (map (pacc_value L V v0 S (pops (src s)) x) (b_reads (B x i)))) /\
      (forall x, fluid x = true -> getter L V p t S false (src s') x = getter L V p t S false (src s) x) /\
      (forall l, (forall x i, In (x, i) links -> loc x (raddr (ldim L) S p (ts_next t) (opp S i)) <> l) ->
         at_loc L V (src s') l = at_loc L V (src s) l).
  Proof.
    intros Hl.
    destruct (links_fold L V v0 S p t HP fluid B (pops (src s)) HB links (src s)) as (m' & Hf & Hhp & Hv & Ho).
    - intros x i Hx Hi. rewrite nth_pops by exact Hi. reflexivity.
    - exact Hl.
    - exists {| src := m'; tmp := tmp s |}. split.
      { unfold boundary. rewrite (between_seq L S p t HP). cbn [rbind fst snd]. rewrite Hf. reflexivity. }
      split; [reflexivity|]. cbn [src]. split; [exact Hv|]. split; [|exact Ho].
      intros x Hx. rewrite !getter_pops. f_equal. unfold pops at 1. apply map_ext_in.
      intros i Hi. apply in_seq in Hi. rewrite Hhp by (try exact Hx; lia).
      rewrite nth_pops by lia. reflexivity.
  Qed.

  Lemma in_slot_opp (x : cell L) i k ins a : i < length S ->
    opposite S i k -> reads_of p (ts_next t) S = Ok ins -> nth_error ins k = Some a ->
    slot x a = loc x (raddr (ldim L) S p (ts_next t) (opp S i)) /\ k = opp S i.
  Proof.
    intros Hi (d & Hd & Hk) Hr Ha.
    assert (E : k = opp S i).
    { eapply NoDup_nth_error_inj; [apply (proj1 HP)|exact Hk|].
      destruct (opp_spec (ldim L) S (proj1 HP) i Hi) as (E1 & E2 & E3).
      apply index_of_Some in E1. rewrite (dir_nth_error S i Hi) in Hd. injection Hd as <-. exact E1. }
    split; [|exact E]. subst k.
    rewrite (reads_of_seq p _ S _ (supported_next p _ S t HP)) in Hr. injection Hr as <-.
    rewrite nth_error_seqmap in Ha by (eapply opp_lt; [apply HP|exact Hi]). injection Ha as <-. reflexivity.
  Qed.

  Theorem boundary_kernel_spec links s ins : (forall l, In l links -> is_link S fluid l) ->
    reads_of p (ts_next t) S = Ok ins ->
    exists s', boundary L V p t S B links s = Ok s' /\ tmp s' = tmp s /\
      (forall x i k a, In (x, i) links -> opposite S i k -> nth_error ins k = Some a ->
         exists f, (forall y, getter L V p t S false (src s) y = Ok (f y)) /\
         src s' (fst (slot x a)) (snd (slot x a)) =
         b_fun (B x i) (map (pacc_value L V v0 S f x) (b_reads (B x i)))) /\
      (forall x, fluid x = true -> getter L V p t S false (src s') x = getter L V p t S false (src s) x) /\
      (forall c q, (forall x i k a, In (x, i) links -> opposite S i k -> nth_error ins k = Some a ->
                      slot x a <> (c, q)) ->
         src s' c q = src s c q).
  Proof.
    intros Hl Hins. destruct (boundary_alone links s Hl) as (s' & Hb & Ht & Hv & Hg & Ho).
    exists s'. split; [exact Hb|]. split; [exact Ht|]. split; [|split; [exact Hg|]].
    - intros x i k a Hin Hop Ha.
      assert (Hi : i < length S) by (apply (Hl _ Hin)).
      destruct (in_slot_opp x i k ins a Hi Hop Hins Ha) as [E _]. rewrite E.
      exists (pops (src s)). split; [intros y; apply getter_pops|]. apply (Hv x i Hin).
    - intros c q Hno. apply (Ho (c, q)). intros x i Hin.
      assert (Hi : i < length S) by (apply (Hl _ Hin)).
      destruct (opp_spec (ldim L) S (proj1 HP) i Hi) as (E1 & E2 & E3).
      rewrite (reads_of_seq p _ S _ (supported_next p _ S t HP)) in Hins. injection Hins as <-.
      apply (Hno x i (opp S i) _ Hin).
      + exists (dir S i). split; [apply dir_nth_error; exact Hi|]. apply index_of_Some. exact E1.
      + apply nth_error_seqmap. exact E2.
  Qed.

  Theorem boundary_order_independent links links' s s1 : (forall l, In l links -> is_link S fluid l) ->
    (forall l, In l links' <-> In l links) ->
    boundary L V p t S B links s = Ok s1 ->
    exists s2, boundary L V p t S B links' s = Ok s2 /\ tmp s2 = tmp s1 /\ forall c q, src s2 c q = src s1 c q.
  Proof.
    intros Hl Hiff Hb.
    destruct (boundary_alone links s Hl) as (s1' & Hb1 & Ht1 & Hv1 & _ & Ho1).
    rewrite Hb in Hb1. injection Hb1 as <-.
    destruct (boundary_alone links' s) as (s2 & Hb2 & Ht2 & Hv2 & _ & Ho2).
    { intros l H. apply Hl, Hiff, H. }
    exists s2. split; [exact Hb2|]. split; [congruence|]. intros c q.
    set (g := fun l : link L => loc (fst l) (raddr (ldim L) S p (ts_next t) (opp S (snd l)))).
    destruct (in_dec (link_eq_dec L) (c, q) (map g links)) as [Hin|Hnin].
    - apply in_map_iff in Hin as ((x & i) & E & Hin).
      specialize (Hv1 x i Hin). specialize (Hv2 x i (proj2 (Hiff _) Hin)).
      unfold g in E; simpl in E. rewrite E in *. unfold at_loc in *; simpl in *. congruence.
    - transitivity (src s c q).
      + apply (Ho2 (c, q)). intros x i Hin E. apply Hnin. rewrite <- E.
        apply (in_map g) with (x := (x, i)). apply Hiff; exact Hin.
      + symmetry. apply (Ho1 (c, q)). intros x i Hin E. apply Hnin. rewrite <- E.
        apply (in_map g) with (x := (x, i)). exact Hin.
  Qed.
End BoundaryAlone.

(* ----- concrete link lists on a torus (used to instantiate the theorems) ----- *)
Definition torus_fluid_cells N (fluid : cell (torus N) -> bool) : list (cell (torus N)) :=
  filter fluid (torus_cells N).
Definition torus_links N (S : stencil) (fluid : cell (torus N) -> bool) : list (link (torus N)) :=
  filter (fun l : link (torus N) => fluid (fst l) && negb (fluid (shift (fst l) (dir S (snd l)))))
    (list_prod (torus_cells N) (seq 0 (length S))).

Lemma torus_fluid_cells_spec N fluid : NoDup (torus_fluid_cells N fluid) /\
  forall x, In x (torus_fluid_cells N fluid) <-> fluid x = true.
Proof.
  split; [apply NoDup_filter, torus_cells_NoDup|].
  intros x. unfold torus_fluid_cells. rewrite filter_In. split; [tauto|]. intros H.
  split; [apply torus_cells_all|exact H].
Qed.

Lemma torus_links_spec N S fluid l : In l (torus_links N S fluid) <-> is_link S fluid l.
Proof.
  destruct l as [x i]. unfold torus_links, is_link. rewrite filter_In.
  cbn [fst snd]. rewrite andb_true_iff, negb_true_iff. split.
  - intros (Hin & H1 & H2). apply in_prod_iff in Hin as [_ Hi]. apply in_seq in Hi.
    repeat split; auto; lia.
  - intros (H1 & H2 & H3). repeat split; auto. apply in_prod; [apply torus_cells_all|]. apply in_seq. lia.
Qed.
