From Coq Require Import String List ZArith Bool Arith Lia Permutation.
From Verif Require Import StencilModel StencilProofs AccessModel StreamModel StreamSpec AccessProofs
  StreamProofs RaceProofs GridModel GridProofs CommModel CommSpec CommProofs CommProofs2 PerAccModel PerAccSpec.
Import ListNotations.
Local Open Scope Z_scope.

Lemma per_component_ok gl n b d c : 1 <= n -> gl <= c < gl + n -> (b = true -> -1 <= d <= 1) ->
  exists o, per_component gl (n + 2 * gl) b (- d) c = Ok o /\
    c + o = if b then gl + (c - d - gl) mod n else c - d.
Proof.
  intros Hn Hc Hd. unfold per_component. destruct b; cbn [negb]; [|exists (- d); split; [reflexivity|lia]].
  specialize (Hd eq_refl). destruct (Z.eqb_spec (- d) 0) as [E|E].
  - exists 0. split; [reflexivity|]. rewrite Z.mod_small; lia.
  - destruct (Z.eqb_spec (- d) 1) as [E1|E1].
    + eexists. split; [reflexivity|]. destruct (Z.ltb_spec c (n + 2 * gl - 1 - gl)) as [H|H].
      * rewrite Z.mod_small; lia.
      * replace (c - d - gl) with (0 + 1 * n) by lia. rewrite Z.mod_add, Z.mod_0_l by lia. lia.
    + destruct (Z.eqb_spec (- d) (-1)) as [E2|E2]; [|lia].
      eexists. split; [reflexivity|]. destruct (Z.ltb_spec gl c) as [H|H].
      * rewrite Z.mod_small; lia.
      * replace (c - d - gl) with ((n - 1) + (-1) * n) by lia. rewrite Z.mod_add, Z.mod_small by lia. lia.
Qed.

Lemma per_offset_ok gl : forall N per d x, Forall (fun n => 1 <= n) N -> length per = length N -> length d = length N ->
  in_box gl N x -> (forall k, nth k per false = true -> -1 <= nth k d 0 <= 1) ->
  exists o, per_offset gl (map (fun n => n + 2 * gl) N) per (vneg d) x = Ok o /\ length o = length N /\
    vadd x o = wrap_box gl N per (vadd x (vneg d)).
Proof.
  intros N per d x HN. revert per d x. induction HN as [|n N Hn HN IH]; intros per d x Hp Hd Hx Hk.
  - destruct d; [|discriminate]. destruct x; [|contradiction]. exists []. repeat split; reflexivity.
  - destruct d as [|d0 d]; [discriminate|]. destruct per as [|b per]; [discriminate|].
    destruct x as [|c x]; [contradiction|]. destruct Hx as [Hc Hx].
    cbn [vneg map per_offset]. fold (vneg d).
    destruct (per_component_ok gl n b d0 c Hn Hc) as (o & Ho & Ho').
    { intros ->. apply (Hk 0%nat). reflexivity. }
    rewrite Ho. cbn [rbind].
    destruct (IH per d x) as (os & Hos & HL & Hos'); [simpl in *; lia|simpl in *; lia|exact Hx|intros k; apply (Hk (S k))|].
    rewrite Hos. cbn [rbind]. exists (o :: os). split; [reflexivity|]. split; [simpl; lia|].
    rewrite !vadd_cons. cbn [wrap_box]. rewrite Hos'. f_equal. replace (c + - d0) with (c - d0) by lia. exact Ho'.
Qed.

Lemma in_box_length lo N x : in_box lo N x -> length x = length N.
Proof. revert x; induction N as [|n N IH]; intros [|a x]; simpl; try tauto. intros [_ H]. f_equal; auto. Qed.

Lemma wrap_in_box lo N z : Forall (fun n => 1 <= n) N -> length z = length N ->
  in_box lo N (wrap_box lo N (map (fun _ => true) N) z).
Proof.
  intros HN. revert z; induction HN as [|n N Hn HN IH]; intros [|a z] HL; simpl in *; try discriminate; [exact I|].
  split; [|apply IH; lia]. pose proof (Z.mod_pos_bound (a - lo) n). lia.
Qed.

Lemma nth_error_ext' {A} (l1 l2 : list A) : (forall i, nth_error l1 i = nth_error l2 i) -> l1 = l2.
Proof.
  revert l2; induction l1 as [|a l1 IH]; intros [|b l2] H; [reflexivity|discriminate (H 0%nat)|discriminate (H 0%nat)|].
  f_equal; [specialize (H 0%nat); simpl in H; congruence|]. apply IH. intros i. exact (H (S i)).
Qed.

Section Main.
  Context (D : nat) (V : Type) (S : stencil) (gl : Z) (N : list Z).
  Context (HS : forall d, In d S -> length d = D) (HND : length N = D) (HN : Forall (fun n => 1 <= n) N).
  Notation L := (zlat D).
  Notation Q := (length S).
  Notation shape := (map (fun n => n + 2 * gl) N).

  Definition nn_per (per : list bool) : Prop :=
    forall d k, In d S -> nth k per false = true -> -1 <= nth k d 0 <= 1.

  Lemma per_reads_ok per x : length per = D -> nn_per per -> in_box gl N x ->
    exists rs, per_reads gl shape per S x = Ok rs /\ length rs = Q /\
      forall i r, nth_error rs i = Some r ->
        idx r = i /\ length (off r) = D /\ vadd x (off r) = wrap_box gl N per (vadd x (vneg (nth i S []))).
  Proof.
    intros Hp Hnn Hx. unfold per_reads.
    assert (H : forall q, In q (enum S) -> exists a, (fun p => rbind (per_offset gl shape per (vneg (snd p)) x) (fun o => Ok (mkacc o (fst p)))) q = Ok a).
    { intros [i d] Hq. cbn [fst snd].
      assert (Hd : In d S) by (apply in_combine_r in Hq; exact Hq).
      destruct (per_offset_ok gl N per d x HN) as (o & Ho & _); [lia|rewrite (HS d Hd); lia|exact Hx|intros k; apply Hnn; exact Hd|].
      rewrite Ho. cbn [rbind]. eauto. }
    destruct (mapM_ex _ _ H) as (rs & Hrs). exists rs. split; [exact Hrs|].
    assert (HLen : length (enum S) = Q) by (unfold enum; rewrite combine_length, seq_length; lia).
    split; [rewrite (mapM_Ok_length _ _ _ Hrs); exact HLen|].
    intros i r Hr.
    assert (Hi : (i < Q)%nat).
    { rewrite <- HLen, <- (mapM_Ok_length _ _ _ Hrs). apply nth_error_Some. congruence. }
    destruct (nth_error (enum S) i) as [[i' d]|] eqn:Hq; [|apply nth_error_None in Hq; lia].
    destruct (mapM_nth _ _ _ i _ Hrs Hq) as (r' & Hf & Hr'). rewrite Hr in Hr'. injection Hr' as <-.
    unfold enum in Hq.
    assert (i' = i /\ nth_error S i = Some d) as [-> Hd].
    { clear - Hq. assert (G : forall (l : list vec) i s, nth_error (combine (seq s (length l)) l) i = Some (i', d) -> i' = (s + i)%nat /\ nth_error l i = Some d).
      { clear. induction l as [|a l IH]; intros [|i] s; simpl; try discriminate.
        - intros E; injection E as <- <-. split; [lia|reflexivity].
        - intros E. apply (IH i (Datatypes.S s)) in E as [-> E]. split; [lia|exact E]. }
      apply (G S i 0%nat) in Hq. exact Hq. }
    cbn [fst snd] in Hf.
    assert (HIn : In d S) by (eapply nth_error_In; exact Hd).
    destruct (per_offset_ok gl N per d x HN) as (o & Ho & HL & HE); [lia|rewrite (HS d HIn); lia|exact Hx|intros k; apply Hnn; exact HIn|].
    rewrite Ho in Hf. cbn [rbind] in Hf. injection Hf as <-. cbn [idx off].
    split; [reflexivity|]. split; [lia|]. rewrite (nth_error_nth S i [] Hd). exact HE.
  Qed.

  (* the kernel and whole simulations, fully periodic *)
  Notation per := (map (fun _ : Z => true) N).
  Context (v0 : V) (Hne : S <> []) (HNN : nearest_neighbour S).

  Lemma nn_all : nn_per per.
  Proof.
    intros d k Hd _. destruct (Nat.lt_ge_cases k (length d)) as [H|H].
    - apply (HNN d); [exact Hd|]. apply nth_In. exact H.
    - rewrite nth_overflow by exact H. lia.
  Qed.

  Lemma per_len : length per = D.
  Proof. rewrite map_length. exact HND. Qed.

  Notation cen := (map (fun i => mkacc (vzero D) i) (seq 0 Q)).

  Lemma dimD_eq : dimD S = D.
  Proof. unfold dimD. destruct S as [|d S']; [congruence|]. apply HS. left; reflexivity. Qed.

  Lemma per_kernel_ok C src : (forall x f, length f = Q -> length (C x f) = Q) ->
    forall xs dst, NoDup xs -> (forall c, In c xs -> exists x, c = pos D x /\ in_box gl N x) ->
    exists m, per_kernel D V gl shape per S C src xs dst = Ok m /\
      (forall x i, In (pos D x) xs -> in_box gl N x -> (i < Q)%nat ->
        m (pos D x) i = nth i (C (pos D x) (map (fun j =>
            src (pos D (wrap_box gl N per (vadd x (vneg (nth j S []))))) j) (seq 0 Q))) v0) /\
      (forall c k, ~ In c xs \/ (Q <= k)%nat -> m c k = dst c k).
  Proof.
    intros HC. induction xs as [|c xs IH]; intros dst Hnd Hxs.
    - exists dst. split; [reflexivity|]. split; [intros x i []|reflexivity].
    - destruct (Hxs c (or_introl eq_refl)) as (x & -> & Hx).
      pose proof (in_box_length _ _ _ Hx) as HxL. rewrite HND in HxL.
      destruct (per_reads_ok per x per_len nn_all Hx) as (rs & Hrs & HrL & Hr).
      cbn [per_kernel]. rewrite pos_proj by exact HxL. rewrite Hrs. cbn [rbind per_writes].
      unfold per_writes, center_accesses. rewrite dimD_eq. cbn [rbind]. unfold sizeQ.
      assert (HLd : load L V src (pos D x) rs = map (fun j => src (pos D (wrap_box gl N per (vadd x (vneg (nth j S []))))) j) (seq 0 Q)).
      { apply nth_error_ext'. intros i. unfold load.
        destruct (Nat.lt_ge_cases i Q) as [Hi|Hi].
        - rewrite nth_error_seqmap by exact Hi. rewrite nth_error_map.
          destruct (nth_error rs i) as [r|] eqn:Er; [|apply nth_error_None in Er; lia].
          destruct (Hr i r Er) as (E1 & E2 & E3). unfold option_map. f_equal. rewrite E1. f_equal.
          rewrite <- E3. exact (pos_shift D x (off r) HxL E2).
        - transitivity (@None V); [|symmetry]; apply nth_error_None; rewrite map_length, ?seq_length; lia. }
      rewrite HLd.
      apply NoDup_cons_iff in Hnd as [Hn Hnd'].
      set (vals := C (pos D x) _). assert (HvL : length vals = Q) by (apply HC; rewrite map_length, seq_length; reflexivity).
      destruct (IH (store L V dst (pos D x) cen vals) Hnd') as (m & Hm & H1 & H2).
      { intros c Hc. apply Hxs. right; exact Hc. }
      exists m. split; [exact Hm|].
      assert (Hz : forall y : cell L, shift y (vzero D) = y).
      { intros y. pose proof (shift_zero L y) as E. rewrite ldim_zlat in E. exact E. }
      assert (Hidx : forall a b, (a < Q)%nat -> (b < Q)%nat -> idx (mkacc (vzero D) a) = idx (mkacc (vzero D) b) -> a = b).
      { intros a b _ _ E. exact E. }
      split.
      + intros y i [E|Hin] Hy Hi.
        * pose proof (in_box_length _ _ _ Hy) as HyL. rewrite HND in HyL.
          apply pos_inj in E; [subst y|exact HxL|exact HyL].
          rewrite H2 by (left; exact Hn).
          pose proof (store_hit L V (pos D x) (fun i => mkacc (vzero D) i) Q Hidx v0 vals dst i HvL Hi) as Hs.
          cbn [off idx] in Hs. rewrite Hz in Hs. exact Hs.
        * apply H1; assumption.
      + intros c k Hck. rewrite H2.
        * apply (store_miss L V (pos D x) (fun i => mkacc (vzero D) i) Q Hidx vals dst c k HvL).
          intros i Hi. unfold loc. cbn [off idx]. rewrite Hz. intros E. injection E as <- <-.
          destruct Hck as [Hck|Hck]; [apply Hck; left; reflexivity|lia].
        * destruct Hck as [Hck|Hck]; [left; intros Hin; apply Hck; right; exact Hin|right; exact Hck].
  Qed.

  Theorem per_run_correct C f0 xs s n x : (forall n c, In c (xs n) <-> exists y, c = pos D y /\ in_box gl N y) ->
    (forall n, NoDup (xs n)) ->
    (forall n x f, length f = Q -> length (C n x f) = Q) ->
    (forall y i, in_box gl N y -> (i < Q)%nat -> src s (pos D y) i = nth i (f0 y) v0) ->
    exists s', per_run D V gl shape per S xs (fun n c => C n (proj1_sig c)) n s = Ok s' /\
      (in_box gl N x -> forall i, (i < Q)%nat -> src s' (pos D x) i = nth i (box_stream_collide v0 S gl N C f0 n x) v0).
  Proof.
    intros Hxs Hnd HC H0.
    assert (G : exists s', per_run D V gl shape per S xs (fun n c => C n (proj1_sig c)) n s = Ok s' /\
      forall x, in_box gl N x -> forall i, (i < Q)%nat -> src s' (pos D x) i = nth i (box_stream_collide v0 S gl N C f0 n x) v0).
    { clear x. induction n as [|n IH].
      - exists s. split; [reflexivity|]. intros x Hx i Hi. apply H0; assumption.
      - destruct IH as (s1 & Hr & Hh). cbn [per_run]. rewrite Hr. cbn [rbind].
        destruct (per_kernel_ok (fun c => C n (proj1_sig c)) (src s1)) with (xs := xs n) (dst := tmp s1) as (m & Hm & H1 & _);
          [intros; apply HC; assumption|apply Hnd|intros c Hc; apply Hxs in Hc; exact Hc|].
        rewrite Hm. cbn [rbind]. eexists. split; [reflexivity|]. cbn [src].
        intros x Hx i Hi. rewrite H1; [|apply (Hxs n); eauto|exact Hx|exact Hi].
        pose proof (in_box_length _ _ _ Hx) as HxL.
        rewrite pos_proj by lia. cbn [box_stream_collide]. f_equal. f_equal.
        apply map_ext_in. intros j Hj. apply in_seq in Hj. apply Hh; [|lia].
        apply wrap_in_box; [exact HN|]. rewrite vadd_length; rewrite ?vneg_length; [exact HxL|].
        rewrite HxL, HND. symmetry. apply HS. apply nth_In. lia. }
    destruct G as (s' & H1 & H2). exists s'. auto.
  Qed.
End Main.

Lemma in_box_raw gl N x : In x (box_raw (map (fun _ => gl) N) (map (fun n => n + gl) N)) <-> in_box gl N x.
Proof.
  revert x; induction N as [|n N IH]; intros x.
  - destruct x; simpl; tauto || (split; [intros [H|[]]; discriminate|intros []]).
  - cbn [map box_raw]. rewrite in_flat_map. split.
    + intros (z & Hz & Hx). apply in_map_iff in Hz as (k & <- & Hk). apply in_seq in Hk.
      apply in_map_iff in Hx as (x' & <- & Hx'). cbn [in_box]. apply IH in Hx'. split; [lia|exact Hx'].
    + destruct x as [|a x]; [intros []|]. intros [Ha Hx]. exists a. split.
      * apply in_map_iff. exists (Z.to_nat (a - gl)). rewrite in_seq. lia.
      * apply in_map. apply IH. exact Hx.
Qed.

Lemma domain_cells_In D N gl (c : cell (zlat D)) :
  In c (domain_cells D N gl) <-> exists y, c = pos D y /\ in_box gl N y.
Proof.
  unfold domain_cells, interior_cells. rewrite in_map_iff. split.
  - intros (y & <- & Hy). exists y. split; [reflexivity|]. apply in_box_raw. exact Hy.
  - intros (y & -> & Hy). exists y. split; [reflexivity|]. apply in_box_raw. exact Hy.
Qed.

Lemma domain_cells_NoDup D N gl : length N = D -> NoDup (domain_cells D N gl).
Proof.
  intros HND. unfold domain_cells, interior_cells.
  assert (HL : forall z, In z (box_raw (map (fun _ => gl) N) (map (fun n => n + gl) N)) -> length z = D).
  { intros z Hz. apply in_box_raw, in_box_length in Hz. lia. }
  pose proof (box_raw_NoDup (map (fun _ => gl) N) (map (fun n => n + gl) N)) as Hnd.
  revert HL Hnd. generalize (box_raw (map (fun _ => gl) N) (map (fun n => n + gl) N)). clear.
  induction l as [|x l IH]; intros HL Hnd; simpl; [constructor|]. apply NoDup_cons_iff in Hnd as [H1 H2].
  constructor; [|apply IH; auto; intros; apply HL; right; auto].
  rewrite in_map_iff. intros (y & E & Hy). apply pos_inj in E; [subst; contradiction|apply HL; right; exact Hy|apply HL; left; reflexivity].
Qed.

Lemma per_simulation D V (v0 : V) S gl N xs C f0 s n x :
  S <> [] -> (forall d, In d S -> length d = D) -> nearest_neighbour S ->
  length N = D -> Forall (fun k => 1 <= k) N ->
  (forall n, Permutation (xs n) (domain_cells D N gl)) ->
  (forall n x f, length f = length S -> length (C n x f) = length S) ->
  (forall y i, in_box gl N y -> (i < length S)%nat -> src s (pos D y) i = nth i (f0 y) v0) ->
  in_box gl N x ->
  exists s', per_run D V gl (map (fun n => n + 2 * gl) N) (map (fun _ => true) N) S xs
               (fun n c => C n (proj1_sig c)) n s = Ok s' /\
    forall i, (i < length S)%nat ->
      src s' (pos D x) i = nth i (box_stream_collide v0 S gl N C f0 n x) v0.
Proof.
  intros H1 H2 H3 H4 H5 H6 H7 H8 H9.
  destruct (per_run_correct D V S gl N H2 H4 H5 v0 H1 H3 C f0 xs s n x) as (s' & Hs & Hv); auto.
  - intros k c. rewrite <- domain_cells_In. split; apply Permutation_in; [apply H6|apply Permutation_sym, H6].
  - intros k. eapply Permutation_NoDup; [apply Permutation_sym, H6|]. apply domain_cells_NoDup; exact H4.
  - exists s'. split; [exact Hs|]. apply Hv. exact H9.
Qed.

Lemma per_offset_far gl : forall shape per d x k, length per = length d -> length shape = length d -> length x = length d ->
  nth k per false = true -> ~ (-1 <= nth k d 0 <= 1) ->
  per_offset gl shape per (vneg d) x = Err NotImplementedError.
Proof.
  intros shape per d; revert shape per; induction d as [|d0 d IH]; intros shape per x k Hp Hs Hx Hk Hd.
  - destruct k; simpl in Hd; lia.
  - destruct per as [|b per]; [discriminate|]. destruct shape as [|M shape]; [discriminate|]. destruct x as [|c x]; [discriminate|].
    cbn [vneg map per_offset]. fold (vneg d). destruct k as [|k].
    + cbn [nth] in Hk, Hd. subst b. unfold per_component. cbn [negb].
      destruct (Z.eqb_spec (- d0) 0); [lia|]. destruct (Z.eqb_spec (- d0) 1); [lia|]. destruct (Z.eqb_spec (- d0) (-1)); [lia|]. reflexivity.
    + rewrite (IH shape per x k); [|simpl in *; lia|simpl in *; lia|simpl in *; lia|exact Hk|exact Hd].
      assert (E : (exists o, per_component gl M b (- d0) c = Ok o) \/ per_component gl M b (- d0) c = Err NotImplementedError).
      { unfold per_component. destruct (negb b); [eauto|]. destruct (- d0 =? 0); [eauto|]. destruct (- d0 =? 1); [eauto|].
        destruct (- d0 =? -1); eauto. }
      destruct E as [(o & ->)| ->]; reflexivity.
Qed.

Lemma per_offset_total gl : forall shape per d x, length per = length d -> length shape = length d -> length x = length d ->
  (exists o, per_offset gl shape per (vneg d) x = Ok o) \/ per_offset gl shape per (vneg d) x = Err NotImplementedError.
Proof.
  intros shape per d; revert shape per; induction d as [|d0 d IH]; intros shape per x Hp Hs Hx; [left; eexists; reflexivity|].
  destruct per as [|b per]; [discriminate|]. destruct shape as [|M shape]; [discriminate|]. destruct x as [|c x]; [discriminate|].
  cbn [vneg map per_offset]. fold (vneg d).
  assert (E : (exists o, per_component gl M b (- d0) c = Ok o) \/ per_component gl M b (- d0) c = Err NotImplementedError).
  { unfold per_component. destruct (negb b); [eauto|]. destruct (- d0 =? 0); [eauto|]. destruct (- d0 =? 1); [eauto|].
    destruct (- d0 =? -1); eauto. }
  destruct E as [(o & ->)| ->]; [|right; reflexivity]. cbn [rbind].
  destruct (IH shape per x) as [(os & ->)| ->]; [simpl in *; lia|simpl in *; lia|simpl in *; lia|left; eexists; reflexivity|right; reflexivity].
Qed.

Lemma per_reads_far D gl N per S x d k :
  (forall d, In d S -> length d = D) -> length N = D -> length per = D -> length x = D ->
  In d S -> nth k per false = true -> ~ (-1 <= nth k d 0 <= 1) ->
  per_reads gl (map (fun n => n + 2 * gl) N) per S x = Err NotImplementedError.
Proof.
  intros HS HN Hp Hx Hd Hk Hf. unfold per_reads.
  assert (G : forall (l : list (nat * vec)), (forall q, In q l -> length (snd q) = D) -> (exists i, In (i, d) l) ->
    mapM (fun p => rbind (per_offset gl (map (fun n => n + 2 * gl) N) per (vneg (snd p)) x) (fun o => Ok (mkacc o (fst p)))) l
    = Err NotImplementedError).
  { induction l as [|[j e] l IH]; intros Hl (i & Hi); [destruct Hi|]. cbn [mapM fst snd].
    assert (HeL : length e = D) by (apply (Hl (j, e)); left; reflexivity).
    destruct (per_offset_total gl (map (fun n => n + 2 * gl) N) per e x) as [(o & Ho)|Ho]; rewrite ?map_length; try lia.
    - rewrite Ho. cbn [rbind]. destruct Hi as [E|Hi].
      + injection E as -> ->. rewrite (per_offset_far gl _ per d x k) in Ho; rewrite ?map_length; try lia; auto. discriminate.
      + rewrite IH; [reflexivity|intros q Hq; apply Hl; right; exact Hq|eauto].
    - rewrite Ho. reflexivity. }
  apply G.
  - intros [i e] Hq. apply in_combine_r in Hq. apply HS. exact Hq.
  - apply In_nth_error in Hd as (i & Hi). exists i. unfold enum.
    assert (G2 : forall (l : list vec) i s, nth_error l i = Some d -> In ((s + i)%nat, d) (combine (seq s (length l)) l)).
    { clear. induction l as [|a l IH]; intros [|i] s; simpl; try discriminate.
      - intros E; injection E as ->. left. f_equal; lia.
      - intros E. right. apply (IH i (Datatypes.S s)) in E. replace (s + Datatypes.S i)%nat with (Datatypes.S s + i)%nat by lia. exact E. }
    apply (G2 S i 0%nat Hi).
Qed.
