From Coq Require Import String List ZArith Bool Arith Lia Permutation.
From Verif Require Import StencilModel StencilProofs AccessModel StreamModel StreamSpec AccessProofs
  StreamProofs RaceProofs GridModel GridProofs CommModel CommSpec.
Import ListNotations.
Local Open Scope Z_scope.

(* ---------- positions in the unbounded array ---------- *)

Lemma gshift_raw_none (x v : vec) : length v = length x ->
  gshift_raw (repeat None (length x)) x v = vadd x v.
Proof.
  revert v; induction x as [|a x IH]; intros [|b v] H; simpl in *; try discriminate; [reflexivity|].
  rewrite vadd_cons, IH by lia. reflexivity.
Qed.

Lemma ldim_zlat D : ldim (zlat D) = D.
Proof. simpl. apply repeat_length. Qed.

Lemma origin_proj D : proj1_sig (origin D) = repeat 0 D.
Proof. reflexivity. Qed.

Lemma pos_proj D x : length x = D -> proj1_sig (pos D x) = x.
Proof.
  intros <-. unfold pos. simpl. 
  rewrite <- (repeat_length 0 (length x)) at 1.
  rewrite gshift_raw_none by (rewrite repeat_length; reflexivity).
  rewrite vadd_comm. apply vadd_zero_r.
Qed.

Lemma pos_inj D x y : length x = D -> length y = D -> pos D x = pos D y -> x = y.
Proof. intros Hx Hy E. rewrite <- (pos_proj D x Hx), E, pos_proj by exact Hy. reflexivity. Qed.

Lemma pos_shift D x v : length x = D -> length v = D -> @shift (zlat D) (pos D x) v = pos D (vadd x v).
Proof. intros Hx Hv. unfold pos. apply shift_add; rewrite ldim_zlat; assumption. Qed.

Lemma pos_surj D (c : cell (zlat D)) : exists x, length x = D /\ c = pos D x.
Proof.
  assert (HL : length (proj1_sig c) = D).
  { transitivity (length (repeat (@None positive) D)); [|apply repeat_length].
    apply in_grid_length. exact (proj2_sig c). }
  exists (proj1_sig c). split; [exact HL|]. apply gcell_eq.
  change (proj1_sig c = proj1_sig (pos D (proj1_sig c))). symmetry. apply pos_proj. exact HL.
Qed.

(* ---------- copies of single slots ---------- *)
Section Copies.
  Context (L : lattice) (V : Type).
  Notation slot_t := (cell L * nat)%type.
  Notation mem := (mem L V).

  Definition copy1 (m0 : mem) (m : mem) (sd : slot_t * slot_t) : mem :=
    upd L V m (fst (snd sd)) (snd (snd sd)) (at_loc L V m0 (fst sd)).

  (* sequence of copies described by the set of (source, destination) pairs *)
  Definition copies_to (m m' : mem) (l : list (slot_t * slot_t)) : Prop :=
    (forall s d, In (s, d) l -> at_loc L V m' d = at_loc L V m s) /\
    (forall d, (forall s, ~ In (s, d) l) -> at_loc L V m' d = at_loc L V m d).

  Definition well_formed (l : list (slot_t * slot_t)) : Prop :=
    (forall s d s' d', In (s, d) l -> In (s', d') l -> s <> d') /\
    (forall s s' d, In (s, d) l -> In (s', d) l -> s = s').

  Lemma copy_batch m0 : forall l m,
    (forall s s' d, In (s, d) l -> In (s', d) l -> s = s') ->
    (forall s d, In (s, d) l -> at_loc L V (fold_left (copy1 m0) l m) d = at_loc L V m0 s) /\
    (forall d, (forall s, ~ In (s, d) l) -> at_loc L V (fold_left (copy1 m0) l m) d = at_loc L V m d).
  Proof.
    induction l as [|[s0 d0] l IH]; intros m Hf; simpl.
    - split; [intros s d []|reflexivity].
    - destruct (IH (copy1 m0 m (s0, d0))) as [I1 I2].
      { intros s s' d H1 H2. eapply Hf; right; eassumption. }
      assert (Hdec : forall d : slot_t, {exists s, In (s, d) l} + {forall s, ~ In (s, d) l}).
      { intros d. destruct (in_dec (link_eq_dec L) d (map snd l)) as [H|H].
        - left. apply in_map_iff in H as ((s, d') & E & Hin). simpl in E. subst. eauto.
        - right. intros s Hs. apply H. apply in_map_iff. exists (s, d). auto. }
      split.
      + intros s d [E|Hin]; [|apply I1; exact Hin].
        injection E as -> ->. destruct (Hdec d) as [(s' & Hs')|Hn].
        * rewrite (I1 s' d Hs'). f_equal. apply (Hf s' s d); [right; exact Hs'|left; reflexivity].
        * rewrite I2 by exact Hn. unfold copy1, at_loc; simpl. apply upd_same.
      + intros d Hn. rewrite I2 by (intros s Hs; apply (Hn s); right; exact Hs).
        unfold copy1, at_loc; simpl. apply upd_other. intros E.
        apply (Hn s0). left. destruct d, d0; simpl in *; congruence.
  Qed.

  Lemma copies_app m m1 m2 l1 l2 : well_formed (l1 ++ l2) ->
    copies_to m m1 l1 -> copies_to m1 m2 l2 -> copies_to m m2 (l1 ++ l2).
  Proof.
    intros [W1 W2] [A1 A2] [B1 B2].
    assert (Hdec : forall (l : list (slot_t * slot_t)) (d : slot_t), {exists s, In (s, d) l} + {forall s, ~ In (s, d) l}).
    { intros l d. destruct (in_dec (link_eq_dec L) d (map snd l)) as [H|H].
      - left. apply in_map_iff in H as ((s, d') & E & Hin). simpl in E. subst. eauto.
      - right. intros s Hs. apply H. apply in_map_iff. exists (s, d). auto. }
    split.
    - intros s d Hin. destruct (Hdec l2 d) as [(s' & Hs')|Hn].
      + rewrite (B1 s' d Hs'). rewrite A2.
        * f_equal. apply (W2 s' s d); [apply in_or_app; auto|exact Hin].
        * intros s'' H''. apply (W1 s' d s'' s'); try (apply in_or_app; auto). reflexivity.
      + rewrite B2 by exact Hn. apply A1. apply in_app_or in Hin as [H|H]; [exact H|]. exfalso; eapply Hn; eauto.
    - intros d Hn. rewrite B2, A2; [reflexivity| |]; intros s Hs; apply (Hn s); apply in_or_app; auto.
  Qed.

  Lemma copies_unique m m1 m2 l1 l2 : (forall x, In x l1 <-> In x l2) ->
    copies_to m m1 l1 -> copies_to m m2 l2 -> forall d, at_loc L V m1 d = at_loc L V m2 d.
  Proof.
    intros Hiff [A1 A2] [B1 B2] d.
    destruct (in_dec (link_eq_dec L) d (map snd l1)) as [H|H].
    - apply in_map_iff in H as ((s, d') & E & Hin). simpl in E. subst.
      rewrite (A1 s d Hin). symmetry. apply B1. apply Hiff. exact Hin.
    - rewrite A2, B2; [reflexivity| |]; intros s Hs; apply H; apply in_map_iff; exists (s, d); split; auto.
      apply Hiff. exact Hs.
  Qed.
End Copies.

(* ---------- ranges, cartesian products ---------- *)

Lemma zrange_In a b z : In z (zrange a b) <-> a <= z < b.
Proof.
  unfold zrange. rewrite in_map_iff. split.
  - intros (k & <- & Hk). apply in_seq in Hk. lia.
  - intros H. exists (Z.to_nat (z - a)). split; [lia|]. apply in_seq. lia.
Qed.

Lemma zrange_shift a b w : zrange (a + w) (b + w) = map (fun x => x + w) (zrange a b).
Proof.
  unfold zrange. rewrite map_map. replace (b + w - (a + w)) with (b - a) by lia.
  apply map_ext. intros; lia.
Qed.

Lemma combine_map2 {A B C} (f : A -> B) (g : A -> C) l :
  combine (map f l) (map g l) = map (fun x => (f x, g x)) l.
Proof. induction l as [|x l IH]; simpl; [reflexivity|]. now rewrite IH. Qed.

(* the source cells of one copy: comm direction c, streaming direction s *)
Definition axis_src (tr : bool) (n c s x : Z) : Prop :=
  (c = 0 /\ 1 <= x <= n /\ (tr = true -> (s = -1 -> 2 <= x) /\ (s = 1 -> x <= n - 1))) \/
  (c = 1 /\ x = n) \/ (c = -1 /\ x = 1).

Fixpoint src_box (tr : bool) (N c s x : vec) : Prop :=
  match N, c, s, x with
  | [], [], [], [] => True
  | n :: N', c0 :: c', s0 :: s', x0 :: x' => axis_src tr n c0 s0 x0 /\ src_box tr N' c' s' x'
  | _, _, _, _ => False
  end.

(* position of the ghost image *)
Fixpoint image (N c x : vec) : vec :=
  match N, c, x with
  | n :: N', c0 :: c', x0 :: x' => (x0 - c0 * n) :: image N' c' x'
  | _, _, _ => []
  end.

Definition axis_ok (tr : bool) (c s w : Z) : Prop :=
  (c = -1 \/ c = 0 \/ c = 1) /\ (s = -1 \/ s = 0 \/ s = 1) /\ (c <> 0 -> s = c) /\
  (if tr then w = 0 \/ w = s else w = 0).

(* the two slices of one axis, ghost layer 1 *)
Definition axis_sl (tr : bool) (c s w : Z) : sl :=
  let o := fix_length_one (if c =? -1 then SRange 1 (1 + 1) else if c =? 0 then SRange 1 (- 1) else SRange (- 1 - 1) (- 1)) in
  if tr then shift_sl (trim_sl o (s - c)) w else o.

Ltac ax := unfold axis_positions, norm_index;
  repeat (match goal with
          | |- context [?a <=? ?b] => destruct (Z.leb_spec a b); try lia
          | |- context [?a <? ?b] => destruct (Z.ltb_spec a b); try lia end);
  cbn [andb map]; try (do 2 f_equal; lia).

Lemma axis_lemma tr n c s w : 1 <= n -> axis_ok tr c s w ->
  exists xs,
    axis_positions (n + 2 * 1) (axis_sl tr c s w) = Ok (map (fun x => x + w) xs) /\
    axis_positions (n + 2 * 1) (shift_sl (axis_sl tr c s w) (c * (1 + 1))) = Ok (map (fun x => x - c * n + w) xs) /\
    forall x, In x xs <-> axis_src tr n c s x.
Proof.
  intros Hn (Hc & Hs & Hcs & Hw). destruct Hc as [->|[->| ->]].
  - (* c = -1 *)
    assert (Hs' : s = -1) by (apply Hcs; lia). subst s. exists [1].
    assert (E : axis_sl tr (-1) (-1) w = SInt (1 + w)).
    { unfold axis_sl. simpl. destruct tr; [reflexivity|]. subst w. reflexivity. }
    assert (Hw' : w = 0 \/ w = -1) by (destruct tr; [exact Hw|left; exact Hw]).
    rewrite E. cbn [shift_sl]. split; [ax|]. split; [ax|].
    intros x. unfold axis_src. split.
    + intros [<-|[]]. right; right. split; reflexivity.
    + intros [[H _]|[[H _]|[_ ->]]]; [discriminate|discriminate|left; reflexivity].
  - (* c = 0 *)
    set (lo := if tr then if s =? -1 then 2 else 1 else 1).
    set (hi := if tr then if s =? 1 then n else n + 1 else n + 1).
    exists (zrange lo hi).
    assert (A : axis_positions (n + 2 * 1) (axis_sl tr 0 s w) = Ok (map (fun x => x + w) (zrange lo hi))).
    { assert (E : axis_sl tr 0 s w = SRange (lo + w) ((if tr then if s =? 1 then -2 else -1 else -1) + w)).
      { unfold axis_sl, lo. simpl (fix_length_one _). cbn [Z.eqb]. destruct tr; [|subst w; reflexivity].
        simpl. rewrite Z.sub_0_r. destruct (s =? -1), (s =? 1); reflexivity. }
      rewrite E. unfold axis_positions. rewrite <- zrange_shift.
      assert (H1 : clip (n + 2 * 1) (lo + w) = lo + w).
      { subst lo. unfold clip, norm_index. destruct tr; [destruct (Z.eqb_spec s (-1))|];
          match goal with |- context [?a <? ?b] => destruct (Z.ltb_spec a b) end; lia. }
      assert (H2 : clip (n + 2 * 1) ((if tr then if s =? 1 then -2 else -1 else -1) + w) = hi + w).
      { subst hi. unfold clip, norm_index. destruct tr.
        - destruct (Z.eqb_spec s 1);
          match goal with |- context [?a <? ?b] => destruct (Z.ltb_spec a b) end; lia.
        - match goal with |- context [?a <? ?b] => destruct (Z.ltb_spec a b) end; lia. }
      rewrite H1, H2. reflexivity. }
    split; [exact A|]. split.
    + change (0 * (1 + 1)) with 0.
      assert (E : shift_sl (axis_sl tr 0 s w) 0 = axis_sl tr 0 s w).
      { destruct (axis_sl tr 0 s w); simpl; rewrite ?Z.add_0_r; reflexivity. }
      rewrite E, A. f_equal. apply map_ext. intros; lia.
    + intros x. rewrite zrange_In. unfold axis_src. subst lo hi. destruct tr.
      * destruct (Z.eqb_spec s (-1)), (Z.eqb_spec s 1); (split; [intros H; left; repeat split; lia|]);
          intros [(_ & H1 & H2)|[[H _]|[H _]]]; try discriminate; specialize (H2 eq_refl); lia.
      * split; [intros H; left; split; [lia|split; [lia|discriminate]]|].
        intros [(_ & H1 & H2)|[[H _]|[H _]]]; try discriminate; lia.
  - (* c = 1 *)
    assert (Hs' : s = 1) by (apply Hcs; lia). subst s. exists [n].
    assert (E : axis_sl tr 1 1 w = SInt (-2 + w)).
    { unfold axis_sl. simpl. destruct tr; [reflexivity|]. subst w. reflexivity. }
    assert (Hw' : w = 0 \/ w = 1) by (destruct tr; [exact Hw|left; exact Hw]).
    rewrite E. cbn [shift_sl]. split; [ax|]. split; [ax|].
    intros x. unfold axis_src. split.
    + intros [<-|[]]. right; left. split; reflexivity.
    + intros [[H _]|[[_ ->]|[H _]]]; [discriminate|left; reflexivity|discriminate].
Qed.

(* ---------- all axes of one copy ---------- *)
Fixpoint axes_ok (tr : bool) (c s w : vec) : Prop :=
  match c, s, w with
  | [], [], [] => True
  | c0 :: c', s0 :: s', w0 :: w' => axis_ok tr c0 s0 w0 /\ axes_ok tr c' s' w'
  | _, _, _ => False
  end.

Fixpoint axes_sl (tr : bool) (c s w : vec) : list sl :=
  match c, s, w with
  | c0 :: c', s0 :: s', w0 :: w' => axis_sl tr c0 s0 w0 :: axes_sl tr c' s' w'
  | _, _, _ => []
  end.

Lemma axes_sl_length tr c s w : axes_ok tr c s w -> length (axes_sl tr c s w) = length c.
Proof.
  revert s w; induction c as [|c0 c IH]; intros [|s0 s] [|w0 w]; simpl; try tauto.
  intros [_ H]. f_equal. apply IH; exact H.
Qed.

Lemma copy_pairs_axes tr q : forall N c s w, Forall (fun n => 1 <= n) N -> length c = length N ->
  axes_ok tr c s w ->
  exists l, copy_pairs (map (fun n => n + 2 * 1) N)
    {| cp_src := axes_sl tr c s w; cp_dst := shift_slice (axes_sl tr c s w) (neighbour_transform c 1); cp_idx := q |} = Ok l /\
    forall A B, In (A, B) l <-> exists x, src_box tr N c s x /\ A = vadd x w /\ B = vadd (image N c x) w.
Proof.
  intros N c s w HN Hc Hok. unfold copy_pairs. cbn [cp_src cp_dst].
  assert (HL1 : length (axes_sl tr c s w) = length N) by (rewrite axes_sl_length; assumption).
  assert (HL2 : length (shift_slice (axes_sl tr c s w) (neighbour_transform c 1)) = length N).
  { unfold shift_slice, neighbour_transform. rewrite map_length, combine_length, map_length, axes_sl_length by exact Hok. lia. }
  rewrite map_length, HL1, HL2, Nat.eqb_refl. cbn [andb]. clear HL1 HL2.
  revert c s w Hc Hok. induction HN as [|n N Hn HN IH]; intros c s w Hc Hok.
  - destruct c; [|discriminate]. destruct s; [|contradiction]. destruct w; [|contradiction]. simpl.
    eexists. split; [reflexivity|]. intros A B. split.
    + intros [E|[]]. injection E as <- <-. exists []. auto.
    + intros ([|? ?] & H1 & -> & ->); [left; reflexivity|contradiction].
  - destruct c as [|c0 c]; [discriminate|]. destruct s as [|s0 s]; [contradiction|]. destruct w as [|w0 w]; [contradiction|].
    destruct Hok as [Hok1 Hok2].
    destruct (axis_lemma tr n c0 s0 w0 Hn Hok1) as (xs & P1 & P2 & Hxs).
    destruct (IH c s w) as (l & Hl & HIn); [simpl in Hc; lia|exact Hok2|].
    cbn [axes_sl map combine mapM fst snd shift_slice neighbour_transform].
    change (map (fun d : Z => d * (1 + 1)) c) with (neighbour_transform c 1).
    change (map (fun p : sl * Z => shift_sl (fst p) (snd p)) (combine (axes_sl tr c s w) (neighbour_transform c 1)))
      with (shift_slice (axes_sl tr c s w) (neighbour_transform c 1)).
    rewrite P1, P2. cbn [rbind].
    destruct (mapM _ (combine _ (axes_sl tr c s w))) as [sp|] eqn:Esp; [|discriminate]. cbn [rbind] in *.
    destruct (mapM _ (combine _ (shift_slice _ _))) as [dp|] eqn:Edp; [|discriminate]. cbn [rbind] in *.
    cbn [combine forallb fst snd]. rewrite !map_length, Nat.eqb_refl. cbn [andb].
    destruct (forallb _ (combine sp dp)); [|discriminate]. injection Hl as <-.
    eexists. split; [reflexivity|]. cbn [map fst snd pairs_prod]. rewrite combine_map2.
    intros A B. rewrite in_flat_map. split.
    + intros (ab & Hab & Hr). apply in_map_iff in Hab as (x & <- & Hx). apply in_map_iff in Hr as ((A', B') & E & HAB).
      cbn [fst snd] in E. injection E as <- <-. apply HIn in HAB as (x' & Hb & -> & ->).
      exists (x :: x'). split; [split; [apply Hxs; exact Hx|exact Hb]|]. cbn [image]. rewrite !vadd_cons. auto.
    + intros ([|x x'] & Hb & -> & ->); [contradiction|]. destruct Hb as [Hb1 Hb2].
      exists (x + w0, x - c0 * n + w0). split; [apply in_map_iff; exists x; split; [reflexivity|apply Hxs; exact Hb1]|].
      apply in_map_iff. exists (vadd x' w, vadd (image N c x') w). split.
      * cbn [image]. rewrite !vadd_cons. reflexivity.
      * apply HIn. exists x'. auto.
Qed.

(* ---------- extend_dir, full_stencil ---------- *)
Fixpoint extends (c s : vec) : Prop :=
  match c, s with
  | [], [] => True
  | c0 :: c', s0 :: s' => (c0 <> 0 -> s0 = c0) /\ (s0 = -1 \/ s0 = 0 \/ s0 = 1) /\ extends c' s'
  | _, _ => False
  end.
Definition unit_vec (c : vec) : Prop := Forall (fun e => e = -1 \/ e = 0 \/ e = 1) c.

Lemma extend_dir_In c s : unit_vec c -> (In s (extend_dir c) <-> extends c s).
Proof.
  revert s; induction c as [|c0 c IH]; intros s Hu; simpl.
  - destruct s; simpl; split; auto; intros [H|[]]; discriminate.
  - inversion Hu as [|? ? Hc0 Hu']; subst.
    destruct (Z.eqb_spec c0 0) as [->|Hne].
    + rewrite !in_app_iff, !in_map_iff. destruct s as [|s0 s]; simpl.
      * split; [|tauto]. intros H. decompose [or] H; try contradiction;
        match goal with H : exists x, _ |- _ => destruct H as (? & ? & _); discriminate end.
      * rewrite <- (IH s Hu'). split.
        -- intros H; decompose [or] H; try contradiction;
           match goal with H : exists x, _ |- _ => destruct H as (? & E & Hin); injection E as <- <-; repeat split; auto; lia end.
        -- intros (_ & [->|[->| ->]] & Hin); eauto 8.
    + rewrite in_map_iff. destruct s as [|s0 s]; simpl.
      * split; [intros (? & ? & _); discriminate|tauto].
      * rewrite <- (IH s Hu'). split.
        -- intros (? & E & Hin); injection E as <- <-. auto.
        -- intros (E & _ & Hin). rewrite (E Hne). eauto.
Qed.

Lemma full_stencil_In D c : In c (full_stencil D) <-> length c = D /\ unit_vec c.
Proof.
  revert c; induction D as [|D IH]; intros c; simpl.
  - split; [intros [<-|[]]; split; [reflexivity|constructor]|]. intros [H _]. destruct c; [auto|discriminate].
  - rewrite !in_app_iff, !in_map_iff. split.
    + intros H; decompose [or] H; try contradiction;
      match goal with H : exists x, _ |- _ => destruct H as (? & <- & Hin); apply IH in Hin as [<- Hu]; split; [reflexivity|constructor; auto] end.
    + intros [HL Hu]. destruct c as [|c0 c]; [discriminate|]. inversion Hu as [|? ? Hc0 Hu']; subst.
      injection HL as HL. assert (In c (full_stencil D)) by (apply IH; auto).
      destruct Hc0 as [->|[->| ->]]; eauto 8.
Qed.

Lemma extends_length c s : extends c s -> length s = length c.
Proof. revert s; induction c as [|c0 c IH]; intros [|s0 s]; simpl; try tauto. intros (_ & _ & H). f_equal; auto. Qed.

(* ---------- write offsets are componentwise 0 or the direction ---------- *)
Definition partial_off (w s : vec) : Prop := Forall2 (fun w0 s0 => w0 = 0 \/ w0 = s0) w s.

Lemma partial_zero s D : length s = D -> partial_off (vzero D) s.
Proof. intros <-. induction s; constructor; auto. Qed.
Lemma partial_self s : partial_off s s.
Proof. induction s; constructor; auto. Qed.
Lemma partial_vpos s : partial_off (vpos s) s.
Proof. induction s; constructor; auto. lia. Qed.

Lemma waddr_partial D S p t i : symmetric_stencil D S -> (i < length S)%nat ->
  partial_off (off (waddr D S p t i)) (dir S i).
Proof.
  intros HS Hi. pose proof (dir_length D S HS i Hi) as HL.
  destruct p, t; simpl; try destruct (par S i);
    solve [apply partial_zero; exact HL | apply partial_self | apply partial_vpos].
Qed.

Definition trims (p : pattern) : bool := match p with PULL => false | _ => true end.

Lemma axes_ok_intro tr c s w : extends c s -> unit_vec c -> partial_off w s -> (tr = false -> w = vzero (length s)) ->
  axes_ok tr c s w.
Proof.
  intros He Hu Hw Hz. revert s w He Hw Hz; induction Hu as [|c0 c Hc0 Hu IH]; intros [|s0 s] w He Hw Hz; simpl in He; try contradiction.
  - inversion Hw; subst. exact I.
  - inversion Hw as [|w0 ? w' ? Hw0 Hw']; subst. destruct He as (E1 & E2 & E3). simpl. split.
    + repeat split; auto. destruct tr; [exact Hw0|]. specialize (Hz eq_refl). simpl in Hz.
      change (repeat 0 (length s)) with (vzero (length s)) in Hz. injection Hz as Hz _. exact Hz.
    + apply IH; auto. intros Ht. specialize (Hz Ht). simpl in Hz. injection Hz as _ Hz. exact Hz.
Qed.

(* ---------- the slices of one copy operation ---------- *)
Lemma mapM_slice_before c : unit_vec c ->
  mapM (slice_before_ghost_layer 1) c =
  Ok (map (fun c0 => if c0 =? -1 then SRange 1 (1 + 1) else if c0 =? 0 then SRange 1 (- 1) else SRange (- 1 - 1) (- 1)) c).
Proof.
  induction 1 as [|c0 c Hc0 Hu IH]; [reflexivity|]. cbn [mapM map]. rewrite IH.
  destruct Hc0 as [->|[->| ->]]; reflexivity.
Qed.

Lemma src_slices_axes tr c s w : axes_ok tr c s w ->
  let src0 := map fix_length_one
     (map (fun c0 => if c0 =? -1 then SRange 1 (1 + 1) else if c0 =? 0 then SRange 1 (- 1) else SRange (- 1 - 1) (- 1)) c) in
  (if tr
   then rbind (trim_slice_in_direction src0 (map (fun q => fst q - snd q) (combine s c))) (fun t => Ok (shift_slice t w))
   else Ok src0) = Ok (axes_sl tr c s w).
Proof.
  intros Hok src0. subst src0. destruct tr.
  - unfold trim_slice_in_direction.
    assert (HL : length s = length c /\ length w = length c).
    { revert s w Hok; induction c as [|c0 c IH]; intros [|s0 s] [|w0 w]; simpl; try tauto.
      intros [_ H]. destruct (IH _ _ H). split; f_equal; assumption. }
    rewrite !map_length, combine_length. replace (Nat.min (length s) (length c)) with (length c) by lia.
    rewrite Nat.eqb_refl. cbn [rbind]. f_equal. clear HL.
    revert s w Hok; induction c as [|c0 c IH]; intros [|s0 s] [|w0 w]; simpl; try tauto.
    intros [_ H]. rewrite <- (IH s w H). reflexivity.
  - f_equal. revert s w Hok; induction c as [|c0 c IH]; intros [|s0 s] [|w0 w]; simpl; try tauto.
    intros [_ H]. rewrite <- (IH s w H). reflexivity.
Qed.

Section Exchange.
  Context (D : nat) (S : stencil) (p : pattern) (t : timestep) (HP : supported p D S t).
  Context (HNN : nearest_neighbour S).
  Context (N : list Z) (HN : Forall (fun n => 1 <= n) N) (HND : length N = D).
  Notation Q := (length S).

  Lemma slices_for_ok c i : unit_vec c -> length c = D -> (i < Q)%nat -> extends c (dir S i) ->
    exists o l, slices_for p S (map (waddr D S p t) (seq 0 Q)) 1 c (dir S i) = Ok o /\
      cp_idx o = idx (waddr D S p t i) /\
      copy_pairs (map (fun n => n + 2 * 1) N) o = Ok l /\
      forall A B, In (A, B) l <-> exists x, src_box (trims p) N c (dir S i) x /\
         A = vadd x (off (waddr D S p t i)) /\ B = vadd (image N c x) (off (waddr D S p t i)).
  Proof.
    intros Hu Hc Hi He. set (w := off (waddr D S p t i)).
    assert (Hok : axes_ok (trims p) c (dir S i) w).
    { apply axes_ok_intro; [exact He|exact Hu|apply waddr_partial; [apply HP|exact Hi]|].
      intros Hp. destruct p; try discriminate. rewrite (dir_length D S (proj1 HP) i Hi).
      subst w. destruct t; reflexivity. }
    unfold slices_for.
    assert (Hidx : st_index S (dir S i) = Ok i).
    { unfold st_index. rewrite (dir_length D S (proj1 HP) i Hi), (dimD_D D S (proj1 HP)), Nat.eqb_refl.
      rewrite (index_of_nth S i (dir S i)); [reflexivity|apply HP|apply dir_nth_error; exact Hi]. }
    rewrite Hidx. cbn [rbind]. rewrite nth_error_seqmap by exact Hi.
    rewrite mapM_slice_before by exact Hu. cbn [rbind]. cbv zeta.
    pose proof (src_slices_axes (trims p) c (dir S i) w Hok) as Hsrc. cbv zeta in Hsrc.
    assert (Hsrc' : match p with
      | PULL => Ok (map fix_length_one (map (fun c0 => if c0 =? -1 then SRange 1 (1 + 1) else if c0 =? 0 then SRange 1 (- 1) else SRange (- 1 - 1) (- 1)) c))
      | _ => rbind (trim_slice_in_direction (map fix_length_one (map (fun c0 => if c0 =? -1 then SRange 1 (1 + 1) else if c0 =? 0 then SRange 1 (- 1) else SRange (- 1 - 1) (- 1)) c))
               (map (fun q => fst q - snd q) (combine (dir S i) c))) (fun t0 => Ok (shift_slice t0 w))
      end = Ok (axes_sl (trims p) c (dir S i) w)) by (destruct p; exact Hsrc).
    fold w. rewrite Hsrc'. cbn [rbind].
    destruct (copy_pairs_axes (trims p) (idx (waddr D S p t i)) N c (dir S i) w HN) as (l & Hl & HIn); [lia|exact Hok|].
    do 2 eexists. split; [reflexivity|]. split; [reflexivity|]. split; [exact Hl|exact HIn].
  Qed.
End Exchange.
