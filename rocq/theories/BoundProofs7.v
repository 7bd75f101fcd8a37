(* Free slip with normals taken from the geometry. *)
From Coq Require Import String List ZArith Bool Arith Reals Lra Lia Permutation QArith Qreals.
From Verif Require Import StencilModel StencilSpec StencilProofs StencilProofs2 AccessModel AccessProofs StreamModel StreamSpec StreamProofs StreamProofs2 RealLib LinLib
  TransSpec EqModel EqSpec EqProofs CollModel CollSpec MacroModel BoundModel BoundSpec BoundProofs BoundProofs2 BoundProofs3 BoundProofs4 BoundProofs6.
Import ListNotations.
Local Open Scope R_scope.

Lemma fold_negate axes : forall (d : vec) b, NoDup axes ->
  nth b (fold_left (fun r a => negate_at a r) axes d) 0%Z = if existsb (Nat.eqb b) axes then (- nth b d 0)%Z else nth b d 0%Z.
Proof.
  induction axes as [|a axes IH]; intros d b ND; [reflexivity|]. inversion ND as [|? ? Hn ND']; subst. cbn [fold_left existsb].
  rewrite IH by exact ND'. rewrite enum_nth_negate. destruct (Nat.eqb_spec b a) as [->|Hb]; cbn [orb].
  - destruct (existsb (Nat.eqb a) axes) eqn:E; [|reflexivity]. apply existsb_exists in E as (z & Hz & Ez). apply Nat.eqb_eq in Ez. subst z. contradiction.
  - reflexivity.
Qed.
Lemma fold_negate_length axes : forall d : vec, length (fold_left (fun r a => negate_at a r) axes d) = length d.
Proof. induction axes as [|a axes IH]; intros d; [reflexivity|]. cbn [fold_left]. now rewrite IH, negate_at_length. Qed.
Lemma fold_negate_In (S : stencil) axes : (forall d b, In d S -> In (negate_at b d) S) -> forall d, In d S -> In (fold_left (fun r a => negate_at a r) axes d) S.
Proof. intros HM. induction axes as [|a axes IH]; intros d Hd; [exact Hd|]. cbn [fold_left]. apply IH, HM, Hd. Qed.
Lemma existsb_false (l : list nat) b : existsb (Nat.eqb b) l = false <-> ~ In b l.
Proof.
  split.
  - intros E H. assert (existsb (Nat.eqb b) l = true); [|congruence]. apply existsb_exists. exists b. split; [exact H|apply Nat.eqb_refl].
  - intros H. destruct (existsb (Nat.eqb b) l) eqn:E; [|reflexivity]. apply existsb_exists in E as (z & Hz & Ez). apply Nat.eqb_eq in Ez. subst. contradiction.
Qed.
Lemma existsb_true (l : list nat) b : existsb (Nat.eqb b) l = true <-> In b l.
Proof.
  rewrite existsb_exists. split; [intros (z & Hz & E); apply Nat.eqb_eq in E; now subst|]. intros H. exists b. split; [exact H|apply Nat.eqb_refl].
Qed.

Section Dyn.
  Context (L : lattice) (S : stencil) (fluid : cell L -> bool) (links : list (link L)).
  Notation D := (ldim L).
  Hypothesis HS : symmetric_stencil D S.
  Hypothesis HM : forall d b, In d S -> In (negate_at b d) S.
  Hypothesis HA : forall d b, In d S -> In (only_component d b) S.
  Hypothesis HL : forall l, In l links <-> is_link S fluid l.

  Definition blocked (x : cell L) (d : vec) : list nat := filter (fun b => negb (fluid (shift x (only_component d b)))) (seq 0 D).
  (* the axes reflected: the blocked ones, or all of them when there is none *)
  Definition refl_axes (x : cell L) (d : vec) : list nat := match blocked x d with [] => seq 0 D | A => A end.

  Lemma boundary_cell_spec x d b : fluid x = true -> In d S ->
    is_boundary_cell L S links (shift x (only_component d b)) = negb (fluid (shift x (only_component d b))).
  Proof.
    intros Hx Hd. destruct (fluid (shift x (only_component d b))) eqn:E; cbn [negb].
    - unfold is_boundary_cell. destruct (existsb _ _) eqn:E2; [|reflexivity]. apply existsb_exists in E2 as (y & Hy & Ey).
      destruct (cell_eq_dec (shift x (only_component d b)) y) as [<-|]; [|discriminate]. unfold boundary_cells in Hy. apply in_map_iff in Hy as ([z j] & Ez & Hz).
      apply HL in Hz as (_ & _ & Hn). cbn [fst snd] in *. unfold offset_of in Ez. unfold dir in Hn. rewrite Ez in Hn. congruence.
    - unfold is_boundary_cell. apply existsb_exists. exists (shift x (only_component d b)). split; [|destruct (cell_eq_dec _ _); [reflexivity|contradiction]].
      unfold boundary_cells. destruct (In_nth S (only_component d b) [] (HA d b Hd)) as (j & Hj & Ej).
      apply in_map_iff. exists (x, j). cbn [fst snd]. unfold offset_of. rewrite Ej. split; [reflexivity|]. apply HL. split; [exact Hx|]. split; [exact Hj|].
      cbn [fst snd]. unfold dir. now rewrite Ej.
  Qed.
  Lemma normal_axes_spec x d : fluid x = true -> In d S -> normal_axes L S links x d = blocked x d.
  Proof.
    intros Hx Hd. unfold normal_axes, blocked. assert (Hl : length d = D) by (now apply HS). rewrite Hl. apply filter_ext. intros b. now apply boundary_cell_spec.
  Qed.
  Lemma blocked_NoDup x d : NoDup (blocked x d). Proof. apply NoDup_filter, seq_NoDup. Qed.
  Lemma refl_NoDup x d : NoDup (refl_axes x d).
  Proof. unfold refl_axes. pose proof (blocked_NoDup x d). destruct (blocked x d); [apply seq_NoDup|assumption]. Qed.
  (* a blocked axis has a nonzero component *)
  Lemma blocked_nonzero x d b : fluid x = true -> length d = D -> In b (blocked x d) -> nth b d 0%Z <> 0%Z.
  Proof.
    intros Hx Hd Hb E. apply filter_In in Hb as [_ Hb]. assert (Z : only_component d b = vzero D).
    { apply vec_ext; [rewrite only_component_length, vzero_length; exact Hd|]. intros c. rewrite nth_only_component. unfold vzero. rewrite nth_repeat.
      destruct (Nat.eqb_spec c b) as [->|]; [exact E|reflexivity]. }
    rewrite Z, shift_zero, Hx in Hb. discriminate.
  Qed.

  Lemma init_spec x i : is_link S fluid (x, i) ->
    exists k, free_slip_init L S links (x, i) = Ok (vneg (keep_components (refl_axes x (dir S i)) (dir S i)), k) /\ (k < length S)%nat /\
      forall b, nth b (dir S k) 0%Z = if existsb (Nat.eqb b) (refl_axes x (dir S i)) then nth b (dir S i) 0%Z else (- nth b (dir S i) 0)%Z.
  Proof.
    intros (Hx & Hi & Hn). cbn [fst snd] in *. set (d := dir S i). assert (Hd : In d S) by (apply dir_In, Hi). assert (Ld : length d = D) by (now apply HS).
    unfold free_slip_init. cbn [fst snd]. change (offset_of S i) with d. rewrite (normal_axes_spec x d Hx Hd).
    unfold refl_axes. destruct (blocked x d) as [|b0 A] eqn:EB.
    - assert (E0 : forallb (Z.eqb 0) (keep_components [] d) = true).
      { apply forallb_forall. intros z Hz. apply (In_nth _ _ 0%Z) in Hz as (b & _ & <-). rewrite nth_keep_components. reflexivity. }
      rewrite E0. cbn [fold_left]. assert (ID : st_index S d = Ok i) by (apply (st_index_dir D S i HS Hi)). rewrite ID. cbn [rbind]. exists i.
      assert (EK : keep_components (seq 0 D) d = d).
      { apply vec_ext; [apply keep_components_length|]. intros b. rewrite nth_keep_components. destruct (existsb (Nat.eqb b) (seq 0 D)) eqn:E; [reflexivity|].
        apply existsb_false in E. rewrite in_seq in E. symmetry. apply nth_overflow. lia. }
      rewrite EK. split; [reflexivity|]. split; [exact Hi|]. intros b. destruct (existsb (Nat.eqb b) (seq 0 D)) eqn:E; [reflexivity|].
      apply existsb_false in E. rewrite in_seq in E. fold d. rewrite nth_overflow by lia. reflexivity.
    - rewrite <- EB. assert (ND : NoDup (blocked x d)) by apply blocked_NoDup.
      assert (E0 : forallb (Z.eqb 0) (keep_components (blocked x d) d) = false).
      { destruct (forallb _ _) eqn:E; [|reflexivity]. exfalso. rewrite forallb_forall in E.
        assert (Hb0 : In b0 (blocked x d)) by (rewrite EB; left; reflexivity).
        pose proof (blocked_nonzero x d b0 Hx Ld Hb0) as NZ. apply NZ.
        assert (Hlt : (b0 < D)%nat) by (apply filter_In in Hb0 as [H _]; apply in_seq in H; lia).
        specialize (E (nth b0 (keep_components (blocked x d) d) 0%Z)). rewrite nth_keep_components in E.
        assert (EX : existsb (Nat.eqb b0) (blocked x d) = true) by (now apply existsb_true). rewrite EX in E. symmetry. apply Z.eqb_eq. apply E.
        replace (nth b0 d 0%Z) with (nth b0 (keep_components (blocked x d) d) 0%Z) by (rewrite nth_keep_components, EX; reflexivity).
        apply nth_In. rewrite keep_components_length. lia. }
      rewrite E0. set (ref := fold_left _ _ d).
      destruct (In_nth S (vneg ref) []) as (k & Hk & Ek). { apply HS. apply fold_negate_In; assumption. }
      change (nth k S []) with (dir S k) in Ek. rewrite <- Ek, (st_index_dir D S k HS Hk). cbn [rbind]. exists k. split; [reflexivity|]. split; [exact Hk|].
      intros b. rewrite Ek, nth_vneg. unfold ref. rewrite fold_negate by exact ND. destruct (existsb _ _); lia.
  Qed.

  (* where a link takes its population from *)
  Definition dyn_source (l : link L) : link L :=
    match free_slip_init L S links l with
    | Ok data => (shift (fst l) (vadd (dir S (snd l)) (fst data)), snd data)
    | Err _ => l
    end.
  Definition off_part (x : cell L) (d : vec) : vec := vadd d (vneg (keep_components (refl_axes x d) d)).
  Lemma off_part_length x d : length d = D -> length (off_part x d) = D.
  Proof. intros Hd. unfold off_part. apply vadd_len; [exact Hd|]. apply vneg_len. now rewrite keep_components_length. Qed.
  Lemma off_part_nth x d b : nth b (off_part x d) 0%Z = if existsb (Nat.eqb b) (refl_axes x d) then 0%Z else nth b d 0%Z.
  Proof.
    unfold off_part. rewrite nth_vadd by (rewrite vneg_length, keep_components_length; reflexivity). rewrite nth_vneg, nth_keep_components. destruct (existsb _ _); lia.
  Qed.

  (* the wall continues at the cell the population is taken from *)
  Definition smooth_at (x : cell L) (d : vec) : Prop :=
    let A := refl_axes x d in let y := shift x (off_part x d) in
    fluid y = true /\ fluid (shift x (keep_components A d)) = false /\
    (off_part x d = vzero D \/
     (forall b, In b A -> fluid (shift y (only_component d b)) = false) /\
     (forall b, ~ In b A -> fluid (shift y (vneg (only_component d b))) = true)).

  Lemma dyn_involution l : is_link S fluid l -> smooth_at (fst l) (dir S (snd l)) ->
    is_link S fluid (dyn_source l) /\ dyn_source (dyn_source l) = l.
  Proof.
    destruct l as [x i]. intros Hl (Hy & Hw & Hc). cbn [fst snd] in *. pose proof Hl as (Hx & Hi & Hn). cbn [fst snd] in Hx, Hi, Hn.
    set (d := dir S i) in *. assert (Hd : In d S) by (apply dir_In, Hi). assert (Ld : length d = D) by (now apply HS).
    destruct (init_spec x i Hl) as (k & Ek & Hk & Dk). fold d in Ek, Dk. assert (Lk : length (dir S k) = D) by (apply (dir_length D S HS k Hk)).
    assert (ES : dyn_source (x, i) = (shift x (off_part x d), k)). { unfold dyn_source. rewrite Ek. cbn [fst snd]. reflexivity. }
    rewrite ES. set (y := shift x (off_part x d)) in *. set (A := refl_axes x d) in *.
    assert (Loff : length (off_part x d) = D) by (now apply off_part_length).
    assert (Hlk : is_link S fluid (y, k)).
    { split; [exact Hy|]. split; [exact Hk|]. cbn [fst snd]. unfold y. rewrite shift_add by assumption.
      replace (vadd (off_part x d) (dir S k)) with (keep_components A d); [exact Hw|].
      apply vec_ext; [rewrite keep_components_length; symmetry; apply (eq_trans (y := ldim L)); [now apply vadd_len|congruence]|].
      intros b. rewrite nth_vadd by congruence. rewrite off_part_nth, Dk, nth_keep_components. fold A. destruct (existsb (Nat.eqb b) A); lia. }
    split; [exact Hlk|].
    destruct Hc as [Hz|[H1 H2]].
    - (* bounce back *)
      assert (Hyx : y = x) by (unfold y; rewrite Hz; apply shift_zero).
      assert (Hki : k = i).
      { apply (dir_inj D S HS); auto. apply vec_ext; [rewrite Lk; symmetry; exact Ld|]. intros b. rewrite Dk. fold d.
        pose proof (off_part_nth x d b) as E. rewrite Hz in E. unfold vzero in E. rewrite nth_repeat in E. fold A in E. destruct (existsb (Nat.eqb b) A); [reflexivity|lia]. }
      rewrite Hyx, Hki in *. exact ES.
    - destruct (init_spec y k Hlk) as (k2 & Ek2 & Hk2 & Dk2).
      assert (EB : forall b, (b < D)%nat -> fluid (shift y (only_component (dir S k) b)) = negb (existsb (Nat.eqb b) A)).
      { intros b Hb. destruct (existsb (Nat.eqb b) A) eqn:E.
        - replace (only_component (dir S k) b) with (only_component d b); [cbn; apply H1; now apply existsb_true|].
          apply vec_ext; [rewrite !only_component_length; congruence|]. intros c. rewrite !nth_only_component. destruct (Nat.eqb_spec c b) as [->|]; [|reflexivity]. now rewrite Dk, E.
        - replace (only_component (dir S k) b) with (vneg (only_component d b)); [cbn; apply H2; now apply existsb_false|].
          apply vec_ext; [rewrite vneg_length, !only_component_length; congruence|]. intros c. rewrite nth_vneg, !nth_only_component. destruct (Nat.eqb_spec c b) as [->|]; [|reflexivity]. now rewrite Dk, E. }
      assert (EF : blocked y (dir S k) = filter (fun b => existsb (Nat.eqb b) A) (seq 0 D)).
      { unfold blocked. apply filter_ext_in. intros b Hb. apply in_seq in Hb. rewrite EB by lia. apply negb_involutive. }
      assert (EA : forall b, In b (refl_axes y (dir S k)) <-> In b A).
      { assert (HAD : forall b, In b A -> (b < D)%nat). { unfold A, refl_axes. intros b Hb. destruct (blocked x d) eqn:E; [apply in_seq in Hb; lia|]. rewrite <- E in Hb. apply filter_In in Hb as [Hb _]. apply in_seq in Hb. lia. }
        intros b. unfold refl_axes. rewrite EF. destruct (filter (fun b => existsb (Nat.eqb b) A) (seq 0 D)) as [|b0 F] eqn:E.
        - assert (NA : forall c, ~ In c A). { intros c Hc. assert (In c (filter (fun b => existsb (Nat.eqb b) A) (seq 0 D))); [|rewrite E in *; contradiction]. apply filter_In. split; [apply in_seq; specialize (HAD c Hc); lia|now apply existsb_true]. }
          assert (EAA : A = seq 0 D). { unfold A, refl_axes in NA |- *. destruct (blocked x d) as [|b0 F]; [reflexivity|exfalso; apply (NA b0); left; reflexivity]. }
          rewrite EAA. reflexivity.
        - rewrite <- E, filter_In, existsb_true, in_seq. split; [tauto|]. intros Hb. split; [specialize (HAD b Hb); lia|exact Hb]. }
      assert (EX : forall b, existsb (Nat.eqb b) (refl_axes y (dir S k)) = existsb (Nat.eqb b) A).
      { intros b. destruct (existsb (Nat.eqb b) A) eqn:E; [apply existsb_true, EA, existsb_true, E|apply existsb_false; rewrite EA; now apply existsb_false]. }
      unfold dyn_source. rewrite Ek2. cbn [fst snd]. fold (off_part y (dir S k)). f_equal.
      + unfold y at 1. rewrite shift_add by (try assumption; now apply off_part_length).
        replace (vadd (off_part x d) (off_part y (dir S k))) with (vzero D); [apply shift_zero|].
        apply vec_ext; [rewrite vzero_length; symmetry; apply vadd_len; [assumption|now apply off_part_length]|].
        intros b. rewrite nth_vadd by (rewrite !off_part_length by assumption; reflexivity). rewrite !off_part_nth, EX, Dk. fold A. unfold vzero. rewrite nth_repeat. destruct (existsb (Nat.eqb b) A); lia.
      + apply (dir_inj D S HS); auto. apply vec_ext; [rewrite (dir_length D S HS k2 Hk2); symmetry; exact Ld|].
        intros b. rewrite Dk2, EX, Dk. fold d. destruct (existsb (Nat.eqb b) A); lia.
  Qed.

  Context (cells : list (cell L)) (f : cell L -> list R) (B : cell L -> nat -> brule R).
  Hypothesis HC : NoDup cells /\ (forall x, In x cells <-> fluid x = true) /\ NoDup links.
  Hypothesis Hlen : forall x, length (f x) = length S.
  Hypothesis HB : forall x i, is_link S fluid (x, i) -> exists data, free_slip_init L S links (x, i) = Ok data /\ B x i = free_slip_data S data i.
  Hypothesis Hsm : forall x i, is_link S fluid (x, i) -> smooth_at x (dir S i).

  Lemma dyn_value l : is_link S fluid l -> rule_value S f (fst l) (B (fst l) (snd l)) = nth (snd (dyn_source l)) (f (fst (dyn_source l))) 0.
  Proof.
    destruct l as [x i]. intros Hl. cbn [fst snd]. destruct (HB x i Hl) as (data & E & EBi). rewrite EBi. unfold dyn_source. rewrite E. reflexivity.
  Qed.
  Theorem dyn_mass : total_mass cells (arriving S fluid B f) = total_mass cells f.
  Proof.
    apply (permuted_mass L S fluid cells links B f dyn_source HS).
    - split; [apply HC|]. split; [apply HC|]. split; [apply HC|exact HL].
    - intros [x i] Hl. destruct (dyn_involution (x, i) Hl (Hsm x i Hl)) as [E1 E2]. split; [exact E1|]. split; [exact E2|]. now apply dyn_value.
    - exact Hlen.
  Qed.
  Lemma dyn_readable x i a : is_link S fluid (x, i) -> In a (b_reads (B x i)) -> readable S fluid x a.
  Proof.
    intros Hl Ha. destruct (HB x i Hl) as (data & E & EBi). rewrite EBi in Ha. destruct Ha as [<-|[]].
    destruct (init_spec x i Hl) as (k & Ek & Hk & _). rewrite E in Ek. injection Ek as ->. cbn [fst snd readable].
    pose proof Hl as (_ & Hi & _). cbn [snd] in Hi. pose proof (dir_length D S HS i Hi) as Ld.
    split; [exact Hk|]. change (offset_of S i) with (dir S i). fold (off_part x (dir S i)). split; [now apply off_part_length|]. apply (Hsm x i Hl).
  Qed.
End Dyn.

(* two dimensions: every geometry is smooth in this sense *)
Lemma smooth_2d (L : lattice) (S : stencil) fluid x i : symmetric_stencil (ldim L) S -> ldim L = 2%nat -> is_link S fluid (x, i) -> smooth_at L fluid x (dir S i).
Proof.
  intros HS H2 (Hx & Hi & Hn). cbn [fst snd] in *. pose proof (dir_length _ S HS i Hi) as Ld. unfold smooth_at. set (d := dir S i) in *.
  assert (S0 : seq 0 (ldim L) = [0; 1]%nat) by (rewrite H2; reflexivity).
  rewrite H2 in Ld. destruct d as [|d0 [|d1 [|]]]; try discriminate.
  assert (O0 : only_component [d0; d1] 0 = [d0; 0%Z]) by reflexivity. assert (O1 : only_component [d0; d1] 1 = [0%Z; d1]) by reflexivity.
  assert (ADD : forall u v : vec, length u = 2%nat -> length v = 2%nat -> shift (shift x u) v = shift x (vadd u v)) by (intros; apply shift_add; congruence).
  assert (Z2 : shift x [0%Z; 0%Z] = x) by (rewrite <- (shift_zero L x) at 2; rewrite H2; reflexivity).
  assert (OZ : forall b, ~ In b [0; 1]%nat -> only_component [d0; d1] b = [0%Z; 0%Z]).
  { intros b Hb. apply vec_ext; [reflexivity|]. intros c. rewrite nth_only_component. destruct (Nat.eqb_spec c b) as [->|]; [|destruct c as [|[|[|c]]]; reflexivity].
    destruct b as [|[|b]]; [exfalso; apply Hb; cbn; auto|exfalso; apply Hb; cbn; auto|destruct b; reflexivity]. }
  unfold off_part, refl_axes, blocked. rewrite S0. cbn [filter]. rewrite O0, O1.
  destruct (fluid (shift x [d0; 0%Z])) eqn:E0, (fluid (shift x [0%Z; d1])) eqn:E1; cbn [negb].
  - replace (vadd [d0; d1] _) with ([0%Z; 0%Z]) by (cbn; repeat f_equal; lia). rewrite Z2. split; [exact Hx|]. split; [exact Hn|]. left. rewrite H2. reflexivity.
  - replace (keep_components [1]%nat [d0; d1]) with [0%Z; d1] by reflexivity. replace (vadd [d0; d1] (vneg [0%Z; d1])) with [d0; 0%Z] by (cbn; repeat f_equal; lia).
    split; [exact E0|]. split; [exact E1|]. right. split.
    + intros b [<-|[]]. rewrite O1, ADD by reflexivity. replace (vadd [d0; 0%Z] [0%Z; d1]) with [d0; d1] by (cbn; repeat f_equal; lia). exact Hn.
    + intros b Hb. destruct b as [|b]; [|rewrite OZ by (cbn; cbn in Hb; intuition lia)].
      * rewrite O0, ADD by reflexivity. replace (vadd [d0; 0%Z] (vneg [d0; 0%Z])) with [0%Z; 0%Z] by (cbn; repeat f_equal; lia). now rewrite Z2.
      * change (vneg [0%Z; 0%Z]) with [0%Z; 0%Z]. rewrite ADD by reflexivity. replace (vadd [d0; 0%Z] [0%Z; 0%Z]) with [d0; 0%Z] by (cbn; repeat f_equal; lia). exact E0.
  - replace (keep_components [0]%nat [d0; d1]) with [d0; 0%Z] by reflexivity. replace (vadd [d0; d1] (vneg [d0; 0%Z])) with [0%Z; d1] by (cbn; repeat f_equal; lia).
    split; [exact E1|]. split; [exact E0|]. right. split.
    + intros b [<-|[]]. rewrite O0, ADD by reflexivity. replace (vadd [0%Z; d1] [d0; 0%Z]) with [d0; d1] by (cbn; repeat f_equal; lia). exact Hn.
    + intros b Hb. destruct (Nat.eq_dec b 1) as [->|Hb1]; [|rewrite OZ by (cbn; cbn in Hb; intuition lia)].
      * rewrite O1, ADD by reflexivity. replace (vadd [0%Z; d1] (vneg [0%Z; d1])) with [0%Z; 0%Z] by (cbn; repeat f_equal; lia). now rewrite Z2.
      * change (vneg [0%Z; 0%Z]) with [0%Z; 0%Z]. rewrite ADD by reflexivity. replace (vadd [0%Z; d1] [0%Z; 0%Z]) with [0%Z; d1] by (cbn; repeat f_equal; lia). exact E1.
  - replace (vadd [d0; d1] _) with ([0%Z; 0%Z]) by (cbn; repeat f_equal; lia). rewrite Z2. split; [exact Hx|]. split; [exact Hn|]. left. rewrite H2. reflexivity.
Qed.
