(* Free slip. *)
From Coq Require Import String List ZArith Bool Arith Reals Lra Lia Permutation QArith Qreals.
From Verif Require Import StencilModel StencilSpec StencilProofs StencilProofs2 AccessModel AccessProofs StreamModel StreamSpec StreamProofs StreamProofs2 RealLib LinLib
  TransSpec EqModel EqSpec EqProofs CollModel CollSpec MacroModel BoundModel BoundSpec BoundProofs BoundProofs2 BoundProofs3 BoundProofs4.
Import ListNotations.
Local Open Scope R_scope.

(* ---------- vectors by components ---------- *)
Lemma nth_vadd (u v : vec) b : length u = length v -> nth b (vadd u v) 0%Z = (nth b u 0 + nth b v 0)%Z.
Proof.
  revert v b. induction u as [|x u IH]; intros [|y v] b H; try discriminate; [destruct b; reflexivity|].
  rewrite vadd_cons. destruct b; [reflexivity|]. cbn [nth]. apply IH. cbn in H. lia.
Qed.
Lemma nth_seq_map {A} (g : nat -> A) D b d : nth b (map g (seq 0 D)) d = if (b <? D)%nat then g b else d.
Proof.
  destruct (Nat.ltb_spec b D) as [H|H].
  - rewrite (nth_indep _ d (g 0%nat)) by (rewrite map_length, seq_length; lia). rewrite map_nth, seq_nth by lia. reflexivity.
  - apply nth_overflow. rewrite map_length, seq_length. lia.
Qed.
Lemma axis_vec_length D a s : length (axis_vec D a s) = D.
Proof. unfold axis_vec. now rewrite map_length, seq_length. Qed.
Lemma nth_axis_vec D a s b : (a < D)%nat -> nth b (axis_vec D a s) 0%Z = if Nat.eqb b a then s else 0%Z.
Proof.
  intros Ha. unfold axis_vec. rewrite nth_seq_map. destruct (Nat.ltb_spec b D); [reflexivity|]. destruct (Nat.eqb_spec b a); [lia|reflexivity].
Qed.
Lemma enum_map_nth (g : nat -> Z -> Z) (d : vec) b : (forall k, g k 0%Z = 0%Z) ->
  nth b (map (fun p => g (fst p) (snd p)) (enum d)) 0%Z = g b (nth b d 0%Z).
Proof.
  intros Hg. unfold enum. assert (G : forall k, nth b (map (fun p => g (fst p) (snd p)) (combine (seq k (length d)) d)) 0%Z = g (k + b)%nat (nth b d 0%Z)).
  { revert b. induction d as [|z d IH]; intros b k; [destruct b; cbn; now rewrite Hg|].
    destruct b as [|b]; cbn [length seq combine map nth fst snd]; [now rewrite Nat.add_0_r|]. rewrite IH. f_equal. lia. }
  apply (G 0%nat).
Qed.
Lemma nth_only_component d a b : nth b (only_component d a) 0%Z = if Nat.eqb b a then nth b d 0%Z else 0%Z.
Proof.
  unfold only_component. rewrite (enum_map_nth (fun k z => if Nat.eqb k a then z else 0%Z)); [reflexivity|]. intros k. destruct (Nat.eqb k a); reflexivity.
Qed.
Lemma only_component_length d a : length (only_component d a) = length d.
Proof. unfold only_component, enum. rewrite map_length, combine_length, seq_length. lia. Qed.
Lemma nth_keep_components axes d b : nth b (keep_components axes d) 0%Z = if existsb (Nat.eqb b) axes then nth b d 0%Z else 0%Z.
Proof.
  unfold keep_components. rewrite (enum_map_nth (fun k z => if existsb (Nat.eqb k) axes then z else 0%Z)); [reflexivity|]. intros k. destruct (existsb _ axes); reflexivity.
Qed.
Lemma keep_components_length axes d : length (keep_components axes d) = length d.
Proof. unfold keep_components, enum. rewrite map_length, combine_length, seq_length. lia. Qed.

Lemma vadd_len D (u v : vec) : length u = D -> length v = D -> length (vadd u v) = D.
Proof. intros H1 H2. rewrite vadd_length; congruence. Qed.
Lemma vneg_len D (u : vec) : length u = D -> length (vneg u) = D.
Proof. intros H. now rewrite vneg_length. Qed.
Ltac lenD := repeat first [assumption | apply vadd_len | apply vneg_len | apply axis_vec_length | apply vzero_length].
Ltac lenE := match goal with L : lattice |- _ => apply (eq_trans (y := ldim L)); [lenD | symmetry; lenD] end.

(* ---------- the mirror table ---------- *)
Lemma mirror_stencil_ok d a : (a < length d)%nat -> mirror_stencil d a = Ok (negate_at a d).
Proof.
  intros H. unfold mirror_stencil. destruct (Nat.ltb_spec (length d) a); [lia|]. destruct (Nat.ltb_spec a (length d)); [reflexivity|lia].
Qed.
Lemma st_index_dir D (S : stencil) i : symmetric_stencil D S -> (i < length S)%nat -> st_index S (dir S i) = Ok i.
Proof.
  intros HS Hi. apply st_index_iff.
  - apply HS.
  - intros d Hd. rewrite (dimD_D D S HS). now apply HS.
  - apply dir_nth_error. exact Hi.
Qed.
Lemma mirrored_ok D (S : stencil) a : symmetric_stencil D S -> (forall d, In d S -> In (negate_at a d) S) -> (a < D)%nat ->
  exists M, mirrored_dirs S a = Ok M /\ length M = length S /\
    forall i, (i < length S)%nat -> (tget M i < length S)%nat /\ dir S (tget M i) = negate_at a (dir S i).
Proof.
  intros HS HM Ha.
  assert (SP : forall i, (i < length S)%nat -> exists k, (k < length S)%nat /\ dir S k = negate_at a (dir S i)).
  { intros i Hi. destruct (In_nth S (negate_at a (dir S i)) []) as (k & Hk & E); [apply HM, dir_In, Hi|]. exists k. split; assumption. }
  set (M := map (fun i => match index_of (negate_at a (dir S i)) S with Some k => k | None => 0%nat end) (seq 0 (length S))).
  assert (N : forall i, (i < length S)%nat -> (tget M i < length S)%nat /\ dir S (tget M i) = negate_at a (dir S i)).
  { intros i Hi. unfold M. rewrite nth_seq_map. destruct (Nat.ltb_spec i (length S)); [|lia].
    destruct (index_of_In (negate_at a (dir S i)) S) as [k Hk]. { apply HM, dir_In, Hi. } rewrite Hk. apply index_of_Some in Hk. split.
    - apply nth_error_Some. rewrite Hk. discriminate.
    - unfold dir at 1. now apply nth_error_nth. }
  exists M. split; [|split; [unfold M; now rewrite map_length, seq_length|exact N]].
  unfold mirrored_dirs. replace M with (map (fun i => tget M i) (seq 0 (length S))).
  - apply (mapM_stencil S). intros i Hi. rewrite mirror_stencil_ok by (rewrite (dir_length D S HS i Hi); exact Ha). cbn [rbind].
    destruct (N i Hi) as [N1 N2]. rewrite <- N2. apply (st_index_dir D S _ HS N1).
  - unfold M at 2. apply map_ext_in. intros i Hi. apply in_seq in Hi. unfold M. rewrite nth_seq_map. destruct (Nat.ltb_spec i (length S)); [reflexivity|lia].
Qed.

(* ---------- rules that permute the links ---------- *)
Section Permuted.
  Context (L : lattice) (S : stencil) (fluid : cell L -> bool) (cells : list (cell L)) (links : list (link L)).
  Context (B : cell L -> nat -> brule R) (f : cell L -> list R) (sigma : link L -> link L).
  Hypothesis HS : symmetric_stencil (ldim L) S.
  Hypothesis HG : lists_geometry S fluid cells links.
  Hypothesis Hs : forall l, is_link S fluid l -> is_link S fluid (sigma l) /\ sigma (sigma l) = l /\
    rule_value S f (fst l) (B (fst l) (snd l)) = nth (snd (sigma l)) (f (fst (sigma l))) 0.

  Lemma permuted_conserves (phi : nat -> R) : (forall l, is_link S fluid l -> phi (opp S (snd l)) = phi (snd (sigma l))) ->
    rsum (map (fun x => rsum (map (fun j => phi j * nth j (arriving S fluid B f x) 0) (seq 0 (length S)))) cells)
    = rsum (map (fun x => rsum (map (fun j => phi j * nth j (f x) 0) (seq 0 (length S)))) cells).
  Proof.
    intros Hphi. rewrite (balance L S fluid cells links B f HS HG phi).
    assert (HL : forall l, In l links <-> is_link S fluid l) by apply HG.
    rewrite rsum_minus.
    rewrite (rsum_ext (fun l => phi (opp S (snd l)) * rule_value S f (fst l) (B (fst l) (snd l)))
               (fun l => (fun l' => phi (snd l') * nth (snd l') (f (fst l')) 0) (sigma l)) links).
    2:{ intros l Hl. apply HL in Hl. destruct (Hs l Hl) as (_ & _ & E). rewrite E, (Hphi l Hl). reflexivity. }
    cbv beta. rewrite (@rsum_reindex (cell L * nat) (cell L * nat) sigma (fun l' => phi (snd l') * nth (snd l') (f (fst l')) 0) links links).
    - lra.
    - apply HG.
    - apply HG.
    - intros l Hl. apply HL. apply Hs. now apply HL.
    - intros l l' Hl Hl' E. apply HL in Hl, Hl'. destruct (Hs l Hl) as (_ & E1 & _), (Hs l' Hl') as (_ & E2 & _). congruence.
    - intros l Hl. apply HL in Hl. exists (sigma l). split; [apply HL, Hs, Hl|apply Hs, Hl].
  Qed.
  Hypothesis Hlen : forall x, length (f x) = length S.
  Lemma permuted_mass : total_mass cells (arriving S fluid B f) = total_mass cells f.
  Proof.
    pose proof (permuted_conserves (fun _ => 1) (fun _ _ => eq_refl)) as H. unfold total_mass.
    rewrite (rsum_ext (fun x => rsum (arriving S fluid B f x)) (fun x => rsum (map (fun j => 1 * nth j (arriving S fluid B f x) 0) (seq 0 (length S)))) cells).
    2:{ intros x _. rewrite (rsum_ext _ (fun j => nth j (arriving S fluid B f x) 0)) by (intros; ring). symmetry. apply rsum_nth, arriving_length. }
    rewrite H. apply rsum_ext. intros x _. rewrite (rsum_ext _ (fun j => nth j (f x) 0)) by (intros; ring). apply rsum_nth, Hlen.
  Qed.
End Permuted.

(* ---------- plane walls ---------- *)
Section Plane.
  Context (L : lattice) (S : stencil) (fluid : cell L -> bool) (a : nat).
  Notation D := (ldim L).
  Hypothesis HS : symmetric_stencil D S.
  Hypothesis Ha : (a < D)%nat.
  Hypothesis HM : forall d, In d S -> In (negate_at a d) S.
  Hypothesis HF : plane_walls a fluid.
  Context (inv M : list nat).
  Hypothesis Hinv : inverse_dirs S = Ok inv.
  Hypothesis HMir : mirrored_dirs S a = Ok M.

  Notation nrm i := (axis_vec D a (- nth a (dir S i) 0)%Z).
  Definition plane_source (l : link L) : link L := (shift (fst l) (vadd (dir S (snd l)) (nrm (snd l))), tget inv (tget M (snd l))).

  Lemma inv_get i : (i < length S)%nat -> tget inv i = opp S i.
  Proof. intros Hi. rewrite (inverse_dirs_ok _ _ HS) in Hinv. injection Hinv as <-. now apply tget_inverse. Qed.
  Lemma M_get i : (i < length S)%nat -> (tget M i < length S)%nat /\ dir S (tget M i) = negate_at a (dir S i).
  Proof. intros Hi. destruct (mirrored_ok D S a HS HM Ha) as (M' & E & _ & H). rewrite HMir in E. injection E as <-. now apply H. Qed.
  Lemma src_dir i : (i < length S)%nat -> (tget inv (tget M i) < length S)%nat /\ dir S (tget inv (tget M i)) = vneg (negate_at a (dir S i)).
  Proof.
    intros Hi. destruct (M_get i Hi) as [H1 H2]. rewrite (inv_get _ H1). split; [apply (opp_lt D S HS _ H1)|].
    rewrite (dir_opp D S HS _ H1), H2. reflexivity.
  Qed.
  Lemma tang_nth d b : length d = D -> nth b (vadd d (axis_vec D a (- nth a d 0)%Z)) 0%Z = if Nat.eqb b a then 0%Z else nth b d 0%Z.
  Proof. intros Hd. rewrite nth_vadd by (now rewrite axis_vec_length). rewrite nth_axis_vec by exact Ha. destruct (Nat.eqb_spec b a) as [->|]; lia. Qed.
  Lemma tang_length d s : length d = D -> length (vadd d (axis_vec D a s)) = D.
  Proof. intros Hd. rewrite vadd_length; [exact Hd|]. now rewrite axis_vec_length. Qed.

  Lemma plane_source_link l : is_link S fluid l -> is_link S fluid (plane_source l) /\ plane_source (plane_source l) = l.
  Proof.
    destruct l as [x i]. intros (Hx & Hi & Hn). cbn [fst snd] in Hx, Hi, Hn. unfold plane_source. cbn [fst snd].
    set (k := tget inv (tget M i)). destruct (src_dir i Hi) as [Hk Ek]. fold k in Hk, Ek.
    pose proof (dir_length D S HS i Hi) as Li. pose proof (dir_length D S HS k Hk) as Lk.
    set (tt := vadd (dir S i) (nrm i)). assert (Lt : length tt = D) by (apply tang_length; exact Li).
    assert (Ca : nth a (dir S k) 0%Z = nth a (dir S i) 0%Z).
    { rewrite Ek, nth_vneg, enum_nth_negate, Nat.eqb_refl. lia. }
    split.
    - split; [|split]; cbn [fst snd].
      + rewrite HF; [exact Hx|exact Lt|]. unfold tt. rewrite tang_nth by exact Li. now rewrite Nat.eqb_refl.
      + exact Hk.
      + rewrite shift_add by assumption.
        assert (E : vadd tt (dir S k) = vadd (dir S i) (vadd (vadd tt (dir S k)) (vneg (dir S i)))).
        { apply vec_ext; [lenE|]. intros b. rewrite !nth_vadd, nth_vneg by lenE. lia. }
        rewrite E, <- shift_add by lenD.
        rewrite HF; [exact Hn|lenD|]. rewrite !nth_vadd, nth_vneg by lenE. unfold tt. rewrite tang_nth by exact Li. rewrite Nat.eqb_refl, Ca. lia.
    - destruct (src_dir k Hk) as [Hk2 Ek2]. f_equal.
      + rewrite shift_add by (try exact Lt; apply tang_length; exact Lk).
        replace (vadd tt (vadd (dir S k) (nrm k))) with (vzero D); [apply shift_zero|].
        apply vec_ext; [rewrite vzero_length, vadd_length; [congruence|]; rewrite Lt; symmetry; apply tang_length; exact Lk|].
        intros b. rewrite nth_vadd by (rewrite Lt; symmetry; apply tang_length; exact Lk). unfold tt. rewrite !tang_nth by assumption.
        unfold vzero. rewrite nth_repeat. destruct (Nat.eqb_spec b a) as [->|Hb]; [reflexivity|].
        rewrite Ek, nth_vneg, enum_nth_negate. destruct (Nat.eqb_spec b a); [contradiction|lia].
      + apply (dir_inj D S HS); [exact Hk2|exact Hi|]. rewrite Ek2, Ek. apply vec_ext; [now rewrite vneg_length, negate_at_length, vneg_length, negate_at_length|].
        intros b. rewrite nth_vneg, enum_nth_negate, nth_vneg, enum_nth_negate. destruct (Nat.eqb b a); lia.
  Qed.

  Lemma plane_value f l : is_link S fluid l -> rule_value S f (fst l) (free_slip S inv M (nrm (snd l)) (snd l)) = nth (snd (plane_source l)) (f (fst (plane_source l))) 0.
  Proof. destruct l as [x i]. intros _. reflexivity. Qed.

  Context (cells : list (cell L)) (links : list (link L)) (f : cell L -> list R).
  Hypothesis HG : lists_geometry S fluid cells links.
  Hypothesis Hlen : forall x, length (f x) = length S.
  Context (B : cell L -> nat -> brule R).
  Hypothesis HB : forall x i, is_link S fluid (x, i) -> B x i = free_slip S inv M (nrm i) i.

  Lemma plane_hyp : forall l, is_link S fluid l -> is_link S fluid (plane_source l) /\ plane_source (plane_source l) = l /\
    rule_value S f (fst l) (B (fst l) (snd l)) = nth (snd (plane_source l)) (f (fst (plane_source l))) 0.
  Proof.
    intros l Hl. destruct (plane_source_link l Hl) as [H1 H2]. split; [exact H1|]. split; [exact H2|].
    rewrite HB by (destruct l; exact Hl). now apply plane_value.
  Qed.
  Theorem plane_mass : total_mass cells (arriving S fluid B f) = total_mass cells f.
  Proof. apply (permuted_mass L S fluid cells links B f plane_source HS HG plane_hyp Hlen). Qed.
  Theorem plane_tangential b : b <> a -> total_momentum S b cells (arriving S fluid B f) = total_momentum S b cells f.
  Proof.
    intros Hb. unfold total_momentum, cell_momentum. apply (permuted_conserves L S fluid cells links B f plane_source HS HG plane_hyp).
    intros [x i] (_ & Hi & _). cbn [fst snd plane_source] in *. rewrite (dir_opp D S HS i Hi). destruct (src_dir i Hi) as [_ E]. rewrite E.
    rewrite !nth_vneg, enum_nth_negate. destruct (Nat.eqb_spec b a); [contradiction|reflexivity].
  Qed.
  (* the wall takes twice the normal momentum of the outgoing populations *)
  Theorem plane_normal : total_momentum S a cells (arriving S fluid B f) =
    total_momentum S a cells f - 2 * rsum (map (fun l => IZR (nth a (dir S (snd l)) 0%Z) * nth (snd l) (f (fst l)) 0) links).
  Proof.
    rewrite (momentum_balance L S fluid cells links B f HS HG). f_equal.
    assert (HL : forall l, In l links <-> is_link S fluid l) by apply HG.
    rewrite (rsum_ext _ (fun l => (fun l' => IZR (nth a (dir S (snd l')) 0%Z) * nth (snd l') (f (fst l')) 0) l
                         + (fun l' => IZR (nth a (dir S (snd l')) 0%Z) * nth (snd l') (f (fst l')) 0) (plane_source l))).
    - rewrite rsum_plus. cbv beta. rewrite (@rsum_reindex (cell L * nat) (cell L * nat) plane_source (fun l' => IZR (nth a (dir S (snd l')) 0%Z) * nth (snd l') (f (fst l')) 0) links links).
      + lra.
      + apply HG.
      + apply HG.
      + intros l Hl. apply HL. apply plane_hyp. now apply HL.
      + intros l l' Hl Hl' E. apply HL in Hl, Hl'. destruct (plane_hyp l Hl) as (_ & E1 & _), (plane_hyp l' Hl') as (_ & E2 & _). congruence.
      + intros l Hl. apply HL in Hl. exists (plane_source l). split; [apply HL, plane_hyp, Hl|apply plane_hyp, Hl].
    - intros [x i] Hl. apply HL in Hl. pose proof (plane_hyp _ Hl) as (_ & _ & E). cbn [fst snd] in E |- *. rewrite E.
      destruct Hl as (_ & Hi & _). cbn [snd] in Hi. destruct (src_dir i Hi) as [_ E']. cbn [plane_source snd fst].
      rewrite E', nth_vneg, enum_nth_negate, Nat.eqb_refl, Z.opp_involutive. lra.
  Qed.
End Plane.
