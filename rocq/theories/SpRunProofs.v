From Coq Require Import List ZArith Bool Arith Lia.
From Verif Require Import StencilModel StencilProofs AccessModel AccessProofs StreamModel StreamSpec StreamProofs GridModel GridProofs SparseModel SparseSpec SparseProofs SparseProofs2 SparseProofs3 SpRunModel SpRunSpec.
Import ListNotations.

Lemma nth_error_ext_len {A} (l l' : list A) : length l = length l' -> (forall j, (j < length l)%nat -> nth_error l j = nth_error l' j) -> l = l'.
Proof.
  revert l'. induction l as [|a l IH]; intros [|b l'] L H; try discriminate; [reflexivity|]. f_equal; [specialize (H 0%nat (Nat.lt_0_succ _)); cbn in H; congruence|].
  apply IH; [cbn in L; lia|]. intros j Hj. apply (H (Datatypes.S j)). cbn. lia.
Qed.
(* ---------- memory ---------- *)
Section Mem.
  Variables (S : stencil) (shape : list nat) (flags : coord -> Z) (ff om : Z) (V : Type).
  Notation acc := (list_access S shape flags ff om SoA).
  Notation N := (num_cells shape flags ff om).
  Notation nf := (length (fluid_coordinates shape flags ff)).

  Lemma nf_le : (nf <= N)%nat.
  Proof. unfold num_cells, coordinates. rewrite app_length. lia. Qed.
  Lemma acc_inj n i n' i' : (n < N)%nat -> (n' < N)%nat -> acc n i = acc n' i' -> n = n' /\ i = i'.
  Proof.
    unfold list_access. cbn [list_strides fst snd]. intros Hn Hn' E. assert (i = i') by (destruct (lt_eq_lt_dec i i') as [[H|H]|H]; [|exact H|]; exfalso; nia). subst i'. split; [lia|reflexivity].
  Qed.
  Lemma store_other n vals dst a : (forall i, (i < length vals)%nat -> a <> acc n i) -> store_cell S shape flags ff om V SoA n vals dst a = dst a.
  Proof.
    intros H. unfold store_cell. assert (G : forall l d, (forall iv, In iv l -> a <> acc n (fst iv)) ->
      fold_left (fun d iv => set_slot V (acc n (fst iv)) (snd iv) d) l d a = d a).
    { induction l as [|iv l IH]; intros d Hl; [reflexivity|]. cbn [fold_left]. rewrite IH by (intros; apply Hl; now right). unfold set_slot.
      rewrite (proj2 (Nat.eqb_neq _ _)); [reflexivity|]. apply Hl. now left. }
    apply G. intros [i v] Hin. apply in_combine_l in Hin. apply in_seq in Hin. cbn. apply H. lia.
  Qed.
  Lemma store_own n vals dst i v : (n < N)%nat -> nth_error vals i = Some v -> store_cell S shape flags ff om V SoA n vals dst (acc n i) = v.
  Proof.
    intros Hn Hv. unfold store_cell.
    assert (G : forall l s d, nth_error l i = Some v -> fold_left (fun d iv => set_slot V (acc n (fst iv)) (snd iv) d) (combine (seq s (length l)) l) d (acc n (s + i)) = v).
    { clear Hv vals. induction i as [|i IH]; intros [|w l] s d Hl; try discriminate; cbn [length seq combine fold_left].
      - injection Hl as ->. rewrite Nat.add_0_r.
        assert (G2 : forall l s' d, (s < s')%nat -> fold_left (fun d iv => set_slot V (acc n (fst iv)) (snd iv) d) (combine (seq s' (length l)) l) d (acc n s) = d (acc n s)).
        { clear l. induction l as [|w l IH]; intros s' d' Hs; [reflexivity|]. cbn [length seq combine fold_left]. rewrite IH by lia. unfold set_slot. cbn [fst snd].
          rewrite (proj2 (Nat.eqb_neq _ _)); [reflexivity|]. intros E. apply acc_inj in E; lia. }
        rewrite G2 by lia. unfold set_slot. cbn [fst snd]. now rewrite Nat.eqb_refl.
      - cbn in Hl. replace (s + Datatypes.S i)%nat with (Datatypes.S s + i)%nat by lia. now apply IH. }
    exact (G vals 0%nat dst Hv).
  Qed.
  (* a kernel writes in every fluid cell what it computed, whatever the order *)
  Lemma cells_stored (vals : nat -> list V) dst k : (k <= nf)%nat -> (forall n, (n < nf)%nat -> length (vals n) = length S) -> forall n i, (n < nf)%nat -> (i < length S)%nat ->
    fold_left (fun d m => store_cell S shape flags ff om V SoA m (vals m) d) (seq 0 k) dst (acc n i) = if (n <? k)%nat then nth i (vals n) (dst 0%nat) else dst (acc n i).
  Proof.
    intros Hk HL n i Hn Hi. induction k as [|k IH]; [reflexivity|]. rewrite seq_S, fold_left_app. cbn [fold_left plus]. pose proof nf_le as Hle.
    destruct (Nat.eq_dec n k) as [->|Ne].
    - rewrite (proj2 (Nat.ltb_lt _ _)) by lia. apply store_own; [lia|]. apply nth_error_nth'. rewrite HL; auto.
    - rewrite store_other. 2:{ intros i' Hi' E. apply acc_inj in E; [lia|lia|lia]. }
      rewrite IH by lia. destruct (n <? k)%nat eqn:E; [apply Nat.ltb_lt in E; rewrite (proj2 (Nat.ltb_lt _ _)) by lia|apply Nat.ltb_ge in E; rewrite (proj2 (Nat.ltb_ge _ _)) by lia]; reflexivity.
  Qed.
  Lemma sweep_cell collide idx src dst n : (n < nf)%nat -> (forall m f, (m < nf)%nat -> length f = length S -> length (collide m f) = length S) ->
    sparse_cell S shape flags ff om V SoA (sparse_sweep S shape flags ff om V SoA collide idx src dst) n
    = collide n (pre_collision S shape flags ff om SoA idx src n).
  Proof.
    intros Hn HC. assert (Lp : forall m, length (pre_collision S shape flags ff om SoA idx src m) = length S) by (intros; unfold pre_collision; now rewrite map_length, seq_length).
    unfold sparse_cell, sparse_sweep. transitivity (map (fun i => nth i (collide n (pre_collision S shape flags ff om SoA idx src n)) (dst 0%nat)) (seq 0 (length S))).
    - apply map_ext_in. intros i Hi. apply in_seq in Hi.
      rewrite (cells_stored (fun m => collide m (pre_collision S shape flags ff om SoA idx src m)) dst nf (Nat.le_refl _)) by (auto; lia). now rewrite (proj2 (Nat.ltb_lt _ _)) by exact Hn.
    - apply map_nth_seq. auto.
  Qed.
  Lemma setter_cell f0 arr n : (n < nf)%nat -> (forall m, (m < nf)%nat -> length (f0 m) = length S) ->
    sparse_cell S shape flags ff om V SoA (sparse_setter S shape flags ff om V SoA f0 arr) n = f0 n.
  Proof.
    intros Hn HL. unfold sparse_cell, sparse_setter. transitivity (map (fun i => nth i (f0 n) (arr 0%nat)) (seq 0 (length S))).
    - apply map_ext_in. intros i Hi. apply in_seq in Hi. rewrite (cells_stored f0 arr nf (Nat.le_refl _)) by (auto; lia). now rewrite (proj2 (Nat.ltb_lt _ _)) by exact Hn.
    - apply map_nth_seq. auto.
  Qed.
End Mem.

(* ---------- geometry ---------- *)
Local Open Scope Z_scope.
Lemma Forall2_len {A B} (P : A -> B -> Prop) l l' : Forall2 P l l' -> length l = length l'.
Proof. induction 1; cbn; auto. Qed.
Lemma interior_dec shape g c : {interior shape g c} + {~ interior shape g c}.
Proof.
  unfold interior. revert c. induction shape as [|n sh IH]; intros [|x c].
  - left. constructor.
  - right. intros H. inversion H.
  - right. intros H. inversion H.
  - destruct (Z_le_dec (Z.of_nat g) x) as [H1|H1]; [|right; intros H; inversion H; lia]. destruct (Z_lt_dec x (Z.of_nat n - Z.of_nat g)) as [H2|H2]; [|right; intros H; inversion H; lia].
    destruct (IH c) as [H3|H3]; [left; constructor; auto|right; intros H; inversion H; auto].
Qed.
Section Geo.
  Variables (S : stencil) (N : list positive) (shape : list nat) (g : nat) (flags : coord -> Z) (ff nf om : Z) (df : vec -> bool).
  Hypothesis U : unit_stencil (length shape) S.
  Hypothesis Sy : forall d, In d S -> In (vneg d) S.
  Hypothesis HG : same_geometry N shape g flags ff nf om df.

  Lemma sizes_length : length N = length shape.
  Proof. destruct HG. eapply Forall2_len; eauto. Qed.
  Lemma interior_near c : interior shape g c -> near shape g c.
  Proof. unfold interior, near. clear. induction 1; constructor; auto; lia. Qed.
  Lemma near_domain c : near shape g c -> in_domain shape c.
  Proof. destruct HG as [Hg _ _ _ _ _ _]. unfold near, in_domain. clear - Hg. induction 1; constructor; auto; lia. Qed.

  Lemma lattice_raw c : interior shape g c -> forall v, gshift_raw (torus_shape N) (lattice_coord N g c) v = gshift_raw (torus_shape N) (map (fun x => x - Z.of_nat g) c) v.
  Proof.
    destruct HG as [_ Hs _ _ _ _ _]. unfold interior, lattice_coord. clear - Hs. intros H v. revert c H v. induction Hs as [|P n N' sh HP _ IH]; intros c H v; [reflexivity|].
    inversion H as [|x n' c' sh' Hx Hc E1 E2]; subst. cbn [combine map torus_shape fst snd gshift_raw hd tl]. f_equal; [|apply IH; exact Hc]. cbn [wrap]. apply Zplus_mod_idemp_l.
  Qed.
  (* positions of the upwind neighbours *)
  Lemma upwind_raw c j : interior shape g c -> length (dir S j) = length shape ->
    lattice_coord N g (upwind S c j) = gshift_raw (torus_shape N) (lattice_coord N g c) (vneg (dir S j)).
  Proof.
    intros Hc Hd. rewrite lattice_raw by exact Hc. unfold upwind. generalize dependent (dir S j). intros d Hd.
    pose proof sizes_length as HN. apply Forall2_len in Hc. unfold lattice_coord. clear - Hc Hd HN. revert c d shape Hc Hd HN.
    induction N as [|P N' IH]; intros [|x c] [|y d] [|n sh] Hc Hd HN; try discriminate; [reflexivity|]. cbn [map vneg]. rewrite vadd_cons.
    unfold torus_shape. cbn [combine map fst snd gshift_raw hd tl GridModel.wrap]. f_equal; [f_equal; lia|]. cbn in Hc, Hd, HN. apply (IH c d sh); lia.
  Qed.
  Lemma upwind_near c j : interior shape g c -> (j < length S)%nat -> near shape g (upwind S c j).
  Proof.
    intros Hc Hj. destruct U as (U1 & _). rewrite Forall_forall in U1. destruct (U1 (dir S j)) as [U2 U3]; [apply nth_In; exact Hj|]. unfold upwind.
    generalize dependent (dir S j). intros d Hd He. unfold interior in Hc. unfold near. clear - Hc Hd He. revert d Hd He. induction Hc as [|x n c sh Hx _ IH]; intros [|y d] Hd He; try discriminate; [constructor|].
    cbn [map vneg]. rewrite vadd_cons. inversion He; subst. constructor; [lia|]. apply IH; auto.
  Qed.
  (* an interior coordinate is recovered from its position *)
  Lemma interior_back c : interior shape g c -> array_coord g (lattice_coord N g c) = c.
  Proof.
    destruct HG as [_ Hs _ _ _ _ _]. unfold interior, array_coord, lattice_coord. clear - Hs. intros H. revert c H. induction Hs as [|P n N' sh HP _ IH]; intros c H; inversion H as [|x n' c' sh' Hx Hc E1 E2]; subst; [reflexivity|].
    cbn [combine map fst snd]. f_equal; [|apply IH; exact Hc]. rewrite Z.mod_small by lia. lia.
  Qed.
  Lemma position_back y : in_grid (torus_shape N) y = true -> lattice_coord N g (array_coord g y) = y.
  Proof.
    unfold array_coord, lattice_coord. clear. revert y. induction N as [|P N' IH]; intros [|z y] H; try discriminate; [reflexivity|]. cbn [torus_shape map in_grid] in H. apply andb_prop in H as [H1 H2].
    cbn [map combine fst snd]. f_equal; [|apply IH; exact H2]. cbn in H1. rewrite Z.mod_small by lia. lia.
  Qed.
  Lemma position_interior y : in_grid (torus_shape N) y = true -> df y = true -> interior shape g (array_coord g y).
  Proof.
    intros Hy Hd. destruct HG as [_ _ Hc _ _ _ _]. specialize (Hc y Hy Hd). unfold interior, array_coord. clear - Hc Hy. revert N Hy. induction Hc as [|z n y sh Hz _ IH]; intros [|P N'] Hy; try discriminate; [constructor|].
    cbn [torus_shape map in_grid] in Hy. apply andb_prop in Hy as [H1 H2]. cbn in H1. constructor; [lia|]. eapply IH; eauto.
  Qed.
  Lemma position_fluid y : in_grid (torus_shape N) y = true -> df y = true -> fluid shape flags ff (array_coord g y).
  Proof.
    intros Hy Hd. pose proof (position_interior y Hy Hd) as HI. pose proof (interior_near _ HI) as Hn. split; [now apply near_domain|]. destruct HG as [_ _ _ Hff _ _ _]. apply Hff; [exact Hn|]. split; [exact HI|]. now rewrite position_back.
  Qed.
  Lemma fluid_position c : fluid shape flags ff c -> interior shape g c /\ in_grid (torus_shape N) (lattice_coord N g c) = true /\ df (lattice_coord N g c) = true.
  Proof.
    intros [Hd Hf]. assert (HI : interior shape g c) by (destruct HG as [_ _ _ _ _ _ Ho]; now apply Ho). split; [exact HI|]. split; [|destruct HG as [_ _ _ Hff _ _ _]; apply Hff; [now apply interior_near|exact Hf]].
    destruct HG as [_ Hs _ _ _ _ _]. unfold interior, lattice_coord in *. clear - Hs HI. revert c HI. induction Hs as [|P n N' sh HP _ IH]; intros c H; inversion H as [|x n' c' sh' Hx Hc E1 E2]; subst; [reflexivity|].
    change (torus_shape (P :: N')) with (Some P :: torus_shape N'). cbn [combine map fst snd in_grid in_axis]. rewrite (IH _ Hc), andb_true_r. pose proof (Z.mod_pos_bound (x - Z.of_nat g) (Zpos P) eq_refl). lia.
  Qed.
  Lemma image_congruent c y : near shape g c -> lattice_coord N g c = y -> interior shape g (array_coord g y) -> congruent g c (array_coord g y) shape.
  Proof.
    destruct HG as [_ Hs _ _ _ _ _]. unfold near, lattice_coord, interior, array_coord. intros Hn <-. clear - Hs Hn. revert c Hn. induction Hs as [|P n N' sh HP _ IH]; intros c Hn HI; inversion Hn as [|x n' c' sh' Hx Hc E1 E2]; subst; [constructor|].
    cbn [combine map fst snd] in *. inversion HI as [|? ? ? ? I1 I2]; subst. constructor; [|apply IH; auto].
    destruct HP as [HP|HP].
    - destruct (Z.eq_dec x (Z.of_nat g - 1)) as [->|N1].
      + exists 1. replace (Z.of_nat g - 1 - Z.of_nat g) with (-1) by lia. replace (-1) with (Zpos P - 1 + (-1) * Zpos P) at 1 by lia. rewrite Z.mod_add, Z.mod_small by lia. lia.
      + destruct (Z.eq_dec x (Z.of_nat n - Z.of_nat g)) as [->|N2].
        * exists (-1). replace (Z.of_nat n - Z.of_nat g - Z.of_nat g) with (0 + 1 * Zpos P) by lia. rewrite Z.mod_add, Z.mod_small by lia. lia.
        * exists 0. rewrite Z.mod_small by lia. lia.
    - destruct (Z.eq_dec x (Z.of_nat g - 1)) as [->|N1].
      + exfalso. replace (Z.of_nat g - 1 - Z.of_nat g) with (Zpos P - 1 + (-1) * Zpos P) in I1 by lia. rewrite Z.mod_add, Z.mod_small in I1 by lia. lia.
      + exists 0. rewrite Z.mod_small by lia. lia.
  Qed.
  Lemma geometry_ok : sparse_geometry S shape flags ff om g.
  Proof. split; [exact U|]. split; [exact Sy|]. destruct HG as [Hg _ _ _ _ Ho Hi]. split; [exact Hg|]. split; [intros c [H1 H2]; now apply Hi|]. intros c _ [_ H]. exact (Ho c H). Qed.

  (* what a fluid cell of the list pulls is what arrives in the cell of the lattice *)
  Lemma pulls_lattice (x : cell (torus N)) j : (j < length S)%nat -> df (proj1_sig x) = true -> let y := shift x (vneg (dir S j)) in
    (df (proj1_sig y) = true -> pulls S shape flags ff nf om g (array_coord g (proj1_sig x)) j (array_coord g (proj1_sig y)) j) /\
    (df (proj1_sig y) = false -> pulls S shape flags ff nf om g (array_coord g (proj1_sig x)) j (array_coord g (proj1_sig x)) (opp S j)).
  Proof.
    intros Hj Hx y. pose proof (proj2_sig x) as Gx. cbn in Gx. pose proof (proj2_sig y) as Gy. cbn in Gy. set (c := array_coord g (proj1_sig x)).
    pose proof (position_interior _ Gx Hx) as Ic. fold c in Ic. pose proof (upwind_near c j Ic Hj) as Nu.
    assert (Hd : length (dir S j) = length shape). { destruct U as (U1 & _). rewrite Forall_forall in U1. apply (U1 (dir S j)). apply nth_In. exact Hj. }
    assert (Ey : lattice_coord N g (upwind S c j) = proj1_sig y). { rewrite upwind_raw by assumption. unfold c. rewrite position_back by exact Gx. reflexivity. }
    destruct HG as [Hg Hs Hc Hff Hnf Hom Hout]. split; intros Hy.
    - destruct (interior_dec shape g (upwind S c j)) as [HI|HI].
      + assert (A : active flags ff om (upwind S c j)) by (left; apply Hff; [exact Nu|]; split; [exact HI|]; now rewrite Ey).
        rewrite <- Ey, (interior_back _ HI). now constructor.
      + apply pull_periodic.
        * intros [A|A]; [apply Hff in A; [tauto|exact Nu]|exact (Hom _ A)].
        * intros W. apply Hnf in W; [|exact Nu]. rewrite Ey, Hy in W. discriminate.
        * split; [exact HI|]. split; [now apply position_interior|]. apply image_congruent; auto. now apply position_interior.
        * left. apply (position_fluid _ Gy Hy).
    - apply pull_bounce.
      + intros [A|A]; [apply Hff in A; [|exact Nu]; rewrite Ey, Hy in A; destruct A; discriminate|exact (Hom _ A)].
      + apply Hnf; [exact Nu|]. now rewrite Ey.
      + destruct U as (_ & U2 & _). assert (HS : symmetric_stencil (length shape) S).
        { destruct U as (U1 & _). rewrite Forall_forall in U1. split; [intros E; rewrite E in Hj; cbn in Hj; lia|]. split; [exact U2|]. split; [intros d Hd'; apply (U1 d Hd')|exact Sy]. }
        exists (dir S j). split; [now apply dir_nth_error|]. rewrite <- (dir_opp (length shape) S HS j Hj). apply dir_nth_error. now apply (opp_lt (length shape) S HS).
  Qed.

  (* every fluid cell of the lattice is in the list exactly once *)
  Lemma listed (x : cell (torus N)) : df (proj1_sig x) = true -> exists m, nth_error (fluid_coordinates shape flags ff) m = Some (array_coord g (proj1_sig x)).
  Proof. intros Hx. apply In_nth_error. apply in_fluids. apply position_fluid; [exact (proj2_sig x)|exact Hx]. Qed.
  Lemma listed_back m c : nth_error (fluid_coordinates shape flags ff) m = Some c -> exists x : cell (torus N), c = array_coord g (proj1_sig x) /\ df (proj1_sig x) = true.
  Proof.
    intros H. apply nth_error_In, in_fluids in H. destruct (fluid_position c H) as (HI & HGr & Hd). exists (exist _ (lattice_coord N g c) HGr). cbn. split; [symmetry; now apply interior_back|exact Hd].
  Qed.

  Variables (V : Type) (v0 : V) (idx : nat -> nat -> nat) (C : nat -> cell (torus N) -> list V -> list V) (Cs : nat -> nat -> list V -> list V).
  Hypothesis Hidx : create_index_array S shape flags ff nf om g = Ok idx.
  Hypothesis HC : forall n x f, length f = length S -> length (C n x f) = length S.
  Hypothesis HCs : forall n m (x : cell (torus N)) f, nth_error (fluid_coordinates shape flags ff) m = Some (array_coord g (proj1_sig x)) -> df (proj1_sig x) = true -> length f = length S -> Cs n m f = C n x f.
  Variables (B : nat -> cell (torus N) -> nat -> brule V) (f0 : cell (torus N) -> list V) (fs : nat -> list V).
  Hypothesis HB : forall n x i (f : cell (torus N) -> list V), (i < length S)%nat -> (forall y, length (f y) = length S) ->
    b_fun (B n x i) (map (pacc_value (torus N) V v0 S f x) (b_reads (B n x i))) = nth i (f x) v0.
  Hypothesis H0 : forall x, length (f0 x) = length S.
  Hypothesis Hfs : forall m (x : cell (torus N)), nth_error (fluid_coordinates shape flags ff) m = Some (array_coord g (proj1_sig x)) -> df (proj1_sig x) = true -> fs m = f0 x.
  Notation P := (post v0 S (fun x : cell (torus N) => df (proj1_sig x)) C B f0).
  Notation nfl := (length (fluid_coordinates shape flags ff)).

  Lemma run_lattice arr tmp n m (x : cell (torus N)) : nth_error (fluid_coordinates shape flags ff) m = Some (array_coord g (proj1_sig x)) -> df (proj1_sig x) = true ->
    sparse_cell S shape flags ff om V SoA (fst (sparse_run S shape flags ff om V SoA Cs idx n (sparse_setter S shape flags ff om V SoA fs arr) tmp)) m = P n x.
  Proof.
    assert (Lfs : forall m, (m < nfl)%nat -> length (fs m) = length S).
    { intros k Hk. destruct (nth_error (fluid_coordinates shape flags ff) k) as [c|] eqn:E; [|apply nth_error_None in E; lia]. destruct (listed_back k c E) as (y & -> & Hy). rewrite (Hfs k y E Hy). apply H0. }
    assert (LC : forall n m f, (m < nfl)%nat -> length f = length S -> length (Cs n m f) = length S).
    { intros t k f Hk Hf. destruct (nth_error (fluid_coordinates shape flags ff) k) as [c|] eqn:E; [|apply nth_error_None in E; lia]. destruct (listed_back k c E) as (y & -> & Hy). rewrite (HCs t k y f E Hy Hf). now apply HC. }
    assert (LP : forall n x, length (P n x) = length S) by (intros; apply post_length; auto).
    revert m x. induction n as [|n IH]; intros m x Hm Hx.
    - cbn [sparse_run fst]. rewrite setter_cell by (auto; apply nth_error_Some; congruence). now apply Hfs.
    - cbn [sparse_run]. destruct (sparse_run S shape flags ff om V SoA Cs idx n (sparse_setter S shape flags ff om V SoA fs arr) tmp) as [a t] eqn:E. cbn [fst] in *.
      rewrite sweep_cell by (auto; apply nth_error_Some; congruence). rewrite (HCs n m x _ Hm Hx) by (unfold pre_collision; now rewrite map_length, seq_length).
      cbn [post]. f_equal.
      set (F := fun (c : coord) (k : nat) => match bool_dec (in_grid (torus_shape N) (lattice_coord N g c)) true with left H => nth k (P n (exist _ (lattice_coord N g c) H)) v0 | right _ => v0 end).
      assert (FE : forall (y : cell (torus N)) k, F (array_coord g (proj1_sig y)) k = nth k (P n y) v0).
      { intros y k. unfold F. destruct (bool_dec _ true) as [H|H].
        - f_equal. f_equal. apply gcell_eq. cbn. apply position_back. exact (proj2_sig y).
        - exfalso. apply H. rewrite position_back; exact (proj2_sig y). }
      assert (Hsrc : forall m k y, nth_error (coordinates shape flags ff om) m = Some y -> (k < length S)%nat -> a (list_access S shape flags ff om SoA m k) = F y k).
      { intros m' k y Hy Hk. assert (NB : boundary_coordinates shape flags om = []).
        { destruct (boundary_coordinates shape flags om) as [|c l] eqn:Eb; [reflexivity|]. exfalso. assert (Hin : In c (boundary_coordinates shape flags om)) by (rewrite Eb; now left).
          apply filter_In in Hin as [_ Hin]. destruct HG as [_ _ _ _ _ Ho _]. apply (Ho c). unfold flagged. unfold has_flag in Hin. intros Z0. rewrite Z0 in Hin. discriminate. }
        unfold coordinates in Hy. rewrite NB, app_nil_r in Hy. destruct (listed_back m' y Hy) as (z & -> & Hz). rewrite FE.
        specialize (IH m' z Hy Hz). rewrite <- IH. unfold sparse_cell. rewrite (nth_indep _ v0 (a (list_access S shape flags ff om SoA m' 0%nat))) by (rewrite map_length, seq_length; exact Hk).
        rewrite (map_nth (fun i => a (list_access S shape flags ff om SoA m' i))), seq_nth by exact Hk. reflexivity. }
      apply nth_error_ext_len; [unfold pre_collision; now rewrite !map_length, !seq_length|]. intros j Hj. unfold pre_collision in Hj. rewrite map_length, seq_length in Hj.
      destruct (pre_values S shape flags ff nf om g geometry_ok idx a F Hidx Hsrc m _ Hm j Hj) as (y & k & Hp & ->).
      rewrite nth_error_map. rewrite (nth_error_nth' (seq 0 (length S)) 0%nat) by (rewrite seq_length; exact Hj). rewrite seq_nth by exact Hj. cbn [option_map plus]. f_equal.
      destruct (pulls_lattice x j Hj Hx) as [P1 P2]. cbv zeta in P1, P2.
      destruct (df (proj1_sig (shift x (vneg (dir S j))))) eqn:Ed.
      + destruct (pulls_det S shape flags ff nf om g U _ _ _ _ _ _ Hp (P1 eq_refl)) as [-> ->]. apply FE.
      + destruct (pulls_det S shape flags ff nf om g U _ _ _ _ _ _ Hp (P2 eq_refl)) as [-> ->]. rewrite FE. symmetry. apply HB; [|intros; apply LP].
        assert (HS : symmetric_stencil (length shape) S).
        { destruct U as (U1 & U2 & _). rewrite Forall_forall in U1. split; [intros E0; rewrite E0 in Hj; cbn in Hj; lia|]. split; [exact U2|]. split; [intros d Hd'; apply (U1 d Hd')|exact Sy]. }
        now apply (opp_lt (length shape) S HS).
  Qed.
End Geo.
