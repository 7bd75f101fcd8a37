(* Walls of the ready-made scenarios; mass in the lid-driven cavity. *)
From Coq Require Import String List ZArith Bool Arith Reals Lra Lia Permutation QArith Qreals.
From Verif Require Import StencilModel StencilSpec StencilProofs StencilProofs2 AccessModel AccessProofs GridModel GridProofs StreamModel StreamSpec StreamProofs StreamProofs2 RealLib LinLib EqModel EqProofs
  CollModel CollSpec BoundModel BoundSpec BoundProofs BoundProofs2 BoundProofs4 BoundProofs8 ChanProofs5 SymSpec SymProofs ScnModel ScnSpec.
Import ListNotations.
Local Open Scope R_scope.

Lemma dims_23 {T} (l : list T) : length l = 2%nat \/ length l = 3%nat -> (exists a b, l = [a; b]) \/ (exists a b c, l = [a; b; c]).
Proof. destruct l as [|a [|b [|c [|d l]]]]; cbn; intros [H|H]; try discriminate; eauto. Qed.

Ltac zcases := repeat match goal with
  | |- context [Z.eqb ?a ?b] => destruct (Z.eqb_spec a b)
  | |- context [Z.leb ?a ?b] => destruct (Z.leb_spec a b)
  end; try reflexivity; try (exfalso; lia).
Ltac array H x := let Hx := fresh in let P := fresh in destruct H as [Hx P];
  repeat (let z := fresh "z" in destruct x as [|z x]; [discriminate Hx|]); destruct x; [|discriminate Hx].

Lemma box_flags {W} shape (w : W) x : length shape = 2%nat \/ length shape = 3%nat -> in_array shape x ->
  flag (add_box_boundary shape w) x = if inner shape x then None else Some w.
Proof.
  intros Hs [Hx P]. destruct (dims_23 _ Hs) as [(n0 & n1 & ->)|(n0 & n1 & n2 & ->)].
  - destruct x as [|z0 [|z1 [|? ?]]]; try discriminate Hx. pose proof (P 0%nat ltac:(cbn; lia)). pose proof (P 1%nat ltac:(cbn; lia)). cbn [nth] in *.
    cbv [flag add_box_boundary box_sides on_side side_axis side_high inner]. cbn -[Z.eqb Z.leb Z.add]. zcases.
  - destruct x as [|z0 [|z1 [|z2 [|? ?]]]]; try discriminate Hx. pose proof (P 0%nat ltac:(cbn; lia)). pose proof (P 1%nat ltac:(cbn; lia)). pose proof (P 2%nat ltac:(cbn; lia)). cbn [nth] in *.
    cbv [flag add_box_boundary box_sides on_side side_axis side_high inner]. cbn -[Z.eqb Z.leb Z.add]. zcases.
Qed.

Lemma cavity_flags shape U x : length shape = 2%nat \/ length shape = 3%nat -> (0 < nth 1 shape 0)%Z -> in_array shape x ->
  flag (cavity_walls shape U) x =
  if inner shape x then None
  else if (Z.eqb (nth 1 x 0) (nth 1 shape 0 + 1) && forallb (fun k => Nat.eqb k 1 || negb (outside shape x k)) (seq 0 (length shape)))%Z%bool
       then Some (Lid (U :: repeat 0 (length shape - 1))) else Some Resting.
Proof.
  intros Hs Hp [Hx P]. destruct (dims_23 _ Hs) as [(n0 & n1 & ->)|(n0 & n1 & n2 & ->)].
  - destruct x as [|z0 [|z1 [|? ?]]]; try discriminate Hx. pose proof (P 0%nat ltac:(cbn; lia)). pose proof (P 1%nat ltac:(cbn; lia)). cbn [nth] in *.
    cbv [flag cavity_walls on_side side_axis side_high inner outside]. cbn -[Z.eqb Z.leb Z.add]. zcases.
  - destruct x as [|z0 [|z1 [|z2 [|? ?]]]]; try discriminate Hx. pose proof (P 0%nat ltac:(cbn; lia)). pose proof (P 1%nat ltac:(cbn; lia)). pose proof (P 2%nat ltac:(cbn; lia)). cbn [nth] in *.
    cbv [flag cavity_walls on_side side_axis side_high inner outside]. cbn -[Z.eqb Z.leb Z.add]. zcases.
Qed.

(* ---- cells without periodicity ---- *)
Lemma in_space D x : in_grid (repeat None D) x = true <-> length x = D.
Proof. revert x; induction D as [|D IH]; intros [|a x]; cbn; try (split; [reflexivity|discriminate] || (split; discriminate)); [tauto|]. rewrite IH. split; [intros ->; reflexivity|intros E; now injection E]. Qed.
Lemma space_length D (x : cell (space D)) : length (proj1_sig x) = D.
Proof. destruct x as [x Hx]. now apply in_space. Qed.
Lemma ldim_space D : ldim (space D) = D.
Proof. apply repeat_length. Qed.
Definition to_space D (x : list Z) (H : length x = D) : cell (space D) := exist _ x (proj2 (in_space D x) H).
Lemma space_shift D (x : cell (space D)) v : length v = D -> proj1_sig (shift x v) = vadd (proj1_sig x) v.
Proof.
  intros Hv. cbn [shift space grid gshift proj1_sig]. pose proof (space_length D x) as Hx. destruct x as [x Hx']. cbn [proj1_sig] in *. clear Hx'. revert D v Hv Hx. induction x as [|a x IH]; intros [|D] [|b v] Hv Hx; try discriminate; [reflexivity|].
  cbn. f_equal. apply IH; [now injection Hv|now injection Hx].
Qed.
Lemma nth_vadd_space k u v : length u = length v -> nth k (vadd u v) 0%Z = (nth k u 0 + nth k v 0)%Z.
Proof. revert u v; induction k as [|k IH]; intros [|a u] [|b v] H; try discriminate; try reflexivity. apply IH. now injection H. Qed.

Lemma inner_spec shape x : length x = length shape -> inner shape x = true <-> forall k, (k < length shape)%nat -> (1 <= nth k x 0 <= nth k shape 0)%Z.
Proof.
  unfold inner. revert x; induction shape as [|n s IH]; intros [|z x] H; try discriminate; cbn; [split; [intros _ k; lia|reflexivity]|].
  rewrite !andb_true_iff, (IH x) by (now injection H). split.
  - intros [H1 H2] [|k] Hk; [lia|]. apply H2. lia.
  - intros HA. split; [pose proof (HA 0%nat ltac:(lia)); cbn in *; lia|]. intros k Hk. apply (HA (Datatypes.S k)). lia.
Qed.

(* reflection of the box along x *)
Definition refl0 (n0 : Z) (x : list Z) : list Z := match x with [] => [] | a :: r => (n0 + 1 - a)%Z :: r end.
Lemma refl0_length n0 x : length (refl0 n0 x) = length x.
Proof. now destruct x. Qed.
Definition rho0 D n0 (x : cell (space D)) : cell (space D) := to_space D (refl0 n0 (proj1_sig x)) (eq_trans (refl0_length n0 _) (space_length D x)).
Lemma rho0_twice D n0 x : rho0 D n0 (rho0 D n0 x) = x.
Proof. apply gcell_eq. cbn [proj1_sig rho0 to_space]. destruct x as [x Hx]. cbn [proj1_sig]. destruct x as [|a x]; cbn; [reflexivity|]. f_equal. lia. Qed.
Lemma rho0_shift D n0 x v : length v = D -> rho0 D n0 (shift x v) = shift (rho0 D n0 x) (turn [Reflect 0] v).
Proof.
  intros Hv. apply gcell_eq. rewrite space_shift by (rewrite turn_length; exact Hv). cbn [rho0 to_space proj1_sig]. rewrite space_shift by exact Hv.
  pose proof (space_length D x) as Hx. destruct (proj1_sig x) as [|a r], v as [|b v]; cbn in *; try lia; [reflexivity|]. f_equal. lia.
Qed.
Lemma inner_refl0 shape x : length x = length shape -> inner shape (refl0 (nth 0 shape 0%Z) x) = inner shape x.
Proof. intros H. destruct shape as [|n s], x as [|a x]; try discriminate; [reflexivity|]. cbn. f_equal. zcases. Qed.

Section Cavity.
  Context (S : stencil) (ws : list Q) (shape : list Z) (U : R) (zc : bool) (force : option (force_model * list R)).
  Notation D := (length shape).
  Notation L := (space D).
  Hypothesis HS : symmetric_stencil D S.
  Hypothesis Hcl : forall d d', In d S -> signed_permutation d d' -> In d' S.
  Hypothesis Hnear : forall b c, In c S -> (-1 <= nth b c 0 <= 1)%Z.
  Hypothesis HW : get_weights S = Ok ws.
  Hypothesis HD : D = 2%nat \/ D = 3%nat.
  Hypothesis Hpos : (0 < nth 1 shape 0)%Z.
  Notation fluid := (inner_cell shape).
  Notation wall_at := (fun x i => flag (cavity_walls shape U) (proj1_sig (shift x (dir S i) : cell L))).

  Lemma HSL : symmetric_stencil (ldim L) S.
  Proof. rewrite ldim_space. exact HS. Qed.
  Lemma dir_len i : (i < length S)%nat -> length (dir S i) = D.
  Proof. intros Hi. apply HS, nth_In, Hi. Qed.
  Lemma neighbour_in_array (x : cell L) i : fluid x = true -> (i < length S)%nat -> in_array shape (proj1_sig (shift x (dir S i))).
  Proof.
    intros Fx Hi. pose proof (dir_len i Hi) as Hl. pose proof (space_length D x) as Hx. split; [apply space_length|]. intros k Hk. rewrite space_shift by exact Hl. rewrite nth_vadd_space by (rewrite Hx, Hl; reflexivity).
    unfold inner_cell in Fx. rewrite inner_spec in Fx by exact Hx. specialize (Fx k Hk). specialize (Hnear k (dir S i) (nth_In _ _ Hi)). lia.
  Qed.
  Definition lid_at (x : cell L) : bool := match flag (cavity_walls shape U) (proj1_sig x) with Some (Lid _) => true | _ => false end.
  Lemma lid_refl (y : cell L) : in_array shape (proj1_sig y) -> lid_at (rho0 D (nth 0 shape 0%Z) y) = lid_at y.
  Proof.
    intros Hy. pose proof Hy as [Ly Py]. assert (Hy' : in_array shape (proj1_sig (rho0 D (nth 0 shape 0%Z) y))).
    { cbn [rho0 to_space proj1_sig]. split; [now rewrite refl0_length|]. intros k Hk. specialize (Py k Hk). destruct (proj1_sig y) as [|a r]; [cbn in *; lia|]. destruct k; cbn in *; lia. }
    unfold lid_at. rewrite !cavity_flags by assumption. cbn [rho0 to_space proj1_sig]. rewrite inner_refl0 by exact Ly. destruct (inner shape (proj1_sig y)); [reflexivity|].
    assert (E1 : nth 1 (refl0 (nth 0 shape 0%Z) (proj1_sig y)) 0%Z = nth 1 (proj1_sig y) 0%Z) by (destruct (proj1_sig y) as [|? ?]; reflexivity). rewrite E1. f_equal.
    assert (E2 : forall k, outside shape (refl0 (nth 0 shape 0%Z) (proj1_sig y)) k = outside shape (proj1_sig y) k).
    { intros k. unfold outside. destruct (proj1_sig y) as [|a r]; [reflexivity|]. destruct k; cbn; [|reflexivity]. f_equal. zcases. }
    assert (E3 : forallb (fun k => (Nat.eqb k 1 || negb (outside shape (refl0 (nth 0 shape 0%Z) (proj1_sig y)) k))%bool) (seq 0 D) = forallb (fun k => (Nat.eqb k 1 || negb (outside shape (proj1_sig y) k))%bool) (seq 0 D)).
    { induction (seq 0 D) as [|k l IH]; [reflexivity|]. cbn [forallb]. now rewrite E2, IH. }
    rewrite E3. destruct (_ && _)%bool; reflexivity.
  Qed.

  Lemma wall_rule_value compr x i b (f : cell L -> list R) : is_link S fluid (x, i) -> length (f x) = length S ->
    wall_rule S (map Q2R ws) zc compr force (wall_at x i) i = Ok b ->
    rule_value S f x b - nth i (f x) 0 =
    if lid_at (shift x (dir S i)) then - 6 * nth i (map Q2R ws) 0 * (if compr then pdf_density zc (f x) else 1) * (U * IZR (nth 0 (dir S i) 0%Z)) else 0.
  Proof.
    intros (Fx & Hi & _) Lf E. cbn [fst snd] in *. pose proof (neighbour_in_array x i Fx Hi) as Ha. pose proof (cavity_flags shape U _ HD Hpos Ha) as C. unfold lid_at.
    set (y := proj1_sig (shift x (dir S i))) in *. rewrite C in *. destruct (inner shape y); [discriminate E|]. destruct (_ && _)%bool.
    - cbn [wall_rule] in E. pose proof (ubb_rule L S (map Q2R ws) zc compr force None false (U :: repeat 0 (D - 1)) i b f x HSL Lf E) as ER. cbv zeta in ER. rewrite ER.
      change (ubb_density zc None (f x)) with (pdf_density zc (f x)). replace (e_times_u (dir S i) (U :: repeat 0 (D - 1))) with (U * IZR (nth 0 (dir S i) 0%Z)); [destruct compr; ring|].
      pose proof (dir_len i Hi) as Hl. destruct (dims_23 _ HD) as [(n0 & n1 & En)|(n0 & n1 & n2 & En)]; rewrite En in *; cbn [length Nat.sub repeat] in *.
      + destruct (dir S i) as [|a [|b' [|? ?]]]; try discriminate Hl. unfold e_times_u. cbn. ring.
      + destruct (dir S i) as [|a [|b' [|c' [|? ?]]]]; try discriminate Hl. unfold e_times_u. cbn. ring.
    - cbn [wall_rule] in E. injection E as <-. rewrite (no_slip_value) by first [exact HSL|exact Hi]. lra.
  Qed.

  Context (cells : list (cell L)) (links : list (link L)) (HG : lists_geometry S fluid cells links).
  Context (B : cell L -> nat -> brule R) (f : cell L -> list R) (Hf : forall x, length (f x) = length S).

  Theorem cavity_mass : (forall x i, is_link S fluid (x, i) -> wall_rule S (map Q2R ws) zc false force (wall_at x i) i = Ok (B x i)) ->
    total_mass cells (arriving S fluid B f) = total_mass cells f.
  Proof.
    intros HB. rewrite (mass_balance L S fluid cells links B f HSL HG) by (intros; apply Hf).
    set (h := fun l : link L => if lid_at (shift (fst l) (dir S (snd l))) then - 6 * nth (snd l) (map Q2R ws) 0 * (U * IZR (nth 0 (dir S (snd l)) 0%Z)) else 0).
    rewrite (rsum_ext _ h). 2:{ intros [x i] Hl. apply HG in Hl. cbn [fst snd]. rewrite (wall_rule_value false x i (B x i) f Hl (Hf x) (HB x i Hl)). unfold h. cbn [fst snd]. destruct (lid_at _); [ring|reflexivity]. }
    set (T := fun l : link L => (rho0 D (nth 0 shape 0%Z) (fst l), slot S [Reflect 0] (snd l)) : link L).
    assert (Tlink : forall l, is_link S fluid l -> is_link S fluid (T l)).
    { intros [x i] (Fx & Hi & Hn). cbn [fst snd] in *. unfold T. cbn [fst snd]. destruct (slot_spec S Hcl [Reflect 0] i Hi) as [Hs1 Hs2]. split; [|split]; cbn [fst snd]; [|exact Hs1|].
      - unfold inner_cell in *. cbn [rho0 to_space proj1_sig]. rewrite inner_refl0; [exact Fx|apply space_length].
      - rewrite Hs2, <- rho0_shift by (now apply dir_len). unfold inner_cell in *. cbn [rho0 to_space proj1_sig]. rewrite inner_refl0; [exact Hn|apply space_length]. }
    assert (Ttwice : forall l, is_link S fluid l -> T (T l) = l).
    { intros [x i] (Fx & Hi & Hn). cbn [fst snd] in *. unfold T. cbn [fst snd]. rewrite rho0_twice. f_equal. exact (slot_back D S HS Hcl [Reflect 0] i Hi). }
    assert (Th : forall l, is_link S fluid l -> h (T l) = - h l).
    { intros [x i] (Fx & Hi & Hn). cbn [fst snd] in *. unfold T, h. cbn [fst snd]. destruct (slot_spec S Hcl [Reflect 0] i Hi) as [Hs1 Hs2]. rewrite Hs2, <- rho0_shift by (now apply dir_len).
      rewrite lid_refl by (now apply neighbour_in_array). destruct (lid_at _); [|ring]. rewrite (turned_nth S Hcl [Reflect 0] _ _ i (turned_weights D S HS Hcl [Reflect 0] ws HW) Hi).
      replace (nth 0 (turn [Reflect 0] (dir S i)) 0%Z) with (- nth 0 (dir S i) 0)%Z by (destruct (dir S i); reflexivity). rewrite opp_IZR. ring. }
    assert (HP : Permutation links (map T links)).
    { destruct HG as (_ & _ & ND & HL). apply NoDup_Permutation; [exact ND| |].
      - apply NoDup_nth_error. intros a b Ha E. rewrite map_length in Ha. rewrite !nth_error_map in E. destruct (nth_error links a) as [la|] eqn:Ea; [|apply nth_error_None in Ea; lia].
        destruct (nth_error links b) as [lb|] eqn:Eb; [|discriminate]. assert (E' : T la = T lb) by (cbn [option_map] in E; congruence). clear E.
        assert (la = lb). { rewrite <- (Ttwice la), <- (Ttwice lb), E'; [reflexivity|apply HL, (nth_error_In _ _ Eb)|apply HL, (nth_error_In _ _ Ea)]. } subst lb.
        apply (proj1 (NoDup_nth_error links) ND); [lia|congruence].
      - intros l. rewrite in_map_iff. split.
        + intros Hl. exists (T l). split; [apply Ttwice|apply HL, Tlink]; now apply HL.
        + intros (l' & <- & Hl'). apply HL, Tlink, HL, Hl'. }
    assert (E : rsum (map h links) = - rsum (map h links)).
    { rewrite (rsum_perm _ _ (Permutation_map h HP)) at 1. rewrite map_map. rewrite (rsum_ext _ (fun l => -1 * h l)); [rewrite rsum_scal; ring|]. intros l Hl. rewrite Th by (now apply HG). ring. }
    lra.
  Qed.
End Cavity.
