(* The cavity in whole simulations; cells and links of a box. *)
From Coq Require Import String List ZArith Bool Arith Reals Lra Lia QArith Qreals.
From Verif Require Import StencilModel StencilSpec StencilProofs StencilProofs2 AccessModel AccessProofs GridModel GridProofs StreamModel StreamSpec StreamProofs StreamProofs2 RealLib LinLib EqModel EqProofs
  CollModel CollSpec BoundModel BoundSpec BoundProofs BoundProofs2 BoundProofs3 BoundProofs4 BoundProofs8 ChanProofs5 ScnModel ScnSpec ScnProofs.
Import ListNotations.
Local Open Scope R_scope.

Definition box_cells (shape : list Z) : list (cell (space (length shape))) := attach _ (box_raw (map (fun _ => 1%Z) shape) (map (fun n => (n + 1)%Z) shape)).
Lemma box_cells_spec shape : NoDup (box_cells shape) /\ forall x, In x (box_cells shape) <-> inner_cell shape x = true.
Proof.
  split; [apply attach_NoDup, box_raw_NoDup|]. intros x. unfold box_cells. etransitivity; [apply (attach_In (repeat None (length shape)))|]. rewrite box_raw_In by (now rewrite !map_length). rewrite map_length. unfold inner_cell. rewrite inner_spec by (apply space_length).
  assert (E : forall k, (k < length shape)%nat -> nth k (map (fun _ : Z => 1%Z) shape) 0%Z = 1%Z /\ nth k (map (fun n => (n + 1)%Z) shape) 0%Z = (nth k shape 0 + 1)%Z).
  { clear. induction shape as [|n s IH]; intros [|k] Hk; cbn in *; try lia. apply IH. lia. }
  split.
  - intros [_ H] k Hk. destruct (E k Hk) as [E1 E2]. specialize (H k Hk). rewrite E1, E2 in H. lia.
  - intros H. split; [apply space_length|]. intros k Hk. destruct (E k Hk) as [E1 E2]. rewrite E1, E2. specialize (H k Hk). lia.
Qed.
Definition box_links (S : stencil) (shape : list Z) : list (link (space (length shape))) :=
  filter (fun l => negb (inner_cell shape (shift (fst l) (dir S (snd l))))) (list_prod (box_cells shape) (seq 0 (length S))).
Lemma box_links_spec S shape l : In l (box_links S shape) <-> is_link S (inner_cell shape) l.
Proof.
  destruct l as [x i]. unfold box_links, is_link. rewrite filter_In. cbn [fst snd]. rewrite negb_true_iff. split.
  - intros (Hin & H2). apply in_prod_iff in Hin as [Hx Hi]. apply in_seq in Hi. apply (box_cells_spec shape) in Hx. repeat split; auto; lia.
  - intros (H1 & H2 & H3). split; [|exact H3]. apply in_prod; [now apply (box_cells_spec shape)|]. apply in_seq. lia.
Qed.
Lemma box_geometry S shape : lists_geometry S (inner_cell shape) (box_cells shape) (box_links S shape).
Proof. split; [apply box_cells_spec|]. split; [apply box_cells_spec|]. split; [apply NoDup_filter, NoDup_list_prod; [apply box_cells_spec|apply seq_NoDup]|apply box_links_spec]. Qed.

Lemma wall_rule_reads (shape : list Z) S ws zc compr force w x i b : symmetric_stencil (length shape) S -> is_link S (inner_cell shape) (x, i) -> wall_rule S ws zc compr force w i = Ok b ->
  forall a, In a (b_reads b) -> readable S (inner_cell shape) x a.
Proof.
  intros HS (Fx & Hi & _) E a Ha. cbn [fst snd] in *. assert (HD : dimD S = ldim (space (length shape))) by (rewrite ldim_space; apply (dimD_D _ _ HS)). destruct w as [[u|]|]; [| |discriminate E]; cbn [wall_rule] in E.
  - unfold ubb in E. destruct (negb _); [discriminate|]. injection E as <-. cbn [b_reads] in Ha. unfold all_out in Ha. apply in_map_iff in Ha as (j & <- & Hj). apply in_seq in Hj. cbn [readable]. unfold here. rewrite HD, shift_zero, vzero_length. repeat split; [unfold sizeQ in *; lia|exact Fx].
  - injection E as <-. destruct Ha as [<-|[]]. cbn [readable]. unfold here. rewrite HD, shift_zero, vzero_length. repeat split; [exact Hi|exact Fx].
Qed.
(* no hole: every link leaving the box has a rule *)
Lemma cavity_closed name ord S ws shape U zc compr force x i : predefined_stencils name ord = Ok S -> get_weights S = Ok ws -> dimD S = length shape ->
  length shape = 2%nat \/ length shape = 3%nat -> (0 < nth 1 shape 0)%Z -> is_link S (inner_cell shape) (x, i) ->
  exists b, wall_rule S (map Q2R ws) zc compr force (flag (cavity_walls shape U) (proj1_sig (shift x (dir S i)))) i = Ok b.
Proof.
  intros HN HW HD Hs Hp Hl. pose proof (proj1 (predefined_wf _ _ _ HN)) as HS. rewrite HD in HS. pose proof Hl as (Fx & Hi & Hn). cbn [fst snd] in *.
  rewrite cavity_flags by (auto; apply (neighbour_in_array S shape HS (fun b => predefined_near name ord S ws b HN HW) Hs x i Fx Hi)).
  unfold inner_cell in Hn. rewrite Hn. destruct (_ && _)%bool; cbn [wall_rule]; [|eexists; reflexivity].
  unfold ubb. rewrite HD. cbn [length]. rewrite repeat_length. replace (Datatypes.S (length shape - 1)) with (length shape) by lia. rewrite Nat.eqb_refl. cbn [negb]. eexists; reflexivity.
Qed.

(* ---- shear layers ---- *)
Lemma rsum_const {A} (c : R) (l : list A) : rsum (map (fun _ => c) l) = INR (length l) * c.
Proof. induction l as [|a l IH]; [unfold rsum; cbn; lra|]. cbn [map]. rewrite rsum_cons, IH. cbn [length]. rewrite S_INR. lra. Qed.
Lemma shear_sum (g : Z -> R) u (q r : nat) : (r < 3)%nat -> (forall z, g z = if ((Z.of_nat q <=? z) && (z <? Z.of_nat q * 2))%Z%bool then - u else u) ->
  rsum (map (fun z => g (Z.of_nat z)) (seq 0 (q + q + (q + r)))) = u * INR (q + r).
Proof.
  intros Hr Hg. rewrite !seq_app, !map_app, !rsum_app. cbn [Nat.add].
  assert (C : forall c s n, (forall z, (s <= z < s + n)%nat -> g (Z.of_nat z) = c) -> rsum (map (fun z => g (Z.of_nat z)) (seq s n)) = INR n * c).
  { intros c s n H. rewrite (rsum_ext _ (fun _ => c)); [rewrite rsum_const, seq_length; reflexivity|]. intros z Hz. apply in_seq in Hz. apply H. lia. }
  rewrite (C u 0%nat q), (C (- u) q q), (C u (q + q)%nat q), (C u (q + q + q)%nat r); [rewrite plus_INR; lra| | | |];
    intros z Hz; rewrite Hg; destruct (Z.leb_spec (Z.of_nat q) (Z.of_nat z)), (Z.ltb_spec (Z.of_nat z) (Z.of_nat q * 2)%Z); cbn [andb]; try reflexivity; exfalso; lia.
Qed.
Lemma shear_mean shape u x : length shape = 2%nat \/ length shape = 3%nat -> (0 <= last shape 0)%Z ->
  rsum (map (fun z => shear_layer shape u (x ++ [Z.of_nat z])) (seq 0 (Z.to_nat (last shape 0%Z)))) = u * (IZR (last shape 0%Z) - 2 * IZR (last shape 0 / 3)%Z).
Proof.
  intros Hs Hp. set (h := last shape 0%Z) in *.
  assert (Hh : (if Nat.eqb (length shape) 3 then nth 2 shape 0%Z else nth 1 shape 0%Z) = h) by (unfold h; destruct (dims_23 _ Hs) as [(a & b & ->)|(a & b & c & ->)]; reflexivity).
  pose proof (Z.div_mod h 3 ltac:(lia)) as E. pose proof (Z.mod_pos_bound h 3 ltac:(lia)) as Hm. assert (Hq : (0 <= h / 3)%Z) by (apply Z.div_pos; lia).
  replace (Z.to_nat h) with (Z.to_nat (h / 3) + Z.to_nat (h / 3) + (Z.to_nat (h / 3) + Z.to_nat (h mod 3)))%nat by lia.
  rewrite (shear_sum (fun z => shear_layer shape u (x ++ [z])) u); [|lia|].
  - rewrite plus_INR, !INR_IZR_INZ, !Z2Nat.id by lia. rewrite E at 3. rewrite plus_IZR, mult_IZR. ring.
  - intros z. unfold shear_layer. rewrite Hh, last_last, Z2Nat.id by lia. reflexivity.
Qed.
