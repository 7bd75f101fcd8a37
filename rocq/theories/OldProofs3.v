(* The staggered stencils of pystencils, and a closed domain with diagonal faces. *)
From Coq Require Import String List ZArith Bool Arith Reals Lra Lia Permutation.
From Verif Require Import RealLib StencilModel StencilSpec StencilProofs AccessModel AccessProofs GridModel GridProofs StreamModel StreamProofs OldModel OldSpec OldProofs OldProofs2.
Import ListNotations.
Local Open Scope R_scope.

Fixpoint unit_box (D : nat) : list vec := match D with O => [[]] | S k => flat_map (fun v => [(-1)%Z :: v; 0%Z :: v; 1%Z :: v]) (unit_box k) end.
Lemma unit_box_In D d : length d = D -> (forall z, In z d -> (Z.abs z <= 1)%Z) -> In d (unit_box D).
Proof.
  revert d; induction D as [|D IH]; intros [|z d] Hl H; try discriminate; [left; reflexivity|]. cbn [unit_box]. apply in_flat_map. exists d. split.
  - apply IH; [cbn in Hl; lia|]. intros y Hy. apply H. right. exact Hy.
  - pose proof (H z (or_introl eq_refl)). assert (z = -1 \/ z = 0 \/ z = 1)%Z as [->|[->| ->]] by lia; cbn; auto.
Qed.
Definition zsum (l : list Z) : Z := fold_right Z.add 0%Z l.
Lemma zsum_perm l l' : Permutation l l' -> zsum l = zsum l'.
Proof. induction 1; cbn [zsum fold_right] in *; unfold zsum in *; cbn in *; lia. Qed.
Definition allowed (sums : list Z) (d : vec) : bool := forallb (fun z => (Z.abs z <=? 1)%Z) d && existsb (Z.eqb (zsum (map Z.abs d))) sums.
Fixpoint nodupb (l : list vec) : bool := match l with [] => true | a :: l => negb (existsb (vec_eqb a) l) && nodupb l end.
Lemma existsb_In a l : existsb (vec_eqb a) l = true <-> In a l.
Proof.
  rewrite existsb_exists. split; [intros (x & Hx & E); apply vec_eqb_eq in E; subst; exact Hx|]. intros H. exists a. split; [exact H|]. now apply vec_eqb_eq.
Qed.
Lemma nodupb_ok l : nodupb l = true -> NoDup l.
Proof.
  induction l as [|a l IH]; cbn [nodupb]; intros H; [constructor|]. apply andb_prop in H as [H1 H2]. constructor; [|apply IH; exact H2]. intros Hin. apply existsb_In in Hin. rewrite Hin in H1. discriminate.
Qed.
Definition check (D : nat) (half : list vec) (sums : list Z) : bool :=
  (Nat.ltb 0 D && negb (Nat.eqb (length half) 0) && forallb (fun d => Nat.eqb (length d) D) half && nodupb (full_stencil half)
   && forallb (fun d => negb (allowed sums d) || existsb (vec_eqb d) (full_stencil half)) (unit_box D) && forallb (allowed sums) (full_stencil half))%bool.
Lemma check_ok D half sums : check D half sums = true -> staggered_stencil D half.
Proof.
  unfold check. intros H. repeat (apply andb_prop in H as [H ?]). split.
  - apply Nat.ltb_lt. assumption.
  - intros ->. discriminate.
  - intros d Hd. apply Nat.eqb_eq. eapply (proj1 (forallb_forall _ _)) in H3; eauto.
  - apply nodupb_ok. assumption.
  - intros d d' Hd Hs. pose proof (proj1 (forallb_forall _ _) H0 d Hd) as Ha. unfold allowed in Ha. apply andb_prop in Ha as [Ha1 Ha2]. unfold signed_permutation in Hs.
    assert (Hl : length d' = D).
    { apply Permutation_length in Hs. rewrite !map_length in Hs. rewrite <- Hs. apply in_app_iff in Hd as [Hd|Hd]; [|apply in_map_iff in Hd as (e & <- & Hd); unfold vneg; rewrite map_length];
        (apply Nat.eqb_eq; eapply (proj1 (forallb_forall _ _)) in H3; eauto). }
    assert (Hz : forall z, In z d' -> (Z.abs z <= 1)%Z).
    { intros z Hz. assert (In (Z.abs z) (map Z.abs d)) as Hin by (eapply Permutation_in; [apply Permutation_sym; exact Hs|]; apply in_map; exact Hz).
      apply in_map_iff in Hin as (y & E & Hy). rewrite <- E. apply Z.leb_le. apply (proj1 (forallb_forall _ _) Ha1 y Hy). }
    assert (A' : allowed sums d' = true).
    { unfold allowed. apply andb_true_intro. split; [apply forallb_forall; intros z Hz'; apply Z.leb_le, Hz; exact Hz'|]. rewrite <- (zsum_perm _ _ Hs). exact Ha2. }
    pose proof (proj1 (forallb_forall _ _) H1 d' (unit_box_In D d' Hl Hz)) as K. cbv beta in K. rewrite A' in K. apply existsb_In. exact K.
Qed.
(* pystencils: Field.staggered_stencil_name D2Q4 .. D3Q26 *)
Definition faces_D2Q4 : list vec := [[-1; 0]; [0; -1]]%Z.
Definition faces_D2Q8 : list vec := [[-1; 0]; [0; -1]; [-1; -1]; [-1; 1]]%Z.
Definition faces_D3Q6 : list vec := [[-1; 0; 0]; [0; -1; 0]; [0; 0; -1]]%Z.
Definition faces_D3Q26 : list vec := [[-1; 0; 0]; [0; -1; 0]; [0; 0; -1]; [-1; -1; 0]; [-1; 1; 0]; [0; -1; -1]; [0; -1; 1]; [-1; 0; -1]; [-1; 0; 1]; [-1; -1; -1]; [-1; -1; 1]; [-1; 1; -1]; [-1; 1; 1]]%Z.
Definition faces_D3Q18 : list vec := firstn 9 faces_D3Q26.
Lemma staggered_2d : staggered_stencil 2 faces_D2Q4 /\ staggered_stencil 2 faces_D2Q8.
Proof. split; [apply (check_ok 2 _ [1%Z])|apply (check_ok 2 _ [1%Z; 2%Z])]; vm_compute; reflexivity. Qed.
Lemma staggered_3d : staggered_stencil 3 faces_D3Q6 /\ staggered_stencil 3 faces_D3Q18 /\ staggered_stencil 3 faces_D3Q26.
Proof. split; [apply (check_ok 3 _ [1%Z])|split; [apply (check_ok 3 _ [1%Z; 2%Z])|apply (check_ok 3 _ [1%Z; 2%Z; 3%Z])]]; vm_compute; reflexivity. Qed.

(* one fluid cell, stress on its western face only *)
Definition P33 : list positive := [3%positive; 3%positive].
Definition c0 : cell (torus P33) := exist _ [0; 0]%Z eq_refl.
Definition west_faces (x : cell (torus P33)) (k : nat) : tensor := fun i j => if cell_eq_dec x c0 then if (Nat.eqb k 0 && Nat.eqb i 0 && Nat.eqb j 0)%bool then 1 else 0 else 0.
Definition one_cell (x : cell (torus P33)) : bool := if cell_eq_dec x c0 then true else false.
Lemma one_cell_sum (g : cell (torus P33) -> R) : rsum (map (fun x => if one_cell x then g x else 0) (torus_cells P33)) = g c0.
Proof.
  assert (G : forall l, NoDup l -> rsum (map (fun x => if one_cell x then g x else 0) l) = if in_dec cell_eq_dec c0 l then g c0 else 0).
  { induction l as [|a l IH]; intros Hn; [reflexivity|]. inversion Hn as [|? ? Ha Hn']; subst. cbn [map]. rewrite rsum_cons, IH by exact Hn'. unfold one_cell. destruct (cell_eq_dec a c0) as [->|Na].
    - destruct (in_dec cell_eq_dec c0 l); [contradiction|]. destruct (in_dec cell_eq_dec c0 (c0 :: l)) as [|Nn]; [ring|exfalso; apply Nn; left; reflexivity].
    - destruct (in_dec cell_eq_dec c0 l) as [Hi|Hi], (in_dec cell_eq_dec c0 (a :: l)) as [Hj|Hj]; try ring; exfalso; [apply Hj; right; exact Hi|destruct Hj; [congruence|contradiction]]. }
  rewrite G by apply torus_cells_NoDup. destruct (in_dec cell_eq_dec c0 (torus_cells P33)) as [|Nn]; [reflexivity|exfalso; apply Nn, torus_cells_all].
Qed.
Lemma shift_c0 d : In d (full_stencil faces_D2Q8) -> shift c0 d <> c0.
Proof.
  intros Hd E. apply (f_equal (fun x => proj1_sig x)) in E. revert E. cbn in Hd. repeat destruct Hd as [<-|Hd]; [..|destruct Hd]; vm_compute; discriminate.
Qed.
Lemma west_values d i j : In d (full_stencil faces_D2Q8) -> values P33 faces_D2Q8 west_faces c0 d i j = if (vec_eqb d [-1; 0]%Z && Nat.eqb i 0 && Nat.eqb j 0)%bool then 1 else 0.
Proof.
  intros Hd. pose proof (shift_c0 d Hd) as Hs. unfold values. assert (W : forall k, west_faces (shift c0 d) k i j = 0) by (intros k; unfold west_faces; destruct (cell_eq_dec (shift c0 d) c0); [contradiction|reflexivity]).
  assert (W0 : forall k, west_faces c0 k i j = if (Nat.eqb k 0 && Nat.eqb i 0 && Nat.eqb j 0)%bool then 1 else 0) by (intros k; unfold west_faces; destruct (cell_eq_dec c0 c0); [reflexivity|congruence]).
  cbn in Hd. repeat destruct Hd as [<-|Hd]; [..|destruct Hd]; cbn [index_of vec_eqb faces_D2Q8 vneg map]; cbn; rewrite ?W0, ?W; cbn; reflexivity.
Qed.
Lemma diagonal_unbalanced : exists f b, (forall x, force (torus P33) 2 faces_D2Q8 west_faces x = Ok (f x)) /\ (forall x o, In o (full_stencil faces_D2Q8) -> force_on_boundary (torus P33) 2 faces_D2Q8 west_faces x o = Ok (b x o)) /\
  fluid_total P33 one_cell f 0 + solid_total P33 one_cell faces_D2Q8 b 0 <> 0.
Proof.
  destruct staggered_2d as [_ HS]. pose proof (values_field P33 faces_D2Q8 HS west_faces) as HF.
  exists (fun x => match force (torus P33) 2 faces_D2Q8 west_faces x with Ok v => v | Err _ => [] end), (fun x o => match force_on_boundary (torus P33) 2 faces_D2Q8 west_faces x o with Ok v => v | Err _ => [] end).
  assert (Hf : forall x, force (torus P33) 2 faces_D2Q8 west_faces x = Ok (match force (torus P33) 2 faces_D2Q8 west_faces x with Ok v => v | Err _ => [] end)) by (intros x; rewrite (force_faces 2 _ HS (torus P33) west_faces _ x HF); reflexivity).
  assert (Hb : forall x o, In o (full_stencil faces_D2Q8) -> force_on_boundary (torus P33) 2 faces_D2Q8 west_faces x o = Ok (match force_on_boundary (torus P33) 2 faces_D2Q8 west_faces x o with Ok v => v | Err _ => [] end)).
  { intros x o Ho. unfold force_on_boundary. destruct (access_value 2 _ HS (torus P33) west_faces _ x o HF Ho) as (T & -> & _). reflexivity. }
  split; [exact Hf|]. split; [exact Hb|]. unfold fluid_total, solid_total. rewrite !one_cell_sum.
  rewrite (force_faces 2 _ HS (torus P33) west_faces _ c0 HF). rewrite nth_of_map by lia.
  rewrite (rsum_ext (fun d => if one_cell (shift c0 d) then 0 else _) (fun d => - face_term 2 (values P33 faces_D2Q8 west_faces c0 d) d 0 * norm d)).
  - assert (E : forall d, In d (full_stencil faces_D2Q8) -> face_term 2 (values P33 faces_D2Q8 west_faces c0 d) d 0 = if vec_eqb d [-1; 0]%Z then -1 else 0).
    { intros d Hd. rewrite face_term_at. cbn [seq map]. rewrite !rsum_cons, rsum_nil, !(west_values d _ _ Hd). cbn [Nat.eqb andb]. rewrite !andb_true_r, andb_false_r. cbn [andb].
      destruct (vec_eqb d [-1; 0]%Z) eqn:Ed; [|unfold Rdiv; ring]. apply vec_eqb_eq in Ed. subst d. unfold at_, norm. cbn. replace (-1 * -1 + (0 * 0 + 0)) with 1 by ring. rewrite sqrt_1. field. }
    rewrite (rsum_ext _ _ _ E). rewrite (rsum_ext (fun d => - face_term 2 _ d 0 * norm d) (fun d => - (if vec_eqb d [-1; 0]%Z then -1 else 0) * norm d)) by (intros d Hd; rewrite (E d Hd); reflexivity).
    assert (N1 : norm [-1; 0]%Z = 1) by (unfold norm; cbn; replace (-1 * -1 + (0 * 0 + 0)) with 1 by ring; apply sqrt_1).
    assert (HA : A0 faces_D2Q8 = 4 + 4 * sqrt 2).
    { unfold A0, norm. cbn. replace (-1 * -1 + (0 * 0 + 0)) with 1 by ring. replace (0 * 0 + (-1 * -1 + 0)) with 1 by ring. replace (1 * 1 + (0 * 0 + 0)) with 1 by ring. replace (0 * 0 + (1 * 1 + 0)) with 1 by ring.
      replace (-1 * -1 + (-1 * -1 + 0)) with 2 by ring. replace (-1 * -1 + (1 * 1 + 0)) with 2 by ring. replace (1 * 1 + (1 * 1 + 0)) with 2 by ring. replace (1 * 1 + (-1 * -1 + 0)) with 2 by ring. rewrite sqrt_1. ring. }
    rewrite HA. set (s := sqrt 2). assert (0 < s) by (apply sqrt_lt_R0; lra). cbn -[norm]. rewrite N1.
    match goal with |- ?l <> 0 => replace l with (1 - 4 / (4 + 4 * s)) by (field; lra) end.
    replace (1 - 4 / (4 + 4 * s)) with (s / (1 + s)) by (field; lra). intros Z. assert (Q : s / (1 + s) * (1 + s) = 0) by (rewrite Z; ring). replace (s / (1 + s) * (1 + s)) with s in Q by (field; lra). lra.
  - intros d Hd. unfold one_cell. destruct (cell_eq_dec (shift c0 d) c0) as [E|_]; [exfalso; exact (shift_c0 d Hd E)|].
    assert (Hd' : In (vneg d) (full_stencil faces_D2Q8)) by (apply full_closed; exact Hd).
    assert (Hdl : length d = 2%nat) by (eapply full_length; eauto).
    rewrite (boundary_value P33 faces_D2Q8 HS west_faces _ (shift c0 d) (vneg d) 0 Hd' (Hb _ _ Hd')) by (cbn; lia).
    rewrite face_term_at. assert (Nz : norm d <> 0). { apply in_app_iff in Hd as [Hh|Hh]; [eapply norm_half; eauto|]. apply in_map_iff in Hh as (e & <- & He). rewrite norm_vneg. eapply norm_half; eauto. }
    unfold Rdiv. rewrite Ropp_mult_distr_l, Rmult_assoc, Rinv_l by exact Nz. rewrite Rmult_1_r. rewrite <- (Rmult_1_l (rsum (map (fun i => values P33 faces_D2Q8 west_faces c0 d i 0%nat * at_ d i) (seq 0 2)))), Ropp_mult_distr_l, <- rsum_scal.
    apply rsum_ext. intros i _. rewrite at_vneg. destruct HF as [_ HF]. rewrite (HF c0 d i 0%nat Hdl). ring.
Qed.
