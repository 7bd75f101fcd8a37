From Coq Require Import String List ZArith Bool Arith Reals Lra Lia Permutation.
From Verif Require Import RealLib StencilModel StencilSpec StencilProofs AccessModel AccessProofs GridModel GridProofs StreamModel StreamProofs OldModel OldSpec OldProofs.
Import ListNotations.
Local Open Scope R_scope.

(* ---- sums over all faces of a torus ---- *)
Section Torus.
  Context (N : list positive) (half : list vec).
  Notation D := (length N).
  Notation L := (torus N).
  Hypothesis HS : staggered_stencil D half.
  Notation full := (full_stencil half).
  Lemma shift_sum (d : vec) (f : cell L -> R) : length d = D -> rsum (map (fun x => f (shift x d)) (torus_cells N)) = rsum (map f (torus_cells N)).
  Proof.
    intros Hd. rewrite <- (map_map (fun x => shift x d) f). apply rsum_perm, Permutation_map, NoDup_Permutation_bis.
    - apply FinFun.Injective_map_NoDup; [|apply torus_cells_NoDup]. intros x y E. eapply shift_cancel; [|exact E]. rewrite Hd. unfold torus, grid. cbn [ldim]. unfold torus_shape. now rewrite map_length.
    - rewrite map_length. lia.
    - intros x _. apply torus_cells_all.
  Qed.
  Lemma torus_dim : ldim L = D.
  Proof. unfold torus, grid. cbn [ldim]. unfold torus_shape. now rewrite map_length. Qed.
  Lemma antisymmetric_sum (t : cell L -> vec -> R) : (forall x d, length d = D -> t (shift x d) (vneg d) = - t x d) ->
    rsum (map (fun x => rsum (map (t x) full)) (torus_cells N)) = 0.
  Proof.
    intros Ht. rewrite (rsum_swap t). unfold full_stencil. rewrite map_app, rsum_app, map_map.
    rewrite (rsum_ext (fun d => rsum (map (fun x => t x (vneg d)) (torus_cells N))) (fun d => -1 * rsum (map (fun x => t x d) (torus_cells N)))).
    - rewrite rsum_scal. ring.
    - intros d Hd. assert (Hl : length d = D) by (apply HS; exact Hd). rewrite <- (shift_sum d (fun x => t x (vneg d)) Hl), <- rsum_scal. apply rsum_ext. intros x _. rewrite Ht by exact Hl. ring.
  Qed.
  (* values of the faces of any staggered field *)
  Definition values (faces : cell L -> nat -> tensor) (x : cell L) (d : vec) : tensor :=
    match index_of d half with
    | Some k => faces x k
    | None => match index_of (vneg d) half with Some k => faces (shift x d) k | None => fun _ _ => 0 end
    end.
  Lemma values_field faces : face_field D half L faces (values faces).
  Proof.
    pose proof torus_dim as HL. split.
    - intros x k i j Hk. unfold values. assert (In (nth k half []) half) as Hin by (apply nth_In; exact Hk). destruct (index_of_In _ _ Hin) as (m & Em & En). rewrite Em.
      apply index_of_lt in Em as [Hm _]. assert (m = k) as ->; [|reflexivity]. pose proof (ss_nodup _ _ HS) as Nd. unfold full_stencil in Nd.
      assert (Nh : NoDup half) by (clear -Nd; revert Nd; generalize (map vneg half); induction half as [|a l IH]; intros m Nd; [constructor|]; cbn [app] in Nd; inversion Nd; subst; constructor; [intros Ha; apply H1, in_app_iff; left; exact Ha|eapply IH; eassumption]).
      eapply NoDup_nth; eauto.
    - intros x d i j Hd. unfold values. rewrite vneg_vneg. destruct (index_of d half) as [k|] eqn:Ek.
      + apply index_of_lt in Ek as [Hk En]. assert (In d half) by (rewrite <- En; apply nth_In; exact Hk). rewrite index_of_none by (eapply half_inverse; eauto).
        rewrite (shift_back L x d) by (rewrite HL; exact Hd). reflexivity.
      + destruct (index_of (vneg d) half); reflexivity.
  Qed.
  Lemma face_term_neg F faces x d j : face_field D half L faces F -> length d = D -> face_term D (F (shift x d) (vneg d)) (vneg d) j = - face_term D (F x d) d j.
  Proof.
    intros [_ HF] Hd. rewrite !face_term_at, norm_vneg. unfold Rdiv. rewrite Ropp_mult_distr_l. f_equal. rewrite <- (Rmult_1_l (rsum (map (fun i => F x d i j * at_ d i) (seq 0 D)))), Ropp_mult_distr_l, <- rsum_scal.
    apply rsum_ext. intros i _. rewrite at_vneg, HF by exact Hd. ring.
  Qed.
  Lemma nth_of_map (f : nat -> R) n j : (j < n)%nat -> nth j (map f (seq 0 n)) 0 = f j.
  Proof. intros H. apply nth_seq_map. exact H. Qed.
  Lemma total_zero faces (f : cell L -> list R) j : (forall x, force L D half faces x = Ok (f x)) -> (j < D)%nat -> rsum (map (fun x => nth j (f x) 0) (torus_cells N)) = 0.
  Proof.
    intros Hf Hj. pose proof (values_field faces) as HF. set (A := A0 half).
    rewrite (rsum_ext _ (fun x => rsum (map (fun d => face_term D (values faces x d) d j) full) * (/ A * 2 * INR D))).
    - rewrite (rsum_scal_r _ (fun x => rsum (map (fun d => face_term D (values faces x d) d j) full))).
      rewrite (antisymmetric_sum (fun x d => face_term D (values faces x d) d j)); [ring|]. intros x d Hd. eapply face_term_neg; eauto.
    - intros x _. pose proof (Hf x) as E. rewrite (force_faces D half HS L faces (values faces) x HF) in E. injection E as E. rewrite <- E.
      rewrite nth_of_map by exact Hj. unfold Rdiv, A. ring.
  Qed.
  Lemma boundary_value faces (b : list R) y o j : In o full -> force_on_boundary L D half faces y o = Ok b -> (j < D)%nat -> nth j b 0 = rsum (map (fun i => values faces y o i j * at_ o i) (seq 0 D)).
  Proof.
    intros Ho Hb Hj. unfold force_on_boundary in Hb. destruct (access_value D half HS L faces _ y o (values_field faces) Ho) as (T & ET & VT). rewrite ET in Hb. cbn [rbind] in Hb. injection Hb as <-.
    rewrite nth_of_map by exact Hj. apply rsum_ext. intros i _. rewrite VT. reflexivity.
  Qed.
  Lemma full_closed d : In d full -> In (vneg d) full.
  Proof.
    unfold full_stencil. rewrite !in_app_iff. intros [H|H]; [right; apply in_map; exact H|]. apply in_map_iff in H as (e & <- & He). left. now rewrite vneg_vneg.
  Qed.
  Lemma reaction faces (fluid : cell L -> bool) f b j : (forall d, In d half -> norm d = 1) -> length half = D ->
    (forall x, force L D half faces x = Ok (f x)) -> (forall x o, In o full -> force_on_boundary L D half faces x o = Ok (b x o)) -> (j < D)%nat ->
    fluid_total N fluid f j + solid_total N fluid half b j = 0.
  Proof.
    intros Hn Hl Hf Hb Hj. pose proof (values_field faces) as HF.
    assert (Hn' : forall d, In d full -> norm d = 1). { intros d Hd. apply in_app_iff in Hd as [Hd|Hd]; [apply Hn; exact Hd|]. apply in_map_iff in Hd as (e & <- & He). rewrite norm_vneg. apply Hn. exact He. }
    assert (HA : A0 half = 2 * INR D). { unfold A0. rewrite (rsum_ext norm (fun _ => 1)) by exact Hn'. rewrite rsum_const. unfold full_stencil. rewrite app_length, map_length, Hl, plus_INR. ring. }
    assert (Pd : INR D <> 0) by (apply not_0_INR; lia).
    unfold fluid_total, solid_total. rewrite <- rsum_plus.
    rewrite (rsum_ext _ (fun x => rsum (map (fun d => if fluid x then if fluid (shift x d) then rsum (map (fun i => values faces x d i j * at_ d i) (seq 0 D)) else 0 else 0) full))).
    - apply antisymmetric_sum. intros x d Hd. cbv beta. rewrite (shift_back L x d) by (rewrite torus_dim; exact Hd). destruct (fluid x), (fluid (shift x d)); try ring.
      rewrite <- (Rmult_1_l (rsum (map (fun i => values faces x d i j * at_ d i) (seq 0 D)))), Ropp_mult_distr_l, <- rsum_scal. apply rsum_ext. intros i _. rewrite at_vneg. destruct HF as [_ HF]. rewrite HF by exact Hd. ring.
    - intros x _. cbv beta. destruct (fluid x); [|rewrite rsum_zero; ring]. pose proof (Hf x) as E. rewrite (force_faces D half HS L faces (values faces) x HF) in E. injection E as E. rewrite <- E.
      rewrite nth_of_map by exact Hj. rewrite HA.
      replace (rsum (map (fun d => face_term D (values faces x d) d j) full) / (2 * INR D) * 2 * INR D) with (rsum (map (fun d => face_term D (values faces x d) d j) full)) by (field; exact Pd).
      rewrite <- rsum_plus. apply rsum_ext. intros d Hd. rewrite face_term_at, (Hn' d Hd). destruct (fluid (shift x d)); [field|].
      rewrite (boundary_value faces _ (shift x d) (vneg d) j (full_closed d Hd) (Hb _ _ (full_closed d Hd)) Hj). unfold Rdiv. rewrite Rinv_1, Rmult_1_r. rewrite <- rsum_plus.
      rewrite (rsum_ext _ (fun _ => 0)); [apply rsum_zero|]. intros i _. rewrite at_vneg. destruct HF as [_ HF]. rewrite HF by (eapply full_length; eauto). ring.
  Qed.
End Torus.

(* ---- extrapolation ---- *)
Definition behind {L : lattice} (x : cell L) (o : vec) (n : nat) : cell L := shift x (map (fun i => (- Z.of_nat n * i)%Z) o).
Lemma extrapolate_value L order src x o ws : extrapolation_weights order = Ok ws ->
  extrapolate L order src x o = Ok (rsum (map (fun e => snd e * src (@behind L x o (fst e))) (combine (seq 0 (length ws)) ws))).
Proof.
  intros H. unfold extrapolate. rewrite H. reflexivity.
Qed.
Lemma extrapolate_exact L order src x o p : (order <= 2)%nat -> (length p <= S order)%nat -> (forall n, (n <= order)%nat -> src (@behind L x o n) = eval p (- INR n)) ->
  extrapolate L order src x o = Ok (eval p (1 / 2)).
Proof.
  intros Ho Hp H. pose proof (H 0%nat ltac:(lia)) as H0. destruct order as [|[|[|order]]]; [..|lia].
  - rewrite (extrapolate_value L 0 src x o [1] eq_refl). cbn [length seq combine map fst snd]. rewrite H0. destruct p as [|a [|b p]]; cbn [length] in Hp; try lia; cbn; f_equal; field.
  - rewrite (extrapolate_value L 1 src x o [3 / 2; - (1 / 2)] eq_refl). cbn [length seq combine map fst snd]. rewrite H0, (H 1%nat) by lia.
    destruct p as [|a [|b [|c p]]]; cbn [length] in Hp; try lia; cbn; f_equal; field.
  - rewrite (extrapolate_value L 2 src x o [15 / 8; - (10 / 8); 3 / 8] eq_refl). cbn [length seq combine map fst snd]. rewrite H0, (H 1%nat), (H 2%nat) by lia.
    destruct p as [|a [|b [|c [|d p]]]]; cbn [length] in Hp; try lia; cbn; f_equal; field.
Qed.

(* ---- source ---- *)
Section Matrices.
  Context (D : nat).
  Lemma matmul_assoc A B C i j : matmul D (matmul D A B) C i j = matmul D A (matmul D B C) i j.
  Proof.
    unfold matmul. rewrite (rsum_ext _ (fun k => rsum (map (fun l => A i l * (B l k * C k j)) (seq 0 D)))).
    - rewrite (rsum_swap (fun k l => A i l * (B l k * C k j))). apply rsum_ext. intros l _. now rewrite rsum_scal.
    - intros k _. rewrite <- rsum_scal_r. apply rsum_ext. intros l _. ring.
  Qed.
  Lemma matmul_ext A A' B B' i j : (forall k, (k < D)%nat -> A i k = A' i k) -> (forall k, (k < D)%nat -> B k j = B' k j) -> matmul D A B i j = matmul D A' B' i j.
  Proof. intros HA HB. unfold matmul. apply rsum_ext. intros k Hk. apply in_seq in Hk. rewrite HA, HB by lia. reflexivity. Qed.
  Lemma transpose_matmul A B i j : transpose (matmul D A B) i j = matmul D (transpose B) (transpose A) i j.
  Proof. unfold transpose, matmul. apply rsum_ext. intros; ring. Qed.
  Lemma matmul_id_l (I A : tensor) i j : (forall k, (k < D)%nat -> I i k = if Nat.eqb i k then 1 else 0) -> (i < D)%nat -> matmul D I A i j = A i j.
  Proof.
    intros HI Hi. unfold matmul. rewrite (rsum_ext _ (fun k => if Nat.eqb k i then A i j else 0)); [apply pick_one; exact Hi|].
    intros k Hk. apply in_seq in Hk. rewrite HI by lia. rewrite Nat.eqb_sym. destruct (Nat.eqb_spec k i); [subst|]; ring.
  Qed.
  (* (Q A Q^T) (Q B Q^T) = Q (A B) Q^T *)
  Lemma rotate_matmul Q A B i j : orthogonal D Q -> (i < D)%nat -> (j < D)%nat -> matmul D (rotate D Q A) (rotate D Q B) i j = rotate D Q (matmul D A B) i j.
  Proof.
    intros HQ Hi Hj. unfold rotate.
    rewrite matmul_assoc. rewrite (matmul_ext _ (matmul D Q A) _ (matmul D B (transpose Q))); [|reflexivity|].
    - rewrite !matmul_assoc. apply matmul_ext; [reflexivity|]. intros k Hk. rewrite matmul_assoc. reflexivity.
    - intros k Hk. rewrite <- matmul_assoc. rewrite (matmul_ext (matmul D (transpose Q) (matmul D Q B)) B (transpose Q) (transpose Q) k j); [reflexivity| |reflexivity].
      intros l Hl. rewrite <- matmul_assoc. apply matmul_id_l; [|exact Hk]. intros m Hm. apply HQ; assumption.
  Qed.
  Lemma rotate_ext Q A A' i j : (forall k l, (k < D)%nat -> (l < D)%nat -> A k l = A' k l) -> rotate D Q A i j = rotate D Q A' i j.
  Proof. intros H. unfold rotate. apply matmul_ext; [|reflexivity]. intros k Hk. apply matmul_ext; [reflexivity|]. intros l Hl. apply H; assumption. Qed.
  Lemma rotate_plus Q A B i j : rotate D Q (fun k l => A k l + B k l) i j = rotate D Q A i j + rotate D Q B i j.
  Proof.
    unfold rotate, matmul. rewrite <- rsum_plus. apply rsum_ext. intros k _. rewrite <- Rmult_plus_distr_r. f_equal. rewrite <- rsum_plus. apply rsum_ext. intros; ring.
  Qed.
  Lemma rotate_scal Q c A i j : rotate D Q (fun k l => c * A k l) i j = c * rotate D Q A i j.
  Proof.
    unfold rotate, matmul. rewrite <- rsum_scal. apply rsum_ext. intros k _. rewrite <- Rmult_assoc. f_equal. rewrite <- rsum_scal. apply rsum_ext. intros; ring.
  Qed.
  Lemma rotate_transpose Q A i j : transpose (rotate D Q A) i j = rotate D Q (transpose A) i j.
  Proof.
    unfold rotate. rewrite transpose_matmul. change (transpose (transpose Q)) with Q. rewrite matmul_assoc. apply matmul_ext; [reflexivity|]. intros k _. apply transpose_matmul.
  Qed.
  Lemma source_rotate Q lambda_p eta_p g t i j : orthogonal D Q -> (i < D)%nat -> (j < D)%nat ->
    source D lambda_p eta_p (rotate D Q g) (rotate D Q t) i j = rotate D Q (source D lambda_p eta_p g t) i j.
  Proof.
    intros HQ Hi Hj.
    rewrite (rotate_ext Q (source D lambda_p eta_p g t) (fun k l => (matmul D t g k l + matmul D (transpose g) t k l) + / lambda_p * (eta_p * (g k l + transpose g k l) + -1 * t k l)) i j) by (intros; unfold source, Rdiv; ring). unfold source, Rdiv.
    rewrite (rotate_plus Q (fun k l => matmul D t g k l + matmul D (transpose g) t k l)), (rotate_plus Q (fun k l => matmul D t g k l)), rotate_scal.
    rewrite (rotate_plus Q (fun k l => eta_p * (g k l + transpose g k l)) (fun k l => -1 * t k l)), !rotate_scal, (rotate_plus Q (fun k l => g k l) (fun k l => transpose g k l)).
    rewrite rotate_matmul by assumption. rewrite (matmul_ext (transpose (rotate D Q g)) (rotate D Q (transpose g)) (rotate D Q t) (rotate D Q t) i j) by (intros; try apply rotate_transpose; reflexivity).
    rewrite rotate_matmul by assumption. rewrite rotate_transpose.
    change (rotate D Q (fun k l => matmul D t g k l) i j) with (rotate D Q (matmul D t g) i j).
    change (rotate D Q (fun k l => matmul D (transpose g) t k l) i j) with (rotate D Q (matmul D (transpose g) t) i j).
    change (rotate D Q (fun k l => g k l) i j) with (rotate D Q g i j). change (rotate D Q (fun k l => transpose g k l) i j) with (rotate D Q (transpose g) i j).
    change (rotate D Q (fun k l => t k l) i j) with (rotate D Q t i j). ring.
  Qed.
  Lemma source_symmetric lambda_p eta_p g t : symmetric D t -> symmetric D (source D lambda_p eta_p g t).
  Proof.
    intros Ht i j Hi Hj. unfold source. rewrite (Ht i j Hi Hj).
    assert (E1 : matmul D t g i j = matmul D (transpose g) t j i). { unfold matmul, transpose. apply rsum_ext. intros k Hk. apply in_seq in Hk. rewrite (Ht i k) by lia. ring. }
    assert (E2 : matmul D (transpose g) t i j = matmul D t g j i). { unfold matmul, transpose. apply rsum_ext. intros k Hk. apply in_seq in Hk. rewrite (Ht k j) by lia. ring. }
    rewrite E1, E2. unfold transpose. unfold Rdiv. ring.
  Qed.
  (* conformation tensor c, tau = eta / lambda (c - 1) *)
  Lemma source_conformation lambda_p eta_p g c t i j : lambda_p <> 0 -> (forall k l, (k < D)%nat -> (l < D)%nat -> t k l = eta_p / lambda_p * (c k l - if Nat.eqb k l then 1 else 0)) -> (i < D)%nat -> (j < D)%nat ->
    source D lambda_p eta_p g t i j = eta_p / lambda_p * (matmul D c g i j + matmul D (transpose g) c i j - (c i j - if Nat.eqb i j then 1 else 0) / lambda_p).
  Proof.
    intros Hl Ht Hi Hj. unfold source. rewrite (Ht i j Hi Hj).
    assert (E1 : matmul D t g i j = eta_p / lambda_p * (matmul D c g i j - g i j)).
    { rewrite <- (matmul_id_l (fun k l => if Nat.eqb k l then 1 else 0) g i j (fun _ _ => eq_refl) Hi). unfold matmul. rewrite <- rsum_minus, <- rsum_scal. apply rsum_ext. intros k Hk. apply in_seq in Hk. rewrite Ht by lia. ring. }
    assert (E2 : matmul D (transpose g) t i j = eta_p / lambda_p * (matmul D (transpose g) c i j - transpose g i j)).
    { replace (transpose g i j) with (rsum (map (fun k => transpose g i k * (if Nat.eqb k j then 1 else 0)) (seq 0 D))).
      - unfold matmul. rewrite <- rsum_minus, <- rsum_scal. apply rsum_ext. intros k Hk. apply in_seq in Hk. rewrite Ht by lia. ring.
      - rewrite (rsum_ext _ (fun k => if Nat.eqb k j then transpose g i j else 0)); [apply pick_one; exact Hj|]. intros k _. destruct (Nat.eqb_spec k j); [subst|]; ring. }
    rewrite E1, E2. field. exact Hl.
  Qed.
  Lemma shear_matmul_r rate t i j : (2 <= D)%nat -> matmul D t (simple_shear rate) i j = if Nat.eqb j 0 then t i 1%nat * rate else 0.
  Proof.
    intros HD. unfold matmul, simple_shear. destruct (Nat.eqb j 0).
    - rewrite (rsum_ext _ (fun k => if Nat.eqb k 1 then t i 1%nat * rate else 0)); [apply pick_one; lia|]. intros k _. rewrite andb_true_r. destruct (Nat.eqb_spec k 1); [subst|]; ring.
    - rewrite (rsum_ext _ (fun _ => 0)); [apply rsum_zero|]. intros k _. rewrite andb_false_r. ring.
  Qed.
  Lemma shear_matmul_l rate t i j : (2 <= D)%nat -> matmul D (transpose (simple_shear rate)) t i j = if Nat.eqb i 0 then t 1%nat j * rate else 0.
  Proof.
    intros HD. unfold matmul, simple_shear, transpose. destruct (Nat.eqb i 0).
    - rewrite (rsum_ext _ (fun k => if Nat.eqb k 1 then t 1%nat j * rate else 0)); [apply pick_one; lia|]. intros k _. rewrite andb_true_r. destruct (Nat.eqb_spec k 1); [subst|]; ring.
    - rewrite (rsum_ext _ (fun _ => 0)); [apply rsum_zero|]. intros k _. rewrite andb_false_r. ring.
  Qed.
  Lemma shear_steady lambda_p eta_p rate t : (2 <= D)%nat -> lambda_p <> 0 ->
    ((forall i j, (i < D)%nat -> (j < D)%nat -> source D lambda_p eta_p (simple_shear rate) t i j = 0) <->
     (forall i j, (i < D)%nat -> (j < D)%nat -> t i j = viscometric lambda_p eta_p rate i j)).
  Proof.
    intros HD Hl.
    assert (V : forall i j, source D lambda_p eta_p (simple_shear rate) t i j = 0 <->
      t i j = lambda_p * ((if Nat.eqb j 0 then t i 1%nat * rate else 0) + (if Nat.eqb i 0 then t 1%nat j * rate else 0)) + eta_p * (simple_shear rate i j + simple_shear rate j i)).
    { intros i j. unfold source. rewrite shear_matmul_l, shear_matmul_r by exact HD. unfold transpose. set (a := if Nat.eqb j 0 then _ else _). set (b := if Nat.eqb i 0 then _ else _). set (c := simple_shear rate i j + _).
      split; intros H.
      - assert (E : lambda_p * (a + b + (eta_p * c - t i j) / lambda_p) = 0) by (rewrite H; ring).
        replace (lambda_p * (a + b + (eta_p * c - t i j) / lambda_p)) with (lambda_p * (a + b) + eta_p * c - t i j) in E by (field; exact Hl). lra.
      - rewrite H. field. exact Hl. }
    split; intros H.
    - assert (T11 : t 1%nat 1%nat = 0). { pose proof (proj1 (V 1%nat 1%nat) (H 1%nat 1%nat ltac:(lia) ltac:(lia))) as E. unfold simple_shear in E. cbn in E. lra. }
      assert (T1 : forall k, (2 <= k)%nat -> (k < D)%nat -> t 1%nat k = 0 /\ t k 1%nat = 0).
      { intros k Hk Hk'. destruct k as [|[|k]]; [lia..|]. pose proof (proj1 (V 1%nat (S (S k))) (H 1%nat (S (S k)) ltac:(lia) ltac:(lia))) as E1. pose proof (proj1 (V (S (S k)) 1%nat) (H (S (S k)) 1%nat ltac:(lia) ltac:(lia))) as E2. unfold simple_shear in *. cbn in E1, E2. lra. }
      intros i j Hi Hj. pose proof (proj1 (V i j) (H i j Hi Hj)) as E.
      assert (T10 : t 1%nat 0%nat = eta_p * rate). { pose proof (proj1 (V 1%nat 0%nat) (H 1%nat 0%nat ltac:(lia) ltac:(lia))) as E'. unfold simple_shear in E'. cbn in E'. rewrite T11 in E'. lra. }
      assert (T01 : t 0%nat 1%nat = eta_p * rate). { pose proof (proj1 (V 0%nat 1%nat) (H 0%nat 1%nat ltac:(lia) ltac:(lia))) as E'. unfold simple_shear in E'. cbn in E'. rewrite T11 in E'. lra. }
      destruct i as [|[|i]], j as [|[|j]]; unfold simple_shear in E; cbn in E |- *; try lra.
      + rewrite T10, T01 in E. rewrite E. ring.
      + rewrite (proj1 (T1 (S (S j)) ltac:(lia) ltac:(lia))) in E. rewrite E. ring.
      + rewrite (proj2 (T1 (S (S i)) ltac:(lia) ltac:(lia))) in E. rewrite E. ring.
    - intros i j Hi Hj. apply V. rewrite (H i j Hi Hj). rewrite (H i 1%nat Hi ltac:(lia)), (H 1%nat j ltac:(lia) Hj). destruct i as [|[|i]], j as [|[|j]]; unfold simple_shear; cbn; ring.
  Qed.
End Matrices.

(* ---- continuity ---- *)
Lemma set_entry_same T i j v : set_entry T i j v i j = v.
Proof. unfold set_entry. now rewrite !Nat.eqb_refl. Qed.
Lemma set_entry_other T i j v k l : (k, l) <> (i, j) -> set_entry T i j v k l = T k l.
Proof. intros H. unfold set_entry. destruct (Nat.eqb_spec k i), (Nat.eqb_spec l j); cbn; congruence. Qed.
Lemma fold_save l s : own (fold_left save l s) = own s /\ (forall i j, In (i, j) l -> copies (fold_left save l s) i j = own s i j) /\ (forall i j, ~ In (i, j) l -> copies (fold_left save l s) i j = copies s i j).
Proof.
  revert s; induction l as [|[a b] l IH]; intros s; [repeat split; intros i j []|]. cbn [fold_left]. destruct (IH (save s (a, b))) as (H1 & H2 & H3). split; [rewrite H1; reflexivity|]. split.
  - intros i j Hin. assert (eqd : forall p q : nat * nat, {p = q} + {p <> q}) by (decide equality; apply Nat.eq_dec). destruct (in_dec eqd (i, j) l) as [Hl|Hl]; [rewrite (H2 i j Hl); reflexivity|].
    rewrite (H3 i j Hl). destruct Hin as [E|Hin]; [|contradiction]. injection E as -> ->. cbn [save copies fst snd]. apply set_entry_same.
  - intros i j Hn. rewrite H3 by (intros H; apply Hn; right; exact H). cbn [save copies fst snd]. apply set_entry_other. intros E. apply Hn. left. congruence.
Qed.
Lemma fold_assign cont s : copies (fold_left assign cont s) = copies s /\ (forall i j, ~ In (i, j) (map fst cont) -> own (fold_left assign cont s) i j = own s i j).
Proof.
  revert s; induction cont as [|[[a b] r] cont IH]; intros s; [split; reflexivity|]. cbn [fold_left map]. destruct (IH (assign s (a, b, r))) as (H1 & H2). split; [rewrite H1; reflexivity|].
  intros i j Hn. rewrite H2 by (intros H; apply Hn; right; exact H). cbn [assign own fst snd]. apply set_entry_other. intros E. apply Hn. left. cbn. congruence.
Qed.
Lemma fold_assign_in cont s i j r : NoDup (map fst cont) -> In ((i, j), r) cont -> own (fold_left assign cont s) i j = r (copies s).
Proof.
  revert s; induction cont as [|[[a b] r'] cont IH]; intros s Hn Hin; [destruct Hin|]. cbn [map] in Hn. inversion Hn as [|? ? Ha Hn']; subst. cbn [fold_left]. destruct Hin as [E|Hin].
  - injection E as -> -> ->. destruct (fold_assign cont (assign s (i, j, r))) as (_ & H). cbn [fst] in Ha. rewrite (H i j Ha). cbn [assign own fst snd]. apply set_entry_same.
  - rewrite (IH _ Hn' Hin). reflexivity.
Qed.
Lemma continuity_value D cont s : NoDup (map fst cont) -> (forall i j r, In ((i, j), r) cont -> reads_below D r) ->
  (forall i j r, In ((i, j), r) cont -> own (continuity D cont s) i j = r (own s)) /\ (forall i j, ~ In (i, j) (map fst cont) -> own (continuity D cont s) i j = own s i j).
Proof.
  intros Hn Hr. destruct (fold_save (pairs D) s) as (H1 & H2 & _). split.
  - intros i j r Hin. unfold continuity. rewrite (fold_assign_in _ _ i j r Hn Hin). apply (Hr i j r Hin). intros k l Hk Hl. apply H2. unfold pairs. apply in_prod; apply in_seq; lia.
  - intros i j Hi. unfold continuity. destruct (fold_assign cont (fold_left save (pairs D) s)) as (_ & H). rewrite (H i j Hi), H1. reflexivity.
Qed.
