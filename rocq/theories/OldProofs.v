From Coq Require Import String List ZArith Bool Arith Reals Lra Lia Permutation.
From Verif Require Import RealLib StencilModel StencilSpec StencilProofs AccessModel AccessProofs GridModel GridProofs StreamModel StreamProofs OldModel OldSpec.
Import ListNotations.
Local Open Scope R_scope.

Lemma at_vneg d c : at_ (vneg d) c = - at_ d c.
Proof. unfold at_. rewrite <- opp_IZR. f_equal. unfold vneg. change 0%Z with (- 0)%Z at 1. apply (map_nth Z.opp). Qed.
Lemma vneg_vneg d : vneg (vneg d) = d.
Proof. unfold vneg. rewrite map_map. rewrite <- (map_id d) at 2. apply map_ext. intros; lia. Qed.
Lemma norm_seq d D : length d = D -> norm d = sqrt (rsum (map (fun c => at_ d c * at_ d c) (seq 0 D))).
Proof.
  intros <-. unfold norm. f_equal. assert (G : forall (e : vec) k, rsum (map (fun z => IZR z * IZR z) e) = rsum (map (fun c => at_ e (c - k) * at_ e (c - k)) (seq k (length e)))).
  { induction e as [|z e IH]; intros k; [reflexivity|]. cbn [map length seq]. rewrite !rsum_cons. f_equal.
    - unfold at_. rewrite Nat.sub_diag. reflexivity.
    - rewrite (IH (S k)). apply rsum_ext. intros c Hc. apply in_seq in Hc. replace (c - k)%nat with (S (c - S k)) by lia. reflexivity. }
  rewrite (G d 0%nat). apply rsum_ext. intros c _. now rewrite Nat.sub_0_r.
Qed.
Lemma norm_vneg d : norm (vneg d) = norm d.
Proof. unfold norm. f_equal. unfold vneg. rewrite map_map. apply rsum_ext. intros z _. rewrite opp_IZR. ring. Qed.
Lemma norm_pos d : 0 <= norm d.
Proof. apply sqrt_pos. Qed.
Lemma norm_sq d D : length d = D -> rsum (map (fun c => at_ d c * at_ d c / norm d) (seq 0 D)) = norm d.
Proof.
  intros Hd. unfold Rdiv. rewrite (rsum_scal_r (/ norm d) (fun c => at_ d c * at_ d c)). assert (P : 0 <= rsum (map (fun c => at_ d c * at_ d c) (seq 0 D))) by (apply rsum_nonneg; intros; nra).
  rewrite (norm_seq d D Hd). set (s := rsum _) in *. destruct (Req_dec s 0) as [Z|N].
  - rewrite Z, sqrt_0. ring.
  - assert (sqrt s <> 0) by (intros E; apply N; apply sqrt_eq_0 in E; assumption). rewrite <- (sqrt_sqrt s P) at 1. field. assumption.
Qed.

  Lemma index_of_lt d l k : index_of d l = Some k -> (k < length l)%nat /\ nth k l [] = d.
  Proof.
    revert k; induction l as [|e l IH]; intros k H; [discriminate|]. cbn [index_of] in H. destruct (vec_eqb d e) eqn:E.
    - injection H as <-. apply vec_eqb_eq in E. split; [cbn; lia|now symmetry].
    - destruct (index_of d l) as [m|] eqn:Em; [|discriminate]. injection H as <-. destruct (IH m eq_refl). cbn. split; [lia|assumption].
  Qed.
  Lemma index_of_In d l : In d l -> exists k, index_of d l = Some k /\ nth k l [] = d.
  Proof.
    induction l as [|e l IH]; intros H; [destruct H|]. cbn [index_of]. destruct (vec_eqb d e) eqn:E.
    - apply vec_eqb_eq in E. subst e. exists 0%nat. split; reflexivity.
    - destruct H as [->|H]; [rewrite (proj2 (vec_eqb_eq d d) eq_refl) in E; discriminate|]. destruct (IH H) as (k & -> & Hk). exists (S k). split; [reflexivity|exact Hk].
  Qed.
  Lemma index_of_none d l : ~ In d l -> index_of d l = None.
  Proof.
    induction l as [|e l IH]; intros H; [reflexivity|]. cbn [index_of]. destruct (vec_eqb d e) eqn:E; [apply vec_eqb_eq in E; subst; exfalso; apply H; left; reflexivity|].
    rewrite IH; [reflexivity|]. intros Hd. apply H. right. exact Hd.
  Qed.

Section Stencil.
  Context (D : nat) (half : list vec).
  Hypothesis HS : staggered_stencil D half.
  Notation full := (full_stencil half).

  Lemma full_length d : In d full -> length d = D.
  Proof.
    intros H. apply in_app_iff in H as [H|H]; [apply HS; exact H|]. apply in_map_iff in H as (e & <- & H). unfold vneg. rewrite map_length. apply HS. exact H.
  Qed.
  Lemma full_odd (f : vec -> R) : (forall d, f (vneg d) = - f d) -> rsum (map f full) = 0.
  Proof.
    intros H. unfold full_stencil. rewrite map_app, rsum_app, map_map. rewrite (rsum_ext (fun x => f (vneg x)) (fun x => -1 * f x)) by (intros; rewrite H; ring). rewrite rsum_scal. ring.
  Qed.
  Lemma involution_sum (s : vec -> vec) (f : vec -> R) : (forall d, In d full -> In (s d) full) -> (forall d, In d full -> s (s d) = d) -> rsum (map (fun d => f (s d)) full) = rsum (map f full).
  Proof.
    intros H1 H2. rewrite <- (map_map s f). apply rsum_perm, Permutation_map. apply NoDup_Permutation_bis.
    - pose proof (ss_nodup _ _ HS) as Nd. assert (G : forall l, (forall d, In d l -> In d full) -> NoDup l -> NoDup (map s l)).
      { induction l as [|a l IH]; intros Hl Hn; [constructor|]. inversion Hn as [|? ? Ha Hn']; subst. cbn [map]. constructor.
        - intros Hin. apply in_map_iff in Hin as (e & E & He). apply Ha. assert (e = a) as <-; [|exact He].
          rewrite <- (H2 e), <- (H2 a), E; [reflexivity|apply Hl; left; reflexivity|apply Hl; right; exact He].
        - apply IH; [intros d Hd; apply Hl; right; exact Hd|exact Hn']. }
      apply G; auto.
    - rewrite map_length. lia.
    - intros d Hd. apply in_map_iff in Hd as (e & <- & He). apply H1. exact He.
  Qed.

  (* reflections and exchange of axes *)
  Definition flip (c : nat) (d : vec) : vec := map (fun k => if Nat.eqb k c then (- nth k d 0)%Z else nth k d 0%Z) (seq 0 (length d)).
  Lemma flip_length c d : length (flip c d) = length d.
  Proof. unfold flip. now rewrite map_length, seq_length. Qed.
  Lemma nth_seq_map {A} (f : nat -> A) n k (a : A) : (k < n)%nat -> nth k (map f (seq 0 n)) a = f k.
  Proof using. intros Hk. rewrite (nth_indep _ a (f 0%nat)) by (rewrite map_length, seq_length; exact Hk). rewrite map_nth, seq_nth by exact Hk. reflexivity. Qed.
  Lemma at_flip c d k : (k < length d)%nat -> at_ (flip c d) k = if Nat.eqb k c then - at_ d k else at_ d k.
  Proof. intros Hk. unfold at_, flip. rewrite nth_seq_map by exact Hk. destruct (Nat.eqb k c); [apply opp_IZR|reflexivity]. Qed.
  Lemma vec_ext (d e : vec) : length d = length e -> (forall k, (k < length d)%nat -> nth k d 0%Z = nth k e 0%Z) -> d = e.
  Proof using.
    revert e; induction d as [|a d IH]; intros [|b e] Hl H; try discriminate; [reflexivity|]. f_equal; [apply (H 0%nat); cbn; lia|].
    apply IH; [cbn in Hl; lia|]. intros k Hk. apply (H (S k)). cbn. lia.
  Qed.
  Lemma flip_flip c d : flip c (flip c d) = d.
  Proof using.
    apply vec_ext; [now rewrite !flip_length|]. rewrite !flip_length. intros k Hk. unfold flip at 1. rewrite flip_length, nth_seq_map by exact Hk. unfold flip. rewrite nth_seq_map by exact Hk.
    destruct (Nat.eqb k c); lia.
  Qed.
  Lemma flip_signed c d : signed_permutation d (flip c d).
  Proof using.
    unfold signed_permutation. replace (map Z.abs (flip c d)) with (map Z.abs d); [apply Permutation_refl|]. unfold flip. rewrite map_map. apply vec_ext; [now rewrite !map_length, seq_length|].
    rewrite map_length. intros k Hk. rewrite nth_seq_map by exact Hk. change 0%Z with (Z.abs 0) at 1. rewrite map_nth. destruct (Nat.eqb k c); lia.
  Qed.
  Lemma norm_signed d e : signed_permutation d e -> norm d = norm e.
  Proof using.
    unfold signed_permutation, norm. intros H. f_equal. assert (A : forall v : vec, map (fun z => IZR z * IZR z) v = map (fun z => IZR z * IZR z) (map Z.abs v)).
    { intros v. rewrite map_map. apply map_ext. intros z. rewrite <- !mult_IZR. f_equal. lia. }
    rewrite (A d), (A e). apply rsum_perm, Permutation_map, H.
  Qed.
  Definition exchange (a b k : nat) : nat := if Nat.eqb k a then b else if Nat.eqb k b then a else k.
  Lemma exchange_lt a b k n : (a < n)%nat -> (b < n)%nat -> (k < n)%nat -> (exchange a b k < n)%nat.
  Proof using. unfold exchange. destruct (Nat.eqb_spec k a), (Nat.eqb_spec k b); lia. Qed.
  Lemma exchange_twice a b k : exchange a b (exchange a b k) = k.
  Proof using. unfold exchange. destruct (Nat.eqb_spec k a) as [->|]; [destruct (Nat.eqb_spec b a) as [->|]; [reflexivity|]; rewrite Nat.eqb_refl; reflexivity|]. destruct (Nat.eqb_spec k b) as [->|]; [rewrite Nat.eqb_refl; reflexivity|]. destruct (Nat.eqb_spec k a); [lia|]. destruct (Nat.eqb_spec k b); lia. Qed.
  Definition swap (a b : nat) (d : vec) : vec := map (fun k => nth (exchange a b k) d 0%Z) (seq 0 (length d)).
  Lemma swap_length a b d : length (swap a b d) = length d.
  Proof. unfold swap. now rewrite map_length, seq_length. Qed.
  Lemma at_swap a b d k : (k < length d)%nat -> at_ (swap a b d) k = at_ d (exchange a b k).
  Proof. intros Hk. unfold at_, swap. now rewrite nth_seq_map. Qed.
  Lemma swap_swap a b d : (a < length d)%nat -> (b < length d)%nat -> swap a b (swap a b d) = d.
  Proof using.
    intros Ha Hb. apply vec_ext; [now rewrite !swap_length|]. rewrite !swap_length. intros k Hk. unfold swap at 1. rewrite swap_length, nth_seq_map by exact Hk.
    unfold swap. rewrite nth_seq_map by (apply exchange_lt; assumption). now rewrite exchange_twice.
  Qed.
  Lemma swap_signed a b d : (a < length d)%nat -> (b < length d)%nat -> signed_permutation d (swap a b d).
  Proof using.
    intros Ha Hb. unfold signed_permutation. apply Permutation_map. unfold swap. rewrite <- (map_map (exchange a b) (fun k => nth k d 0%Z)).
    assert (E : map (fun k => nth k d 0%Z) (seq 0 (length d)) = d).
    { apply vec_ext; [now rewrite map_length, seq_length|]. rewrite map_length, seq_length. intros k Hk. now rewrite nth_seq_map. }
    rewrite <- E at 1. apply Permutation_map. apply Permutation_sym, NoDup_Permutation_bis.
    - apply FinFun.Injective_map_NoDup; [|apply seq_NoDup]. intros x y Exy. rewrite <- (exchange_twice a b x), Exy. apply exchange_twice.
    - rewrite map_length. lia.
    - intros k Hk. apply in_map_iff in Hk as (m & <- & Hm). apply in_seq in Hm. apply in_seq. pose proof (exchange_lt a b m (length d) Ha Hb ltac:(lia)). lia.
  Qed.

  Lemma pick_one i n (v : R) : (i < n)%nat -> rsum (map (fun k => if Nat.eqb k i then v else 0) (seq 0 n)) = v.
  Proof using.
    intros Hi. replace n with (i + S (n - S i))%nat by lia. rewrite seq_app, map_app, rsum_app. cbn [seq map]. rewrite rsum_cons, Nat.add_0_l, Nat.eqb_refl.
    rewrite (rsum_ext (fun k => if Nat.eqb k i then v else 0) (fun _ => 0) (seq 0 i)) by (intros k Hk; apply in_seq in Hk; destruct (Nat.eqb_spec k i); [lia|reflexivity]).
    rewrite (rsum_ext (fun k => if Nat.eqb k i then v else 0) (fun _ => 0) (seq (S i) _)) by (intros k Hk; apply in_seq in Hk; destruct (Nat.eqb_spec k i); [lia|reflexivity]).
    rewrite !rsum_zero. ring.
  Qed.
  Definition S2 (i k : nat) : R := rsum (map (fun d => at_ d i * at_ d k / norm d) full).
  Lemma S2_off i k : (i < D)%nat -> (k < D)%nat -> i <> k -> S2 i k = 0.
  Proof.
    intros Hi Hk N. assert (E : S2 i k = - S2 i k).
    { unfold S2 at 1. rewrite <- (involution_sum (flip i) (fun d => at_ d i * at_ d k / norm d)).
      - rewrite (rsum_ext _ (fun d => -1 * (at_ d i * at_ d k / norm d))); [rewrite rsum_scal; unfold S2; ring|].
        intros d Hd. cbv beta. pose proof (full_length d Hd) as Hl. rewrite !at_flip by lia. rewrite Nat.eqb_refl, <- (norm_signed d (flip i d) (flip_signed i d)).
        destruct (Nat.eqb_spec k i); [lia|]. unfold Rdiv. ring.
      - intros d Hd. eapply ss_closed; eauto. apply flip_signed.
      - intros d _. apply flip_flip. }
    lra.
  Qed.
  Lemma S2_same i k : (i < D)%nat -> (k < D)%nat -> S2 i i = S2 k k.
  Proof.
    intros Hi Hk. unfold S2 at 2. rewrite <- (involution_sum (swap i k) (fun d => at_ d k * at_ d k / norm d)).
    - apply rsum_ext. intros d Hd. cbv beta. pose proof (full_length d Hd) as Hl. rewrite !at_swap by lia. rewrite <- (norm_signed d (swap i k d)) by (apply swap_signed; lia).
      unfold exchange. rewrite Nat.eqb_refl. destruct (Nat.eqb_spec k i); [subst|]; reflexivity.
    - intros d Hd. pose proof (full_length d Hd). eapply ss_closed; eauto. apply swap_signed; lia.
    - intros d Hd. pose proof (full_length d Hd). apply swap_swap; lia.
  Qed.
  Definition A0 : R := rsum (map norm full).
  Lemma S2_trace : rsum (map (fun i => S2 i i) (seq 0 D)) = A0.
  Proof.
    unfold S2. rewrite (rsum_swap (fun i d => at_ d i * at_ d i / norm d)). apply rsum_ext. intros d Hd. apply norm_sq. apply full_length. exact Hd.
  Qed.
  Lemma S2_value i k : (i < D)%nat -> (k < D)%nat -> S2 i k = if Nat.eqb i k then A0 / INR D else 0.
  Proof.
    intros Hi Hk. destruct (Nat.eqb_spec i k) as [->|N]; [|apply S2_off; assumption].
    pose proof S2_trace as T. rewrite (rsum_ext (fun i => S2 i i) (fun _ => S2 k k)) in T by (intros a Ha; apply in_seq in Ha; apply S2_same; lia).
    rewrite rsum_const, seq_length in T. rewrite <- T. field. apply not_0_INR. lia.
  Qed.
  Lemma vneg_differs d : In d half -> vneg d <> d.
  Proof.
    intros Hd E. pose proof (ss_nodup _ _ HS) as Nd. unfold full_stencil in Nd. apply in_split in Hd as (l1 & l2 & El). rewrite El in Nd. rewrite map_app in Nd. cbn [map] in Nd. rewrite E in Nd.
    rewrite <- app_assoc in Nd. cbn [app] in Nd. apply NoDup_remove_2 in Nd. apply Nd. rewrite !in_app_iff. right. right. right. left. reflexivity.
  Qed.
  Lemma norm_half d : In d half -> norm d <> 0.
  Proof.
    intros Hd E. apply (vneg_differs d Hd). unfold norm in E.
    assert (P : 0 <= rsum (map (fun z => IZR z * IZR z) d)) by (apply rsum_nonneg; intros; nra). apply sqrt_eq_0 in E; [|exact P].
    assert (Z : forall z, In z d -> z = 0%Z).
    { intros z Hz. pose proof (rsum_zero_inv (fun z => IZR z * IZR z) d ltac:(intros; nra) E z Hz) as Q. cbv beta in Q. apply eq_IZR. nra. }
    unfold vneg. rewrite <- (map_id d) at 2. apply map_ext_in. intros z Hz. rewrite (Z z Hz). reflexivity.
  Qed.
  Lemma A0_pos : 0 < A0.
  Proof.
    assert (G : forall h, h <> [] -> (forall d, In d h -> norm d <> 0) -> 0 < rsum (map norm (h ++ map vneg h))).
    { intros [|d l] E Hn; [congruence|]. rewrite map_app, rsum_app. cbn [map]. rewrite !rsum_cons.
      assert (norm d <> 0) by (apply Hn; left; reflexivity). pose proof (norm_pos d). pose proof (norm_pos (vneg d)).
      assert (0 <= rsum (map norm l)) by (apply rsum_nonneg; intros; apply norm_pos). assert (0 <= rsum (map norm (map vneg l))) by (apply rsum_nonneg; intros; apply norm_pos). lra. }
    apply G; [apply (ss_some _ _ HS)|apply norm_half].
  Qed.

  (* ---- the faces ---- *)
  Context (L : lattice).
  Hypothesis HL : ldim L = D.
  Lemma half_inverse d : In d half -> ~ In (vneg d) half.
  Proof.
    intros Hd Hn. pose proof (ss_nodup _ _ HS) as Nd. unfold full_stencil in Nd. apply in_split in Hd as (l1 & l2 & El). rewrite El in Nd at 1. rewrite <- app_assoc in Nd. cbn [app] in Nd. apply NoDup_remove_2 in Nd. apply Nd. rewrite !in_app_iff. right. right.
    apply in_map_iff. exists (vneg d). split; [apply vneg_vneg|exact Hn].
  Qed.

  (* the faces hold [F]: the same value seen from both sides *)
  Definition face_field (faces : cell L -> nat -> tensor) (F : cell L -> vec -> tensor) : Prop :=
    (forall x k i j, (k < length half)%nat -> faces x k i j = F x (nth k half []) i j) /\ (forall x d i j, length d = D -> F (shift x d) (vneg d) i j = F x d i j).
  Lemma access_value faces F x d : face_field faces F -> In d full -> exists T, staggered_access L half faces x d = Ok T /\ forall i j, T i j = F x d i j.
  Proof.
    intros [HF HI] Hd. pose proof (full_length d Hd) as Hl. apply in_app_iff in Hd as [Hd|Hd].
    - destruct (index_of_In d half Hd) as (k & Ek & En). exists (faces x k). unfold staggered_access. rewrite Ek. split; [reflexivity|]. intros i j. apply index_of_lt in Ek as [Hk _].
      rewrite (HF x k i j Hk), En. reflexivity.
    - apply in_map_iff in Hd as (e & E & He). assert (vneg d = e) by (subst d; apply vneg_vneg). destruct (index_of_In e half He) as (k & Ek & En).
      exists (faces (shift x d) k). unfold staggered_access. rewrite index_of_none by (subst d; apply half_inverse; exact He). rewrite H, Ek. split; [reflexivity|]. intros i j. apply index_of_lt in Ek as [Hk _].
      rewrite (HF _ k i j Hk), En, <- H. apply HI. exact Hl.
  Qed.
  Lemma tauface_field (tau : cell L -> tensor) : face_field (tauface L half tau) (fun x d i j => (tau x i j + tau (shift x d) i j) / 2).
  Proof.
    split; [reflexivity|]. intros x d i j Hl. cbv beta. rewrite (shift_back L x d) by (rewrite HL; exact Hl). field.
  Qed.
  Lemma mapM_access faces F x l : face_field faces F -> (forall d, In d l -> In d full) ->
    exists ts, mapM (fun d => rbind (staggered_access L half faces x d) (fun T => Ok (d, T))) l = Ok ts /\ forall j, rsum (map (fun t => face_term D (snd t) (fst t) j) ts) = rsum (map (fun d => face_term D (F x d) d j) l).
  Proof.
    intros HF. induction l as [|d l IH]; intros Hl; [exists []; split; reflexivity|]. destruct IH as (ts & E & V); [intros; apply Hl; right; assumption|].
    destruct (access_value faces F x d HF (Hl d (or_introl eq_refl))) as (T & ET & VT). cbn [mapM]. rewrite ET. cbn [rbind]. rewrite E. cbn [rbind]. exists ((d, T) :: ts). split; [reflexivity|].
    intros j. cbn [map]. rewrite !rsum_cons, V. f_equal. cbn [fst snd]. unfold face_term. f_equal. apply rsum_ext. intros i _. now rewrite VT.
  Qed.
  Lemma force_faces faces F x : face_field faces F -> force L D half faces x = Ok (map (fun j => rsum (map (fun d => face_term D (F x d) d j) full) / A0 * 2 * INR D) (seq 0 D)).
  Proof.
    intros HF. unfold force. destruct (mapM_access faces F x full HF (fun d H => H)) as (ts & E & V). unfold vec in *. rewrite E. cbn [rbind]. cbv zeta. pose proof A0_pos as Pa. unfold A0 in Pa |- *. match goal with |- context [Req_EM_T ?a 0] => assert (0 < a) as Pb by exact Pa; destruct (Req_EM_T a 0) as [Z|_]; [rewrite Z in Pb; lra|] end.
    f_equal. apply map_ext. intros j. now rewrite V.
  Qed.
  Lemma face_term_at T d j : face_term D T d j = rsum (map (fun i => T i j * at_ d i) (seq 0 D)) / norm d.
  Proof using. reflexivity. Qed.
  Lemma constant_zero i (c : R) : rsum (map (fun d => c * at_ d i / norm d) full) = 0.
  Proof. apply full_odd. intros d. rewrite at_vneg, norm_vneg. unfold Rdiv. ring. Qed.

  (* half of the central difference *)
  Lemma tau_sum (tau : cell L -> tensor) x j : rsum (map (fun d => face_term D (fun i j => (tau x i j + tau (shift x d) i j) / 2) d j) full) * 2
    = rsum (map (fun d => rsum (map (fun i => at_ d i * tau (shift x d) i j) (seq 0 D)) / norm d) full).
  Proof.
    rewrite <- rsum_scal_r. rewrite (rsum_ext _ (fun d => rsum (map (fun i => at_ d i * tau (shift x d) i j) (seq 0 D)) / norm d + rsum (map (fun i => tau x i j * at_ d i / norm d) (seq 0 D)))).
    - rewrite rsum_plus. rewrite (rsum_swap (fun d i => tau x i j * at_ d i / norm d)). rewrite (rsum_ext (fun b => rsum (map (fun a => tau x b j * at_ a b / norm a) full)) (fun _ => 0)) by (intros; apply constant_zero).
      rewrite rsum_const. ring.
    - intros d _. cbv beta. rewrite face_term_at. unfold Rdiv. rewrite (rsum_scal_r (/ norm d) (fun i => tau x i j * at_ d i)).
      rewrite <- Rmult_plus_distr_r, <- rsum_plus. rewrite (Rmult_comm (_ * / norm d) 2), <- Rmult_assoc. f_equal. rewrite <- rsum_scal. apply rsum_ext. intros i _. field.
  Qed.
  Lemma force_value (tau : cell L -> tensor) x : force L D half (tauface L half tau) x
    = Ok (map (fun j => rsum (map (fun d => rsum (map (fun i => at_ d i * tau (shift x d) i j) (seq 0 D)) / norm d) full) * (INR D / A0)) (seq 0 D)).
  Proof.
    rewrite (force_faces _ _ x (tauface_field tau)). f_equal. apply map_ext. intros j. rewrite <- tau_sum. field. pose proof A0_pos. lra.
  Qed.
  Lemma quadratic_force (tau : cell L -> tensor) x g h j : quadratic_around D half tau x g h ->
    rsum (map (fun d => rsum (map (fun i => at_ d i * tau (shift x d) i j) (seq 0 D)) / norm d) full) * (INR D / A0) = divergence D g j.
  Proof.
    intros H. pose proof A0_pos as Pa. assert (Pd : INR D <> 0) by (apply not_0_INR; pose proof (ss_pos _ _ HS); lia).
    assert (E : rsum (map (fun d => rsum (map (fun i => at_ d i * tau (shift x d) i j) (seq 0 D)) / norm d) full)
      = rsum (map (fun i => rsum (map (fun k => g i j k * S2 i k) (seq 0 D))) (seq 0 D))).
    { rewrite (rsum_ext _ (fun d => rsum (map (fun i => at_ d i * tau (shift x d) i j / norm d) (seq 0 D)))) by (intros; unfold Rdiv; now rewrite rsum_scal_r).
      rewrite (rsum_swap (fun d i => at_ d i * tau (shift x d) i j / norm d)). apply rsum_ext. intros i _.
      rewrite (rsum_ext _ (fun d => (tau x i j * at_ d i / norm d + rsum (map (fun k => rsum (map (fun l => h i j k l * (at_ d k * at_ d l)) (seq 0 D))) (seq 0 D)) * at_ d i / norm d)
        + rsum (map (fun k => g i j k * (at_ d i * at_ d k / norm d)) (seq 0 D)))).
      - rewrite rsum_plus. rewrite (full_odd (fun d => tau x i j * at_ d i / norm d + rsum (map (fun k => rsum (map (fun l => h i j k l * (at_ d k * at_ d l)) (seq 0 D))) (seq 0 D)) * at_ d i / norm d)).
        + rewrite Rplus_0_l. rewrite (rsum_swap (fun d k => g i j k * (at_ d i * at_ d k / norm d))). apply rsum_ext. intros k _. rewrite rsum_scal. reflexivity.
        + intros d. rewrite norm_vneg, at_vneg. rewrite (rsum_ext (fun k => rsum (map (fun l => h i j k l * (at_ (vneg d) k * at_ (vneg d) l)) (seq 0 D))) (fun k => rsum (map (fun l => h i j k l * (at_ d k * at_ d l)) (seq 0 D)))).
          * unfold Rdiv. ring.
          * intros k _. apply rsum_ext. intros l _. rewrite !at_vneg. ring.
      - intros d Hd. rewrite (H i j d Hd). rewrite (rsum_ext (fun k => g i j k * (at_ d i * at_ d k / norm d)) (fun k => (g i j k * at_ d k) * (at_ d i / norm d))) by (intros; unfold Rdiv; ring).
        rewrite (rsum_scal_r (at_ d i / norm d) (fun k => g i j k * at_ d k)). unfold Rdiv. ring. }
    rewrite E, <- rsum_scal_r. unfold divergence. apply rsum_ext. intros i Hi. apply in_seq in Hi.
    rewrite (rsum_ext _ (fun k => if Nat.eqb k i then g i j i * (A0 / INR D) else 0)).
    - rewrite (pick_one i D (g i j i * (A0 / INR D))) by lia. field. split; [lra|exact Pd].
    - intros k Hk. apply in_seq in Hk. rewrite S2_value by lia. rewrite Nat.eqb_sym. destruct (Nat.eqb_spec k i); [subst; reflexivity|ring].
  Qed.
End Stencil.
