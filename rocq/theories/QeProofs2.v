From Coq Require Import List ZArith Bool Arith Reals Lra Lia.
From Verif Require Import StencilModel StencilProofs RealLib EqModel EqSpec QeModel QeSpec QeProofs.
Import ListNotations.
Local Open Scope R_scope.

(* sums over axes *)
Lemma etu_seq d : forall u D, length d = D -> length u = D -> e_times_u d u = rsum (map (fun i => IZR (nth i d 0%Z) * nth i u 0) (seq 0 D)).
Proof.
  unfold e_times_u. induction d as [|x d IH]; intros u D Hd Hu; subst D; [reflexivity|]. destruct u as [|y u]; [discriminate|]. injection Hu as Hu. cbn [combine map length seq fst snd]. change (rsum (?a :: ?l)) with (a + rsum l).
  f_equal. rewrite (IH u (length d) eq_refl Hu). rewrite <- seq_shift, map_map. reflexivity.
Qed.
Lemma utu_seq : forall u D, length u = D -> u_times_u u = rsum (map (fun i => nth i u 0 * nth i u 0) (seq 0 D)).
Proof.
  unfold u_times_u. induction u as [|y u IH]; intros D Hu; subst D; [reflexivity|]. cbn [map length seq]. change (rsum (?a :: ?l)) with (a + rsum l). f_equal. rewrite (IH (length u) eq_refl). rewrite <- seq_shift, map_map. reflexivity.
Qed.
Lemma umono_zero : forall u D, umono (repeat 0%nat D) u = 1.
Proof. induction u as [|x u IH]; intros [|D]; try reflexivity. cbn. rewrite IH. ring. Qed.
Lemma umono_map f : forall u D s, length u = D -> umono (map f (seq s D)) u = fold_right Rmult 1 (map (fun k => nth (k - s) u 0 ^ f k) (seq s D)).
Proof.
  induction u as [|x u IH]; intros D s Hu; subst D; [reflexivity|]. cbn [length seq map umono fold_right]. rewrite Nat.sub_diag. cbn [nth]. f_equal.
  rewrite (IH (length u) (S s) eq_refl). f_equal. apply map_ext_in. intros k Hk. apply in_seq in Hk. replace (k - s)%nat with (S (k - S s)) by lia. reflexivity.
Qed.
Lemma prod_split (f g : nat -> R) l : fold_right Rmult 1 (map (fun k => f k * g k) l) = fold_right Rmult 1 (map f l) * fold_right Rmult 1 (map g l).
Proof. induction l as [|x l IH]; cbn; [ring|]. rewrite IH. ring. Qed.
Lemma prod_single u i : forall D s, (s <= i < s + D)%nat -> fold_right Rmult 1 (map (fun k => nth (k - 0) u 0 ^ (if Nat.eqb i k then 1 else 0)) (seq s D)) = nth i u 0.
Proof.
  induction D as [|D IH]; intros s Hs; [lia|]. cbn [seq map fold_right]. destruct (Nat.eqb_spec i s) as [->|Hn].
  - rewrite Nat.sub_0_r, pow_1. replace (fold_right Rmult 1 _) with 1; [ring|]. symmetry. assert (G : forall D t, (s < t)%nat -> fold_right Rmult 1 (map (fun k => nth (k - 0) u 0 ^ (if Nat.eqb s k then 1 else 0)) (seq t D)) = 1).
    { clear. induction D as [|D IH]; intros t Ht; [reflexivity|]. cbn [seq map fold_right]. destruct (Nat.eqb_spec s t); [lia|]. rewrite IH by lia. cbn. ring. } apply G. lia.
  - cbn [pow]. rewrite Rmult_1_l. apply IH. lia.
Qed.
Lemma umono_unit D u i : length u = D -> (i < D)%nat -> umono (unit_exp D i) u = nth i u 0.
Proof. intros Hu Hi. unfold unit_exp. rewrite umono_map by exact Hu. apply prod_single. lia. Qed.
Lemma umono_pair D u i j : length u = D -> (i < D)%nat -> (j < D)%nat -> umono (pair_exp D i j) u = nth i u 0 * nth j u 0.
Proof.
  intros Hu Hi Hj. unfold pair_exp. rewrite umono_map by exact Hu.
  rewrite (map_ext _ (fun k => nth (k - 0) u 0 ^ (if Nat.eqb i k then 1 else 0) * nth (k - 0) u 0 ^ (if Nat.eqb j k then 1 else 0))) by (intros k; apply pow_add).
  rewrite prod_split, !prod_single by lia. reflexivity.
Qed.
Lemma rsum_flat {A B} (f : A -> list B) (g : B -> R) l : rsum (map g (flat_map f l)) = rsum (map (fun a => rsum (map g (f a))) l).
Proof. induction l as [|a l IH]; [reflexivity|]. cbn [flat_map map]. rewrite map_app, rsum_app, IH. reflexivity. Qed.

Lemma generic_eval D d a b c k u : length d = D -> length u = D ->
  ueval (generic_equation D d a b c k) u = a + b * e_times_u d u + c * e_times_u d u ^ 2 + k * u_times_u u.
Proof.
  intros Hd Hu. unfold generic_equation. rewrite ueval_cons, !ueval_app. cbn [fst snd]. rewrite umono_zero. unfold ueval at 1 3. rewrite !map_map. cbn [fst snd].
  rewrite (rsum_ext (fun i => b * IZR (nth i d 0%Z) * umono (unit_exp D i) u) (fun i => b * (IZR (nth i d 0%Z) * nth i u 0))) by (intros i Hi; apply in_seq in Hi; rewrite umono_unit by (lia || exact Hu); ring).
  rewrite (rsum_ext (fun i => k * umono (pair_exp D i i) u) (fun i => k * (nth i u 0 * nth i u 0))) by (intros i Hi; apply in_seq in Hi; rewrite umono_pair by (lia || exact Hu); ring).
  rewrite !rsum_scal, <- (etu_seq d u D Hd Hu), <- (utu_seq u D Hu). unfold ueval. rewrite rsum_flat.
  rewrite (rsum_ext _ (fun i => c * e_times_u d u * (IZR (nth i d 0%Z) * nth i u 0))).
  - rewrite rsum_scal, <- (etu_seq d u D Hd Hu). ring.
  - intros i Hi. apply in_seq in Hi. rewrite map_map. cbn [fst snd].
    rewrite (rsum_ext _ (fun j => c * (IZR (nth i d 0%Z) * nth i u 0) * (IZR (nth j d 0%Z) * nth j u 0))) by (intros j Hj; apply in_seq in Hj; rewrite umono_pair by (lia || exact Hu); ring).
    rewrite rsum_scal, <- (etu_seq d u D Hd Hu). ring.
Qed.
Lemma generic_variables D d a b c k : in_variables D (generic_equation D d a b c k).
Proof.
  intros t Ht. unfold generic_equation in Ht. destruct Ht as [<-|Ht]; [cbn; apply repeat_length|]. apply in_app_or in Ht as [Ht|Ht]; [|apply in_app_or in Ht as [Ht|Ht]].
  - apply in_map_iff in Ht as (i & <- & _). cbn. unfold unit_exp. now rewrite map_length, seq_length.
  - apply in_flat_map in Ht as (i & _ & Ht). apply in_map_iff in Ht as (j & <- & _). cbn. unfold pair_exp. now rewrite map_length, seq_length.
  - apply in_map_iff in Ht as (i & <- & _). cbn. unfold pair_exp. now rewrite map_length, seq_length.
Qed.

(* the check of the equations is equality of functions *)
Lemma solves_spec D d p a b c k : length d = D -> in_variables D p ->
  (solves D d p a b c k = true <-> forall u, length u = D -> ueval p u = a + b * e_times_u d u + c * e_times_u d u ^ 2 + k * u_times_u u).
Proof.
  intros Hd Hp. set (g := generic_equation D d a b c k). transitivity (forall e, In e (map fst p ++ map fst g) -> ucoeff p e = ucoeff g e).
  - unfold solves. fold g. rewrite forallb_forall. split; intros H e He; specialize (H e He); destruct (Req_EM_T (ucoeff p e) (ucoeff g e)); congruence || reflexivity.
  - rewrite <- (same_polynomial D p g Hp (generic_variables D d a b c k)). split; intros H u Hu; specialize (H u Hu); unfold g in *; rewrite (generic_eval D d a b c k u Hd Hu) in *; exact H.
Qed.

(* the probes *)
Lemma axis_length D i x : length (axis D i x) = D.
Proof. unfold axis. now rewrite map_length, seq_length. Qed.
Lemma nth_axis D i x j : (j < D)%nat -> nth j (axis D i x) 0 = if Nat.eqb i j then x else 0.
Proof.
  intros Hj. unfold axis. set (F := fun j => if Nat.eqb i j then x else 0). change (nth j (map F (seq 0 D)) 0 = F j). rewrite (nth_indep _ 0 (F 0%nat)) by (rewrite map_length, seq_length; exact Hj). rewrite map_nth, seq_nth by exact Hj. reflexivity.
Qed.
Lemma sum_pick (f : nat -> R) D i x : (i < D)%nat -> rsum (map (fun j => f j * (if Nat.eqb i j then x else 0)) (seq 0 D)) = f i * x.
Proof.
  intros Hi. assert (G : forall k s, (s <= i < s + k)%nat -> rsum (map (fun j => f j * (if Nat.eqb i j then x else 0)) (seq s k)) = f i * x).
  { induction k as [|k IH]; intros s Hs; [lia|]. cbn [seq map]. change (rsum (?a :: ?l)) with (a + rsum l). destruct (Nat.eqb_spec i s) as [->|Hn].
    - rewrite (rsum_ext _ (fun j => 0 * f j)); [rewrite rsum_scal; ring|]. intros j Hj. apply in_seq in Hj. destruct (Nat.eqb_spec s j); [lia|ring].
    - rewrite IH by lia. ring. } apply G. lia.
Qed.
Lemma etu_axis D d i x : length d = D -> (i < D)%nat -> e_times_u d (axis D i x) = IZR (nth i d 0%Z) * x.
Proof.
  intros Hd Hi. rewrite (etu_seq d _ D Hd (axis_length D i x)). rewrite (rsum_ext _ (fun j => IZR (nth j d 0%Z) * (if Nat.eqb i j then x else 0))) by (intros j Hj; apply in_seq in Hj; rewrite nth_axis by lia; reflexivity).
  apply (sum_pick (fun j => IZR (nth j d 0%Z))). exact Hi.
Qed.
Lemma utu_axis D i x : (i < D)%nat -> u_times_u (axis D i x) = x * x.
Proof.
  intros Hi. rewrite (utu_seq _ D (axis_length D i x)). rewrite (rsum_ext _ (fun j => x * (if Nat.eqb i j then x else 0))) by (intros j Hj; apply in_seq in Hj; rewrite nth_axis by lia; destruct (Nat.eqb i j); ring).
  apply (sum_pick (fun _ => x)). exact Hi.
Qed.
Lemma two_length D i j : length (two_axes D i j) = D.
Proof. unfold two_axes. now rewrite map_length, seq_length. Qed.
Lemma nth_two D i j k : i <> j -> (k < D)%nat -> nth k (two_axes D i j) 0 = (if Nat.eqb i k then 1 else 0) + (if Nat.eqb j k then 1 else 0).
Proof.
  intros Hij Hk. unfold two_axes. set (F := fun k => if Nat.eqb i k then 1 else if Nat.eqb j k then 1 else 0). change (nth k (map F (seq 0 D)) 0 = (if Nat.eqb i k then 1 else 0) + (if Nat.eqb j k then 1 else 0)).
  rewrite (nth_indep _ 0 (F 0%nat)) by (rewrite map_length, seq_length; exact Hk). rewrite map_nth, seq_nth by exact Hk. unfold F. cbn [plus]. destruct (Nat.eqb_spec i k); destruct (Nat.eqb_spec j k); try ring. lia.
Qed.
Lemma etu_two D d i j : length d = D -> (i < D)%nat -> (j < D)%nat -> i <> j -> e_times_u d (two_axes D i j) = IZR (nth i d 0%Z) + IZR (nth j d 0%Z).
Proof.
  intros Hd Hi Hj Hij. rewrite (etu_seq d _ D Hd (two_length D i j)).
  rewrite (rsum_ext _ (fun k => IZR (nth k d 0%Z) * (if Nat.eqb i k then 1 else 0) + IZR (nth k d 0%Z) * (if Nat.eqb j k then 1 else 0))) by (intros k Hk; apply in_seq in Hk; rewrite nth_two by (lia || exact Hij); ring).
  rewrite rsum_plus, !(sum_pick (fun k => IZR (nth k d 0%Z))) by assumption. ring.
Qed.
Lemma utu_two D i j : (i < D)%nat -> (j < D)%nat -> i <> j -> u_times_u (two_axes D i j) = 2.
Proof.
  intros Hi Hj Hij. rewrite (utu_seq _ D (two_length D i j)).
  rewrite (rsum_ext _ (fun k => 1 * (if Nat.eqb i k then 1 else 0) + 1 * (if Nat.eqb j k then 1 else 0))) by (intros k Hk; apply in_seq in Hk; rewrite nth_two by (lia || exact Hij); destruct (Nat.eqb_spec i k); destruct (Nat.eqb_spec j k); try ring; lia).
  rewrite rsum_plus, !(sum_pick (fun _ => 1)) by assumption. ring.
Qed.
Lemma zero_vec D d : length d = D -> e_times_u d (repeat 0 D) = 0 /\ u_times_u (repeat 0 D) = 0.
Proof.
  intros Hd. rewrite (etu_seq d _ D Hd (repeat_length _ _)), (utu_seq _ D (repeat_length _ _)). split; rewrite (rsum_ext _ (fun _ => 0 * 0)) by (intros i _; rewrite nth_repeat; ring); rewrite rsum_scal; ring.
Qed.

Lemma candidate_found D d p a b c k : (2 <= D)%nat -> length d = D -> (forall u, length u = D -> ueval p u = a + b * e_times_u d u + c * e_times_u d u ^ 2 + k * u_times_u u) ->
  solve_candidate D d p = (a, if forallb (Z.eqb 0) d then None else Some (b, c), k).
Proof.
  intros HD Hd H. unfold solve_candidate. cbv zeta. destruct (zero_vec D d Hd) as [Z1 Z2].
  assert (P0 : ueval p (repeat 0 D) = a) by (rewrite H by apply repeat_length; rewrite Z1, Z2; ring).
  assert (PA : forall i x, (i < D)%nat -> ueval p (axis D i x) = a + b * (IZR (nth i d 0%Z) * x) + c * (IZR (nth i d 0%Z) * x) ^ 2 + k * (x * x)) by (intros i x Hi; rewrite H by apply axis_length; rewrite etu_axis, utu_axis by assumption; reflexivity).
  assert (PE : forall i, (i < D)%nat -> even_part D p i = c * IZR (nth i d 0%Z) ^ 2 + k) by (intros i Hi; unfold even_part; rewrite !PA, P0 by exact Hi; field).
  destruct (find (fun i => negb (Z.eqb (nth i d 0%Z) 0)) (seq 0 D)) as [i|] eqn:Ei.
  - apply find_some in Ei as [Hi Ei]. apply in_seq in Hi. apply negb_true_iff, Z.eqb_neq in Ei. assert (Ni : IZR (nth i d 0%Z) <> 0) by (apply not_0_IZR; exact Ei).
    assert (Hf : forallb (Z.eqb 0) d = false).
    { destruct (forallb (Z.eqb 0) d) eqn:F; [|reflexivity]. rewrite forallb_forall in F. assert (Hin : In (nth i d 0%Z) d) by (apply nth_In; lia). specialize (F _ Hin). apply Z.eqb_eq in F. congruence. }
    rewrite Hf. assert (Eb : (ueval p (axis D i 1) - ueval p (axis D i (-1))) / 2 / IZR (nth i d 0%Z) = b) by (rewrite !PA by lia; field; exact Ni).
    rewrite Eb. destruct (find (fun j => negb (Nat.eqb i j) && negb (Z.eqb (nth j d 0%Z) 0)) (seq 0 D)) as [j|] eqn:Ej.
    + apply find_some in Ej as [Hj Ej]. apply in_seq in Hj. apply andb_true_iff in Ej as [E1 E2]. apply negb_true_iff in E1, E2. apply Nat.eqb_neq in E1. apply Z.eqb_neq in E2.
      assert (Nj : IZR (nth j d 0%Z) <> 0) by (apply not_0_IZR; exact E2).
      assert (Ec : (ueval p (two_axes D i j) - ueval p (axis D i 1) - ueval p (axis D j 1) + ueval p (repeat 0 D)) / 2 / (IZR (nth i d 0%Z) * IZR (nth j d 0%Z)) = c).
      { rewrite !PA, P0 by lia. rewrite H by apply two_length. rewrite etu_two, utu_two by (lia || assumption). field. split; assumption. }
      rewrite Ec, P0, PE by lia. f_equal. ring.
    + set (j := (if Nat.eqb i 0 then 1 else 0)%nat). assert (Hj : (j < D)%nat) by (unfold j; destruct (Nat.eqb i 0); lia). assert (Hij : i <> j) by (unfold j; destruct (Nat.eqb_spec i 0); lia).
      assert (Zj : nth j d 0%Z = 0%Z).
      { pose proof (find_none _ _ Ej j ltac:(apply in_seq; lia)) as F. cbn in F. apply andb_false_iff in F as [F|F]; apply negb_false_iff in F; [apply Nat.eqb_eq in F; contradiction|apply Z.eqb_eq in F; exact F]. }
      rewrite P0, !PE, Zj by lia. f_equal; [f_equal; f_equal; f_equal|]; field. exact Ni.
  - assert (Hf : forallb (Z.eqb 0) d = true).
    { apply forallb_forall. intros z Hz. apply In_nth with (d := 0%Z) in Hz as (i & Hi & <-). pose proof (find_none _ _ Ei i ltac:(apply in_seq; lia)) as F. cbn in F. apply negb_false_iff, Z.eqb_eq in F. rewrite F. reflexivity. }
    rewrite Hf, P0, PE by lia. f_equal. assert (Z0 : nth 0 d 0%Z = 0%Z). { rewrite forallb_forall in Hf. assert (Hin : In (nth 0 d 0%Z) d) by (apply nth_In; lia). specialize (Hf _ Hin). apply Z.eqb_eq in Hf. congruence. } rewrite Z0. ring.
Qed.
