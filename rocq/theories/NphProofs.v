(* Proofs about the n-phase model: sums, diffusion coefficients, free energy. *)
From Coq Require Import List ZArith Bool Arith Reals Lra Lia Permutation.
From Verif Require Import StencilModel RealLib NphModel NphSpec.
Import ListNotations.
Local Open Scope R_scope.

(* ---- sums ---- *)
Lemma total_rsum n g : rsum (map g (seq 0 n)) = total n g.
Proof. induction n as [|n IH]; [reflexivity|]. rewrite seq_S, map_app, rsum_app, IH. cbn. ring. Qed.
Lemma total_ext n f g : (forall i, (i < n)%nat -> f i = g i) -> total n f = total n g.
Proof. induction n as [|n IH]; intros H; [reflexivity|]. cbn. rewrite IH by (intros; apply H; lia). now rewrite (H n) by lia. Qed.
Lemma total_zero n f : (forall i, (i < n)%nat -> f i = 0) -> total n f = 0.
Proof. induction n as [|n IH]; intros H; [reflexivity|]. cbn. rewrite IH by (intros; apply H; lia). rewrite (H n) by lia. ring. Qed.
Lemma total_plus n f g : total n (fun i => f i + g i) = total n f + total n g.
Proof. induction n; cbn; [ring|rewrite IHn; ring]. Qed.
Lemma total_minus n f g : total n (fun i => f i - g i) = total n f - total n g.
Proof. induction n; cbn; [ring|rewrite IHn; ring]. Qed.
Lemma total_scal n k f : total n (fun i => k * f i) = k * total n f.
Proof. induction n; cbn; [ring|rewrite IHn; ring]. Qed.
Lemma total_scal_r n k f : total n (fun i => f i * k) = total n f * k.
Proof. induction n; cbn; [ring|rewrite IHn; ring]. Qed.
Lemma total_swap n m f : total n (fun i => total m (fun j => f i j)) = total m (fun j => total n (fun i => f i j)).
Proof. induction n; cbn; [symmetry; now apply total_zero|]. rewrite IHn. symmetry. apply total_plus. Qed.
Lemma total_one n k f : (k < n)%nat -> (forall i, (i < n)%nat -> i <> k -> f i = 0) -> total n f = f k.
Proof.
  induction n as [|n IH]; intros Hk H; [lia|]. cbn. destruct (Nat.eq_dec k n) as [->|N].
  - rewrite total_zero by (intros; apply H; lia). ring.
  - rewrite IH by (try lia; intros; apply H; lia). rewrite (H n) by lia. ring.
Qed.
Lemma total_two n j k f : (j < n)%nat -> (k < n)%nat -> j <> k -> (forall i, (i < n)%nat -> i <> j -> i <> k -> f i = 0) -> total n f = f j + f k.
Proof.
  induction n as [|n IH]; intros Hj Hk Hjk H; [lia|]. cbn. destruct (Nat.eq_dec j n) as [->|N].
  - rewrite (total_one n k) by (try lia; intros; apply H; lia). ring.
  - destruct (Nat.eq_dec k n) as [->|N']; [rewrite (total_one n j) by (try lia; intros; apply H; lia); ring|].
    rewrite IH by (try lia; intros; apply H; lia). rewrite (H n) by lia. ring.
Qed.
Lemma total_kronecker n i f : (i < n)%nat -> total n (fun k => kronecker i k * f k) = f i.
Proof. intros H. rewrite (total_one n i) by first [assumption | intros k Hk Hn; unfold kronecker; destruct (Nat.eq_dec i k); [congruence|ring]]. unfold kronecker. destruct (Nat.eq_dec i i); [ring|congruence]. Qed.
(* the pairs j < i: half of all pairs *)
Lemma total_half n f : (forall i j, (i < n)%nat -> (j < n)%nat -> f i j = f j i) -> (forall i, (i < n)%nat -> f i i = 0) -> total n (fun i => total i (fun j => f i j)) = / 2 * total n (fun i => total n (fun j => f i j)).
Proof.
  intros Hs Hd. enough (total n (fun i => total n (fun j => f i j)) = 2 * total n (fun i => total i (fun j => f i j))) by lra.
  induction n as [|n IH]; [cbn; ring|]. cbn. rewrite total_plus, IH by (intros; auto). rewrite (Hd n) by lia.
  rewrite (total_ext n (fun i => f i n) (fun i => f n i)) by (intros; apply Hs; lia). ring.
Qed.

(* ---- diffusion coefficients ---- *)
Section Diffusion.
  Variables (n : nat) (sigma : nat -> nat -> R).
  Hypothesis Ht : tensions n sigma.
  Lemma column_sums alpha gamma : diffusion_system n sigma alpha gamma -> forall j, (j < n)%nat -> total n (fun i => alpha i j) = 0.
  Proof. intros (S1 & S2 & _) j Hj. rewrite <- (S2 j Hj). apply total_ext. intros i Hi. now apply S1. Qed.
  (* alpha (sigma v) = v + gamma (sum of v) *)
  Lemma alpha_sigma alpha gamma v i : diffusion_system n sigma alpha gamma -> (i < n)%nat -> times n alpha (times n sigma v) i = v i + gamma i * total n v.
  Proof.
    intros (S1 & S2 & S3) Hi. unfold times. rewrite (total_ext n _ (fun k => total n (fun j => alpha i k * sigma k j * v j))) by (intros; rewrite <- total_scal; apply total_ext; intros; ring).
    rewrite total_swap. rewrite (total_ext n _ (fun j => kronecker i j * v j + gamma i * v j)).
    - rewrite total_plus, total_kronecker, total_scal by auto. ring.
    - intros j Hj. rewrite (total_scal_r n (v j) (fun k => alpha i k * sigma k j)). rewrite S3 by auto. ring.
  Qed.
  (* sigma (alpha w) = w + (gamma . w) *)
  Lemma sigma_alpha alpha gamma w j : diffusion_system n sigma alpha gamma -> (j < n)%nat -> times n sigma (times n alpha w) j = w j + total n (fun i => gamma i * w i).
  Proof.
    intros (S1 & S2 & S3) Hj. destruct Ht as [T1 T2]. unfold times. rewrite (total_ext n _ (fun k => total n (fun i => alpha i k * sigma k j * w i))).
    - rewrite total_swap. rewrite (total_ext n _ (fun i => kronecker j i * w i + gamma i * w i)).
      + rewrite total_plus, total_kronecker by auto. reflexivity.
      + intros i Hi. rewrite (total_scal_r n (w i) (fun k => alpha i k * sigma k j)), S3 by auto. unfold kronecker. destruct (Nat.eq_dec i j), (Nat.eq_dec j i); try congruence; ring.
    - intros k Hk. rewrite <- total_scal. apply total_ext. intros i Hi. rewrite (T1 j k), (S1 k i) by auto. ring.
  Qed.
  Lemma times_sum alpha gamma w : diffusion_system n sigma alpha gamma -> total n (times n alpha w) = 0.
  Proof.
    intros H. unfold times. rewrite total_swap. apply total_zero. intros k Hk. rewrite (total_scal_r n (w k) (fun i => alpha i k)). rewrite (column_sums _ _ H) by auto. ring.
  Qed.
  Lemma diffusion_unique alpha gamma alpha' gamma' : diffusion_system n sigma alpha gamma -> diffusion_system n sigma alpha' gamma' ->
    (forall i j, (i < n)%nat -> (j < n)%nat -> alpha i j = alpha' i j) /\ (forall i, (i < n)%nat -> gamma i = gamma' i).
  Proof.
    intros H H'.
    assert (A : forall i j, (i < n)%nat -> (j < n)%nat -> alpha i j = alpha' i j).
    { intros i j Hi Hj. set (w := kronecker j).
      assert (Ew : forall m (M : nat -> nat -> R), (m < n)%nat -> times n M w m = M m j). { intros m M Hm. unfold times, w. rewrite (total_ext n _ (fun k => kronecker j k * M m k)) by (intros; ring). now apply total_kronecker. }
      (* alpha (sigma (alpha' w)) in two ways *)
      pose proof (alpha_sigma alpha gamma (times n alpha' w) i H Hi) as E1. rewrite (times_sum _ _ w H'), Ew in E1 by auto.
      unfold times at 1 in E1. rewrite (total_ext n _ (fun k => alpha i k * w k + alpha i k * total n (fun i => gamma' i * w i))) in E1 by (intros k Hk; rewrite (sigma_alpha alpha' gamma' w k H' Hk); ring).
      rewrite total_plus, total_scal_r in E1. destruct H as (_ & S2 & _). rewrite (S2 i Hi) in E1.
      fold (times n alpha w i) in E1. rewrite Ew in E1 by auto. lra. }
    split; [exact A|]. intros i Hi. destruct H as (_ & _ & S3). destruct H' as (_ & _ & S3'). pose proof (S3 i i Hi Hi) as E. pose proof (S3' i i Hi Hi) as E'.
    rewrite (total_ext n _ (fun k => alpha' i k * sigma k i)) in E by (intros k Hk; now rewrite (A i k)). lra.
  Qed.
  (* dissipation: alpha is negative semidefinite exactly if the surface tensions are on vectors with zero sum *)
  Lemma quadratic alpha gamma w : diffusion_system n sigma alpha gamma ->
    total n (fun i => w i * times n alpha w i) = total n (fun i => times n alpha w i * times n sigma (times n alpha w) i).
  Proof.
    intros H. symmetry. rewrite (total_ext n _ (fun i => w i * times n alpha w i + total n (fun i => gamma i * w i) * times n alpha w i)) by (intros i Hi; rewrite (sigma_alpha alpha gamma w i H Hi); ring).
    rewrite total_plus, total_scal, (times_sum _ _ w H). ring.
  Qed.
  Lemma dissipation alpha gamma : diffusion_system n sigma alpha gamma ->
    (forall w, total n (fun i => w i * times n alpha w i) <= 0) <-> (forall v, total n v = 0 -> total n (fun i => v i * times n sigma v i) <= 0).
  Proof.
    intros H. split.
    - intros Hw v Hv. assert (E : forall i, (i < n)%nat -> times n alpha (times n sigma v) i = v i) by (intros i Hi; rewrite (alpha_sigma alpha gamma v i H Hi), Hv; ring).
      specialize (Hw (times n sigma v)). rewrite (total_ext n _ (fun i => v i * times n sigma v i)) in Hw by (intros i Hi; rewrite E by auto; ring). exact Hw.
    - intros Hv w. rewrite (quadratic alpha gamma w H). apply Hv. exact (times_sum _ _ w H).
  Qed.
End Diffusion.
(* equal surface tensions *)
Lemma total_const n k : total n (fun _ => k) = INR n * k.
Proof. induction n as [|n IH]; [cbn; ring|]. rewrite S_INR. cbn [total]. rewrite IH. ring. Qed.
Lemma total_kron n i : (i < n)%nat -> total n (kronecker i) = 1.
Proof. intros H. rewrite <- (total_kronecker n i (fun _ => 1) H). apply total_ext. intros. ring. Qed.
Lemma equal_tensions n s : (0 < n)%nat -> s <> 0 -> diffusion_system n (fun i j => s * (1 - kronecker i j)) (fun i j => (/ INR n - kronecker i j) / s) (fun _ => - / INR n).
Proof.
  intros Hn Hs. assert (HN : INR n <> 0) by (apply not_0_INR; lia). split; [|split].
  - intros i j Hi Hj. unfold kronecker. destruct (Nat.eq_dec i j), (Nat.eq_dec j i); congruence.
  - intros i Hi. rewrite (total_ext n _ (fun j => / s * (/ INR n - kronecker i j))) by (intros; field; split; auto). rewrite total_scal, total_minus, total_const, total_kron by auto. field. auto.
  - intros i j Hi Hj. rewrite (total_ext n _ (fun k => (/ INR n - kronecker i k) - (/ INR n - kronecker i k) * kronecker k j)) by (intros; field; split; auto).
    rewrite total_minus, total_minus, total_const, total_kron by auto.
    rewrite (total_ext n (fun k => _ * kronecker k j) (fun k => kronecker j k * (/ INR n - kronecker i k))) by (intros; unfold kronecker; destruct (Nat.eq_dec i0 j), (Nat.eq_dec j i0); try congruence; ring).
    rewrite total_kronecker by auto. field. auto.
Qed.

(* ---- F0 ---- *)
Lemma f0_total c sigma f : capital_f0 c sigma f = total (length c) (fun j => total j (fun i => sigma i j / 2 * (f (entry c i) + f (entry c j) - f (entry c i + entry c j)))).
Proof. unfold capital_f0. rewrite total_rsum. apply total_ext. intros. now rewrite total_rsum. Qed.
Lemma f0_half c sigma f : tensions (length c) sigma ->
  capital_f0 c sigma f = total (length c) (fun j => total (length c) (fun i => sigma j i / 4 * (f (entry c i) + f (entry c j) - f (entry c i + entry c j)))).
Proof.
  intros [T1 T2]. rewrite f0_total.
  rewrite (total_ext _ _ (fun j => total j (fun i => sigma j i / 2 * (f (entry c i) + f (entry c j) - f (entry c i + entry c j))))) by (intros j Hj; apply total_ext; intros i Hi; rewrite (T1 i j) by lia; reflexivity).
  rewrite (total_half _ (fun j i => sigma j i / 2 * (f (entry c i) + f (entry c j) - f (entry c i + entry c j)))).
  - rewrite <- total_scal. apply total_ext. intros. rewrite <- total_scal. apply total_ext. intros. field.
  - intros i j Hi Hj. rewrite (T1 i j Hi Hj), (Rplus_comm (entry c j) (entry c i)). ring.
  - intros i Hi. rewrite T2 by auto. field.
Qed.
Lemma interfacial_half d sigma a eps : tensions (length d) sigma ->
  free_energy_interfacial d sigma a eps = - eps * a / 4 * total (length d) (fun i => entry d i * times (length d) sigma (entry d) i).
Proof.
  intros [T1 T2]. unfold free_energy_interfacial. rewrite total_rsum. rewrite (total_ext _ _ (fun i => total i (fun j => sigma i j * entry d i * entry d j))) by (intros; now rewrite total_rsum).
  rewrite (total_half _ (fun i j => sigma i j * entry d i * entry d j)).
  - unfold times. rewrite (total_ext _ (fun i => entry d i * _) (fun i => total (length d) (fun j => sigma i j * entry d i * entry d j))) by (intros; rewrite <- total_scal; apply total_ext; intros; ring). field.
  - intros i j Hi Hj. rewrite (T1 i j Hi Hj). ring.
  - intros i Hi. rewrite T2 by auto. ring.
Qed.
(* ---- combinations ---- *)
Lemma combinations_0 {A} (l : list A) : combinations 0 l = [[]].
Proof. destruct l; reflexivity. Qed.
Lemma combinations_map {A B} (g : A -> B) : forall l k, combinations k (map g l) = map (map g) (combinations k l).
Proof.
  induction l as [|x r IH]; intros [|k]; try reflexivity. cbn [map combinations]. rewrite map_app, !map_map, <- (IH (Datatypes.S k)). f_equal. rewrite (IH k), map_map. reflexivity.
Qed.
Lemma combinations_long {A} : forall (l : list A) k, (length l < k)%nat -> combinations k l = [].
Proof. induction l as [|x r IH]; intros [|k] H; cbn in H; try lia; [reflexivity|]. cbn [combinations]. rewrite (IH k), (IH (Datatypes.S k)) by lia. reflexivity. Qed.
Lemma combinations_length {A} : forall (l : list A) k j, In j (combinations k l) -> length j = k.
Proof.
  induction l as [|x r IH]; intros [|k] j H; cbn in H; try tauto; [destruct H as [<-|[]]; reflexivity|destruct H as [<-|[]]; reflexivity|].
  apply in_app_or in H. destruct H as [H|H]; [|now apply IH]. apply in_map_iff in H. destruct H as (j' & <- & H). cbn. f_equal. now apply IH.
Qed.
Lemma combinations_zero {A} (z : A) : forall l1 l2 k (G : list A -> R), (forall a b, G (a ++ z :: b) = 0) -> rsum (map G (combinations k (l1 ++ z :: l2))) = rsum (map G (combinations k (l1 ++ l2))).
Proof.
  induction l1 as [|x r IH]; intros l2 [|k] G HG; rewrite ?combinations_0; try reflexivity; cbn [app combinations].
  - rewrite map_app, rsum_app, map_map. rewrite (rsum_ext _ (fun _ => 0)), rsum_zero by (intros a _; apply (HG [] a)). ring.
  - rewrite !map_app, !rsum_app, !map_map. f_equal; [|now apply IH]. apply (IH l2 k (fun a => G (x :: a))). intros a b. apply (HG (x :: a) b).
Qed.
(* alternating sums over subsets *)
Definition alternating (k : nat) (phi : list R -> R) (l : list R) : R := rsum (map (fun s => rsum (map (fun j => minus_one_pow (k - s) * phi j) (combinations s l))) (seq 0 (Datatypes.S k))).
Lemma minus_one_S k : minus_one_pow (Datatypes.S k) = - minus_one_pow k.
Proof. unfold minus_one_pow. rewrite Nat.even_succ, <- Nat.negb_even. destruct (Nat.even k); cbn; ring. Qed.
Lemma alternating_cons phi x r : alternating (length (x :: r)) phi (x :: r) = alternating (length r) (fun j => phi (x :: j)) r - alternating (length r) phi r.
Proof.
  unfold alternating. cbn [length]. set (m := length r).
  assert (E : forall s, (s < Datatypes.S (Datatypes.S m))%nat -> rsum (map (fun j => minus_one_pow (Datatypes.S m - s) * phi j) (combinations s (x :: r))) =
     match s with O => 0 | Datatypes.S t => rsum (map (fun j => minus_one_pow (m - t) * phi (x :: j)) (combinations t r)) end + rsum (map (fun j => minus_one_pow (Datatypes.S m - s) * phi j) (combinations s r))).
  { intros [|t] Hs; cbn [combinations].
    - rewrite combinations_0. cbn. ring.
    - rewrite map_app, rsum_app, map_map. f_equal. }
  rewrite (rsum_ext _ (fun s => match s with O => 0 | Datatypes.S t => rsum (map (fun j => minus_one_pow (m - t) * phi (x :: j)) (combinations t r)) end + rsum (map (fun j => minus_one_pow (Datatypes.S m - s) * phi j) (combinations s r)))) by (intros s Hs; apply in_seq in Hs; apply E; lia).
  rewrite rsum_plus. unfold Rminus. f_equal.
  - change (seq 0 (Datatypes.S (Datatypes.S m))) with (0%nat :: seq 1 (Datatypes.S m)). rewrite <- seq_shift. cbn [map]. rewrite rsum_cons, map_map, Rplus_0_l. reflexivity.
  - rewrite (seq_S (Datatypes.S m)), map_app, rsum_app. cbn [map plus]. rewrite (combinations_long r) by (unfold m; lia). cbn [map rsum fold_right]. rewrite Rplus_0_r, Rplus_0_r.
    transitivity (- 1 * rsum (map (fun s => rsum (map (fun j => minus_one_pow (m - s) * phi j) (combinations s r))) (seq 0 (Datatypes.S m)))); [|ring]. rewrite <- rsum_scal. apply rsum_ext. intros s Hs. apply in_seq in Hs.
    rewrite <- rsum_scal. apply rsum_ext. intros j _. replace (Datatypes.S m - s)%nat with (Datatypes.S (m - s)) by lia. rewrite minus_one_S. ring.
Qed.
Lemma alternating_zero : forall a b phi, (forall a b, phi (a ++ 0 :: b) = phi (a ++ b)) -> alternating (length (a ++ 0 :: b)) phi (a ++ 0 :: b) = 0.
Proof.
  induction a as [|x r IH]; intros b phi H; cbn [app].
  - rewrite alternating_cons. assert (E : alternating (length b) (fun j => phi (0 :: j)) b = alternating (length b) phi b). { unfold alternating. apply rsum_ext. intros s _. apply rsum_ext. intros j _. f_equal. apply (H [] j). } rewrite E. ring.
  - rewrite alternating_cons. rewrite (IH b phi) by auto. rewrite (IH b (fun j => phi (x :: j))) by (intros a' b'; apply (H (x :: a') b')). ring.
Qed.
(* psi on values *)
Definition psi_values (k : nat) (c : list R) (f : R -> R) : R := rsum (map (alternating k (fun j => f (rsum j))) (combinations k c)).
Lemma list_entries (c : list R) : map (entry c) (seq 0 (length c)) = c.
Proof. apply nth_ext with 0 0; [now rewrite map_length, seq_length|]. intros i Hi. rewrite map_length, seq_length in Hi. rewrite (nth_indep _ 0 (entry c 0)), (map_nth (entry c)), seq_nth by (rewrite ?map_length, ?seq_length; auto). reflexivity. Qed.
Lemma psi_on_values k c f : f 0 = 0 -> psi_value k c f = psi_values k c f.
Proof.
  intros H0. unfold psi_value, psi_values. assert (E : combinations k c = map (map (entry c)) (combinations k (seq 0 (length c)))) by (rewrite <- combinations_map, list_entries; reflexivity). rewrite E, map_map. apply rsum_ext. intros i Hi. unfold alternating.
  change (seq 0 (Datatypes.S k)) with (0%nat :: seq 1 k). cbn [map]. rewrite rsum_cons, combinations_0. rewrite (rsum_ext (fun s => rsum (map (fun j => minus_one_pow (k - s) * f (rsum j)) (combinations s (map (entry c) i)))) (fun s => rsum (map (fun j => minus_one_pow (k - s) * f (subset_sum c j)) (combinations s i)))).
  - cbn [map]. rewrite rsum_cons. change (rsum []) with 0. rewrite H0. ring.
  - intros s _. rewrite combinations_map, map_map. reflexivity.
Qed.
Lemma psi_absent k l1 l2 f : f 0 = 0 -> psi_values k (l1 ++ 0 :: l2) f = psi_values k (l1 ++ l2) f.
Proof.
  intros H0. unfold psi_values. rewrite (rsum_ext _ (fun j => if Nat.eqb (length j) k then alternating (length j) (fun j => f (rsum j)) j else 0)) by (intros j Hj; apply combinations_length in Hj; rewrite Hj, Nat.eqb_refl; reflexivity).
  rewrite (rsum_ext (alternating k _) (fun j => if Nat.eqb (length j) k then alternating (length j) (fun j => f (rsum j)) j else 0) (combinations k (l1 ++ l2))) by (intros j Hj; apply combinations_length in Hj; rewrite Hj, Nat.eqb_refl; reflexivity).
  apply combinations_zero. intros a b. rewrite alternating_zero; [destruct (Nat.eqb _ _); reflexivity|]. intros a' b'. f_equal. rewrite !rsum_app, rsum_cons. ring.
Qed.
