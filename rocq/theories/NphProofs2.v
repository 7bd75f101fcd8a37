(* Proofs about the n-phase model: reduction to fewer phases, dynamics of mixtures, surface tension. *)
From Coq Require Import List ZArith Bool Arith Reals Lra Lia Permutation.
From Verif Require Import StencilModel RealLib NphModel NphSpec NphProofs.
Import ListNotations.
Local Open Scope R_scope.

(* ---- calculus ---- *)
Lemma dn_ext f g x l : (forall y, f y = g y) -> derivable_pt_lim f x l -> derivable_pt_lim g x l.
Proof. intros E H eps He. destruct (H eps He) as [d Hd]. exists d. intros h. rewrite <- !E. apply Hd. Qed.
Lemma dn_eq f x l l' : l = l' -> derivable_pt_lim f x l -> derivable_pt_lim f x l'.
Proof. now intros ->. Qed.
Lemma dn_mult f g x l m : derivable_pt_lim f x l -> derivable_pt_lim g x m -> derivable_pt_lim (fun y => f y * g y) x (l * g x + f x * m).
Proof. intros. now apply (derivable_pt_lim_mult f g). Qed.
Lemma dn_plus f g x l m : derivable_pt_lim f x l -> derivable_pt_lim g x m -> derivable_pt_lim (fun y => f y + g y) x (l + m).
Proof. intros. now apply (derivable_pt_lim_plus f g). Qed.
Lemma dn_minus f g x l m : derivable_pt_lim f x l -> derivable_pt_lim g x m -> derivable_pt_lim (fun y => f y - g y) x (l - m).
Proof. intros. now apply (derivable_pt_lim_minus f g). Qed.
Lemma dn_const k x : derivable_pt_lim (fun _ => k) x 0.
Proof. apply (derivable_pt_lim_const k). Qed.
Lemma dn_id x : derivable_pt_lim (fun y => y) x 1.
Proof. apply derivable_pt_lim_id. Qed.
Lemma dn_scal k f x l : derivable_pt_lim f x l -> derivable_pt_lim (fun y => k * f y) x (k * l).
Proof. intros H. eapply dn_eq; [|apply dn_mult; [apply (dn_const k)|exact H]]. cbv beta. ring. Qed.
Lemma dn_div f g x l m : g x <> 0 -> derivable_pt_lim f x l -> derivable_pt_lim g x m -> derivable_pt_lim (fun y => f y / g y) x ((l * g x - m * f x) / Rsqr (g x)).
Proof. intros. now apply (derivable_pt_lim_div f g). Qed.
Lemma dn_comp f g x l m : derivable_pt_lim f x l -> derivable_pt_lim g (f x) m -> derivable_pt_lim (fun y => g (f y)) x (m * l).
Proof. intros. now apply (derivable_pt_lim_comp f g). Qed.
Lemma dn_square f x l : derivable_pt_lim f x l -> derivable_pt_lim (fun y => f y ^ 2) x (2 * f x * l).
Proof. intros H. apply (dn_ext (fun y => f y * f y)); [intros; ring|]. eapply dn_eq; [|apply dn_mult; exact H]. ring. Qed.
Lemma dn_total n (F : nat -> R -> R) F' x : (forall i, (i < n)%nat -> derivable_pt_lim (F i) x (F' i)) -> derivable_pt_lim (fun t => total n (fun i => F i t)) x (total n F').
Proof. induction n as [|n IH]; intros H; cbn [total]; [apply dn_const|]. apply dn_plus; [apply IH; intros; apply H; lia|apply H; lia]. Qed.
Lemma dn_well x : derivable_pt_lim double_well x (well_slope x).
Proof.
  unfold double_well. eapply dn_eq; [|apply dn_mult; [apply dn_square, dn_id|apply (dn_square (fun y => 1 - y)); apply dn_minus; [apply dn_const|apply dn_id]]]. unfold well_slope. ring.
Qed.

(* ---- entries ---- *)
Lemma map_seq_nth (g : nat -> R) n i : (i < n)%nat -> nth i (map g (seq 0 n)) 0 = g i.
Proof. intros H. rewrite (nth_indep _ 0 (g 0%nat)) by (rewrite map_length, seq_length; auto). rewrite map_nth, seq_nth by auto. reflexivity. Qed.
Lemma replace_length c l t : length (replace_entry c l t) = length c.
Proof. unfold replace_entry. now rewrite map_length, seq_length. Qed.
Lemma replace_nth c l t i : (i < length c)%nat -> entry (replace_entry c l t) i = if Nat.eq_dec i l then t else entry c i.
Proof. intros H. unfold entry, replace_entry. now rewrite map_seq_nth. Qed.
Lemma mixture_length n j k x : length (mixture n j k x) = n.
Proof. unfold mixture. now rewrite map_length, seq_length. Qed.
Lemma mixture_nth n j k x i : (i < n)%nat -> entry (mixture n j k x) i = if Nat.eq_dec i j then x else if Nat.eq_dec i k then 1 - x else 0.
Proof. intros H. unfold entry, mixture. now rewrite map_seq_nth. Qed.
(* entry i as function of the replaced value: derivative kronecker *)
Lemma dn_entry c l i : (i < length c)%nat -> derivable_pt_lim (fun t => entry (replace_entry c l t) i) (entry c l) (kronecker l i).
Proof.
  intros H. apply (dn_ext (fun t => if Nat.eq_dec i l then t else entry c i)); [intros; now rewrite replace_nth|]. unfold kronecker. destruct (Nat.eq_dec i l), (Nat.eq_dec l i); try congruence; [apply dn_id|apply dn_const].
Qed.
Lemma replace_same c l i : (l < length c)%nat -> (i < length c)%nat -> entry (replace_entry c l (entry c l)) i = entry c i.
Proof. intros Hl H. rewrite replace_nth by auto. destruct (Nat.eq_dec i l); congruence. Qed.

(* ---- gradient of F0 ---- *)
Lemma f0_gradient c sigma l : tensions (length c) sigma -> (l < length c)%nat ->
  partial_derivative (fun c => capital_f0 c sigma double_well) c l (/ 2 * total (length c) (fun m => sigma l m * (well_slope (entry c l) - well_slope (entry c l + entry c m)))).
Proof.
  intros Ht Hl. set (n := length c) in *. unfold partial_derivative. change (nth l c 0) with (entry c l).
  apply (dn_ext (fun t => total n (fun j => total n (fun i => sigma j i / 4 * (double_well (entry (replace_entry c l t) i) + double_well (entry (replace_entry c l t) j) - double_well (entry (replace_entry c l t) i + entry (replace_entry c l t) j)))))).
  { intros t. rewrite f0_half by (rewrite replace_length; exact Ht). rewrite replace_length. reflexivity. }
  eapply dn_eq; [|apply (dn_total n (fun j t => total n (fun i => sigma j i / 4 * (double_well (entry (replace_entry c l t) i) + double_well (entry (replace_entry c l t) j) - double_well (entry (replace_entry c l t) i + entry (replace_entry c l t) j))))
     (fun j => total n (fun i => sigma j i / 4 * (well_slope (entry c i) * kronecker l i + well_slope (entry c j) * kronecker l j - well_slope (entry c i + entry c j) * (kronecker l i + kronecker l j)))))].
  - destruct Ht as [T1 T2].
    rewrite (total_ext n _ (fun j => total n (fun i => kronecker l i * (sigma j i / 4 * (well_slope (entry c i) - well_slope (entry c i + entry c j)))) + kronecker l j * total n (fun i => sigma j i / 4 * (well_slope (entry c j) - well_slope (entry c i + entry c j))))).
    2:{ intros j Hj. rewrite <- total_scal, <- total_plus. apply total_ext. intros i Hi. ring. }
    rewrite total_plus, total_kronecker by auto. rewrite (total_ext n (fun j => total n _) (fun j => sigma j l / 4 * (well_slope (entry c l) - well_slope (entry c l + entry c j)))) by (intros; now rewrite total_kronecker).
    rewrite <- total_plus, <- total_scal. apply total_ext. intros m Hm. rewrite (T1 m l) by auto. rewrite (Rplus_comm (entry c m) (entry c l)). field.
  - intros j Hj. apply (dn_total n (fun i t => sigma j i / 4 * (double_well (entry (replace_entry c l t) i) + double_well (entry (replace_entry c l t) j) - double_well (entry (replace_entry c l t) i + entry (replace_entry c l t) j)))).
    intros i Hi. apply dn_scal. apply dn_minus; [apply dn_plus|].
    + apply (dn_comp (fun t => entry (replace_entry c l t) i)); [now apply dn_entry|]. rewrite replace_same by auto. apply dn_well.
    + apply (dn_comp (fun t => entry (replace_entry c l t) j)); [now apply dn_entry|]. rewrite replace_same by auto. apply dn_well.
    + apply (dn_comp (fun t => entry (replace_entry c l t) i + entry (replace_entry c l t) j)); [apply dn_plus; now apply dn_entry|]. rewrite !replace_same by auto. apply dn_well.
Qed.
Lemma f0_mixture_gradient n sigma j k x l : tensions n sigma -> (j < n)%nat -> (k < n)%nat -> j <> k -> (l < n)%nat ->
  partial_derivative (fun c => capital_f0 c sigma double_well) (mixture n j k x) l (- (/ 2 * well_slope x) * (sigma l j - sigma l k)).
Proof.
  intros Ht Hj Hk Hjk Hl. eapply dn_eq; [|apply f0_gradient; rewrite mixture_length; auto]. rewrite mixture_length. destruct Ht as [T1 T2].
  assert (W : well_slope (1 - x) = - well_slope x) by (unfold well_slope; ring). assert (W0 : well_slope 0 = 0) by (unfold well_slope; ring). assert (W1 : well_slope 1 = 0) by (unfold well_slope; ring).
  destruct (Nat.eq_dec l j) as [->|Nj]; [|destruct (Nat.eq_dec l k) as [->|Nk]].
  - rewrite (total_one n k) by first [assumption | intros i Hi Ni; rewrite !mixture_nth by auto; destruct (Nat.eq_dec j j); [|congruence]; destruct (Nat.eq_dec i j) as [->|]; [rewrite T2 by auto; ring|]; destruct (Nat.eq_dec i k); [congruence|]; rewrite Rplus_0_r; ring].
    rewrite !mixture_nth by auto. destruct (Nat.eq_dec j j); [|congruence]. destruct (Nat.eq_dec k j); [congruence|]. destruct (Nat.eq_dec k k); [|congruence]. rewrite (T2 j) by auto. replace (x + (1 - x)) with 1 by ring. rewrite W1. field.
  - rewrite (total_one n j) by first [assumption | intros i Hi Ni; rewrite !mixture_nth by auto; destruct (Nat.eq_dec k j); [congruence|]; destruct (Nat.eq_dec k k); [|congruence]; destruct (Nat.eq_dec i j); [congruence|]; destruct (Nat.eq_dec i k) as [->|]; [rewrite T2 by auto; ring|]; rewrite Rplus_0_r; ring].
    rewrite !mixture_nth by auto. destruct (Nat.eq_dec k j); [congruence|]. destruct (Nat.eq_dec k k); [|congruence]. destruct (Nat.eq_dec j j); [|congruence]. rewrite (T2 k) by auto. replace (1 - x + x) with 1 by ring. rewrite W1, W. field.
  - rewrite (total_two n j k) by first [assumption | intros i Hi N1 N2; rewrite !mixture_nth by auto; destruct (Nat.eq_dec l j); [congruence|]; destruct (Nat.eq_dec l k); [congruence|]; destruct (Nat.eq_dec i j); [congruence|]; destruct (Nat.eq_dec i k); [congruence|]; rewrite Rplus_0_r; ring].
    rewrite !mixture_nth by auto. destruct (Nat.eq_dec l j); [congruence|]. destruct (Nat.eq_dec l k); [congruence|]. destruct (Nat.eq_dec j j); [|congruence]. destruct (Nat.eq_dec k j); [congruence|]. destruct (Nat.eq_dec k k); [|congruence].
    rewrite !Rplus_0_l, W, W0. field.
Qed.
Lemma f0_mixture n sigma j k x : tensions n sigma -> (j < n)%nat -> (k < n)%nat -> j <> k -> capital_f0 (mixture n j k x) sigma double_well = sigma j k * double_well x.
Proof.
  intros Ht Hj Hk Hjk. rewrite f0_half by (rewrite mixture_length; exact Ht). rewrite mixture_length. destruct Ht as [T1 T2].
  set (e := entry (mixture n j k x)).
  assert (Ej : e j = x) by (unfold e; rewrite mixture_nth by auto; destruct (Nat.eq_dec j j); congruence).
  assert (Ek : e k = 1 - x) by (unfold e; rewrite mixture_nth by auto; destruct (Nat.eq_dec k j); [congruence|]; destruct (Nat.eq_dec k k); congruence).
  assert (Eo : forall i, (i < n)%nat -> i <> j -> i <> k -> e i = 0) by (intros i Hi N1 N2; unfold e; rewrite mixture_nth by auto; destruct (Nat.eq_dec i j); [congruence|]; destruct (Nat.eq_dec i k); congruence).
  assert (D0 : double_well 0 = 0) by (unfold double_well; ring). assert (D1 : double_well 1 = 0) by (unfold double_well; ring). assert (DS : double_well (1 - x) = double_well x) by (unfold double_well; ring).
  rewrite (total_two n j k).
  - rewrite (total_one n k), (total_one n j); auto.
    + rewrite Ej, Ek. replace (1 - x + x) with 1 by ring. replace (x + (1 - x)) with 1 by ring. rewrite (T1 k j), DS, D1 by auto. field.
    + intros i Hi N. destruct (Nat.eq_dec i k) as [->|N']; [rewrite T2 by auto; field|]. rewrite (Eo i), D0, !Rplus_0_l by auto. field.
    + intros i Hi N. destruct (Nat.eq_dec i j) as [->|N']; [rewrite T2 by auto; field|]. rewrite (Eo i), D0, !Rplus_0_l by auto. field.
  - auto.
  - auto.
  - auto.
  - intros i Hi N1 N2. apply total_zero. intros m Hm. rewrite (Eo i), D0, !Rplus_0_r by auto. field.
Qed.

(* ---- correction and stabilisation at mixtures ---- *)
Lemma combinations_incl {A} : forall (l : list A) k j, In j (combinations k l) -> forall a, In a j -> In a l.
Proof.
  induction l as [|x r IH]; intros [|k] j H a Ha; try (rewrite combinations_0 in H; destruct H as [<-|[]]; destruct Ha); [destruct H|]. cbn [combinations] in H. apply in_app_or in H. destruct H as [H|H]; [|right; now apply (IH (Datatypes.S k) j)].
  apply in_map_iff in H. destruct H as (j' & <- & H). destruct Ha as [->|Ha]; [now left|right; now apply (IH k j')].
Qed.
Lemma combinations_nodup {A} : forall (l : list A) k j, NoDup l -> In j (combinations k l) -> NoDup j.
Proof.
  induction l as [|x r IH]; intros [|k] j D H; try (rewrite combinations_0 in H; destruct H as [<-|[]]; constructor); [destruct H|]. inversion D; subst. cbn [combinations] in H. apply in_app_or in H. destruct H as [H|H]; [|now apply (IH (Datatypes.S k))].
  apply in_map_iff in H. destruct H as (j' & <- & H). constructor; [|now apply (IH k)]. intros Hx. apply H2. now apply (combinations_incl r k j').
Qed.
Lemma outside (i l : list nat) : NoDup i -> (length l < length i)%nat -> exists e, In e i /\ ~ In e l.
Proof.
  intros D L. destruct (existsb (fun e => negb (existsb (Nat.eqb e) l)) i) eqn:E.
  - apply existsb_exists in E. destruct E as (e & He & N). exists e. split; [auto|]. intros Hl. apply negb_true_iff in N. assert (X : existsb (Nat.eqb e) l = true) by (apply existsb_exists; exists e; split; [auto|apply Nat.eqb_refl]). congruence.
  - exfalso. assert (incl i l). { intros e He. destruct (existsb (Nat.eqb e) l) eqn:X; [apply existsb_exists in X; destruct X as (y & Hy & Ey); apply Nat.eqb_eq in Ey; now subst|]. assert (Y : existsb (fun e => negb (existsb (Nat.eqb e) l)) i = true) by (apply existsb_exists; exists e; split; [auto|now rewrite X]). congruence. }
    pose proof (NoDup_incl_length D H). lia.
Qed.
Lemma rprod_zero l : In 0 l -> rprod l = 0.
Proof. induction l as [|x r IH]; intros H; [destruct H|]. cbn. destruct H as [->|H]; [ring|]. fold (rprod r). rewrite IH by auto. ring. Qed.
Lemma capital_h_zero u : capital_h u 0 = 0.
Proof. unfold capital_h. destruct (Req_EM_T u 0), (Req_EM_T 0 0); try congruence; rewrite Rabs_R0; unfold Rdiv; ring. Qed.
Lemma correction_zero lambda c j k l : (forall i, (i < length c)%nat -> i <> j -> i <> k -> i <> l -> entry c i = 0) -> correction_g lambda c = 0.
Proof.
  intros H. unfold correction_g. rewrite (rsum_ext _ (fun _ => 0)); [apply rsum_zero|]. intros i Hi. rewrite (rsum_ext _ (fun _ => 0)); [apply rsum_zero|]. intros s Hs.
  assert (Z : rprod (map (entry c) i) = 0).
  { destruct (outside i [j; k; l]) as (e & He & Ne); [eapply combinations_nodup; [apply seq_NoDup|exact Hi]|rewrite (combinations_length _ _ _ Hi); cbn; lia|].
    pose proof (combinations_incl _ _ _ Hi e He) as Hn. apply in_seq in Hn. apply rprod_zero. apply in_map_iff. exists e. split; [|auto]. apply H; [lia| | |]; intros ->; apply Ne; cbn; auto. }
  rewrite Z, capital_h_zero. ring.
Qed.
Definition cubes (c : list R) : R := total (length c) (fun i => total i (fun j => total j (fun k => entry c i ^ 2 * entry c j ^ 2 * entry c k ^ 2))).
Lemma stabilization_cubes theta c j k l : (forall i, (i < length c)%nat -> i <> j -> i <> k -> i <> l -> entry c i = 0) -> stabilization_term theta c = cubes c.
Proof.
  intros H. unfold stabilization_term. set (n := length c) in *.
  assert (Z : rsum (map (fun j => rsum (map (fun i => entry c i ^ 2 * entry c j ^ 2 *
      rsum (map (fun l => if Nat.eqb l i || Nat.eqb l j then 0 else rsum (map (fun k => if Nat.eqb k i || Nat.eqb k j then 0 else
          theta i j k l * capital_h (entry c k) (entry c k * entry c l) + theta i j l k * capital_h (entry c l) (entry c k * entry c l)) (seq 0 l))) (seq 0 n))) (seq 0 j))) (seq 0 n)) = 0).
  { rewrite (rsum_ext _ (fun _ => 0)); [apply rsum_zero|]. intros j' Hj'. apply in_seq in Hj'. rewrite (rsum_ext _ (fun _ => 0)); [apply rsum_zero|]. intros i' Hi'. apply in_seq in Hi'.
    rewrite <- rsum_scal. rewrite (rsum_ext _ (fun _ => 0)); [apply rsum_zero|]. intros l' Hl'. apply in_seq in Hl'. destruct (Nat.eqb_spec l' i') as [->|N1]; [cbn; ring|]. destruct (Nat.eqb_spec l' j') as [->|N2]; [cbn; ring|]. cbn [orb].
    rewrite <- rsum_scal. rewrite (rsum_ext _ (fun _ => 0)); [apply rsum_zero|]. intros k' Hk'. apply in_seq in Hk'. destruct (Nat.eqb_spec k' i') as [->|N3]; [cbn; ring|]. destruct (Nat.eqb_spec k' j') as [->|N4]; [cbn; ring|]. cbn [orb].
    destruct (outside [i'; j'; k'; l'] [j; k; l]) as (e & He & Ne); [|cbn; lia|].
    { repeat (apply NoDup_cons; [intros Hin; cbn in Hin; lia|]). constructor. }
    assert (Z : entry c e = 0). { apply H; [cbn in He; lia| | |]; intros ->; apply Ne; cbn; auto. }
    cbn in He. destruct He as [<-|[<-|[<-|[<-|[]]]]]; rewrite Z; rewrite ?Rmult_0_l, ?Rmult_0_r, ?capital_h_zero; ring. }
  rewrite Z, Rminus_0_r. unfold cubes. fold n. rewrite total_rsum. apply total_ext. intros i Hi. rewrite total_rsum. apply total_ext. intros j' Hj'. now rewrite total_rsum.
Qed.
Lemma cubes_gradient n j k x l : (j < n)%nat -> (k < n)%nat -> (l < n)%nat -> partial_derivative cubes (mixture n j k x) l 0.
Proof.
  intros Hj Hk Hl. unfold partial_derivative. change (nth l (mixture n j k x) 0) with (entry (mixture n j k x) l). set (c := mixture n j k x).
  assert (Lc : length c = n) by apply mixture_length.
  apply (dn_ext (fun t => total n (fun i => total i (fun j => total j (fun k => entry (replace_entry c l t) i ^ 2 * entry (replace_entry c l t) j ^ 2 * entry (replace_entry c l t) k ^ 2))))).
  { intros t. unfold cubes. rewrite replace_length, Lc. reflexivity. }
  eapply dn_eq; [|apply (dn_total n (fun i t => total i (fun j => total j (fun k => entry (replace_entry c l t) i ^ 2 * entry (replace_entry c l t) j ^ 2 * entry (replace_entry c l t) k ^ 2))) (fun _ => 0)); intros i Hi].
  { now apply total_zero. }
  eapply dn_eq; [|apply (dn_total i (fun j t => total j (fun k => entry (replace_entry c l t) i ^ 2 * entry (replace_entry c l t) j ^ 2 * entry (replace_entry c l t) k ^ 2)) (fun _ => 0)); intros p Hp].
  { now apply total_zero. }
  eapply dn_eq; [|apply (dn_total p (fun k t => entry (replace_entry c l t) i ^ 2 * entry (replace_entry c l t) p ^ 2 * entry (replace_entry c l t) k ^ 2) (fun _ => 0)); intros q Hq].
  { now apply total_zero. }
  assert (Z : entry c i = 0 \/ entry c p = 0 \/ entry c q = 0).
  { destruct (outside [i; p; q] [j; k]) as (e & He & Ne); [repeat (apply NoDup_cons; [intros Hin; cbn in Hin; lia|]); constructor|cbn; lia|].
    assert (E : entry c e = 0). { unfold c. rewrite mixture_nth by (cbn in He; lia). cbn in Ne. destruct (Nat.eq_dec e j) as [->|]; [tauto|]. destruct (Nat.eq_dec e k) as [->|]; [tauto|reflexivity]. }
    cbn in He. destruct He as [<-|[<-|[<-|[]]]]; auto. }
  eapply dn_eq; [|apply dn_mult; [apply dn_mult|]; apply dn_square, dn_entry; lia]. cbv beta. rewrite !replace_same by lia.
  destruct Z as [Z|[Z|Z]]; rewrite Z; ring.
Qed.

(* ---- the whole bulk energy at mixtures ---- *)
Lemma replace_outside n j k x l t i : (i < n)%nat -> i <> j -> i <> k -> i <> l -> entry (replace_entry (mixture n j k x) l t) i = 0.
Proof. intros Hi N1 N2 N3. rewrite replace_nth by (rewrite mixture_length; auto). destruct (Nat.eq_dec i l); [congruence|]. rewrite mixture_nth by auto. destruct (Nat.eq_dec i j); [congruence|]. destruct (Nat.eq_dec i k); congruence. Qed.
Lemma bulk_gradient n sigma lambda theta factor b eps j k x l : tensions n sigma -> (j < n)%nat -> (k < n)%nat -> j <> k -> (l < n)%nat ->
  partial_derivative (bulk_free_energy sigma lambda theta factor b eps) (mixture n j k x) l (b / eps * (- (/ 2 * well_slope x) * (sigma l j - sigma l k))).
Proof.
  intros Ht Hj Hk Hjk Hl. unfold partial_derivative.
  apply (dn_ext (fun t => b / eps * (capital_f0 (replace_entry (mixture n j k x) l t) sigma double_well + factor * cubes (replace_entry (mixture n j k x) l t)))).
  { intros t. unfold bulk_free_energy, free_energy_bulk. assert (O : forall i, (i < length (replace_entry (mixture n j k x) l t))%nat -> i <> j -> i <> k -> i <> l -> entry (replace_entry (mixture n j k x) l t) i = 0) by (intros i Hi; rewrite replace_length, mixture_length in Hi; now apply replace_outside).
    rewrite (correction_zero lambda _ j k l O), (stabilization_cubes theta _ j k l O). ring. }
  apply dn_scal. eapply dn_eq; [|apply dn_plus; [exact (f0_mixture_gradient n sigma j k x l Ht Hj Hk Hjk Hl)|apply dn_scal; exact (cubes_gradient n j k x l Hj Hk Hl)]]. ring.
Qed.
Lemma mixture_cubes n j k x : cubes (mixture n j k x) = 0.
Proof.
  unfold cubes. rewrite mixture_length. apply total_zero. intros i Hi. apply total_zero. intros p Hp. apply total_zero. intros q Hq.
  destruct (outside [i; p; q] [j; k]) as (e & He & Ne); [repeat (apply NoDup_cons; [intros Hin; cbn in Hin; lia|]); constructor|cbn; lia|].
  assert (E : entry (mixture n j k x) e = 0). { rewrite mixture_nth by (cbn in He; lia). cbn in Ne. destruct (Nat.eq_dec e j) as [->|]; [tauto|]. destruct (Nat.eq_dec e k) as [->|]; [tauto|reflexivity]. }
  cbn in He. destruct He as [<-|[<-|[<-|[]]]]; rewrite E; ring.
Qed.
Lemma bulk_mixture n sigma lambda theta factor b eps j k x : tensions n sigma -> (j < n)%nat -> (k < n)%nat -> j <> k ->
  bulk_free_energy sigma lambda theta factor b eps (mixture n j k x) = b / eps * (sigma j k * double_well x).
Proof.
  intros Ht Hj Hk Hjk. unfold bulk_free_energy, free_energy_bulk.
  assert (O : forall i, (i < length (mixture n j k x))%nat -> i <> j -> i <> k -> i <> j -> entry (mixture n j k x) i = 0).
  { intros i Hi N1 N2 _. rewrite mixture_length in Hi. rewrite mixture_nth by auto. destruct (Nat.eq_dec i j); [congruence|]. destruct (Nat.eq_dec i k); congruence. }
  rewrite (correction_zero lambda _ j k j O), (stabilization_cubes theta _ j k j O), mixture_cubes, f0_mixture by auto. ring.
Qed.
Lemma mixture_dynamics n sigma alpha gamma s j k : diffusion_system n sigma alpha gamma -> (j < n)%nat -> (k < n)%nat ->
  forall i, (i < n)%nat -> times n alpha (fun l => s * (sigma l j - sigma l k)) i = s * (kronecker i j - kronecker i k).
Proof.
  intros (S1 & S2 & S3) Hj Hk i Hi. unfold times. rewrite (total_ext n _ (fun m => s * (alpha i m * sigma m j) - s * (alpha i m * sigma m k))) by (intros; ring).
  rewrite total_minus, !total_scal, !S3 by auto. ring.
Qed.

(* ---- interface ---- *)
Lemma interfacial_gradient d sigma a eps l : tensions (length d) sigma -> (l < length d)%nat ->
  partial_derivative (fun d => free_energy_interfacial d sigma a eps) d l (- eps * a / 2 * times (length d) sigma (entry d) l).
Proof.
  intros Ht Hl. set (n := length d) in *. unfold partial_derivative. change (nth l d 0) with (entry d l).
  apply (dn_ext (fun t => - eps * a / 4 * total n (fun i => total n (fun m => sigma i m * (entry (replace_entry d l t) i * entry (replace_entry d l t) m))))).
  { intros t. rewrite interfacial_half by (rewrite replace_length; exact Ht). rewrite replace_length. f_equal. apply total_ext. intros i Hi. unfold times. rewrite <- total_scal. apply total_ext. intros. ring. }
  eapply dn_eq; [|apply dn_scal, (dn_total n (fun i t => total n (fun m => sigma i m * (entry (replace_entry d l t) i * entry (replace_entry d l t) m))) (fun i => total n (fun m => sigma i m * (kronecker l i * entry d m + entry d i * kronecker l m))))].
  - destruct Ht as [T1 T2]. rewrite (total_ext n _ (fun i => kronecker l i * total n (fun m => sigma i m * entry d m) + total n (fun m => kronecker l m * (sigma i m * entry d i)))).
    2:{ intros i Hi. rewrite <- total_scal, <- total_plus. apply total_ext. intros. ring. }
    rewrite total_plus, total_kronecker by auto. rewrite (total_ext n (fun i => total n (fun m => kronecker l m * _)) (fun i => sigma l i * entry d i)) by (intros i Hi; rewrite total_kronecker by auto; rewrite (T1 i l) by auto; reflexivity).
    unfold times. field.
  - intros i Hi. apply (dn_total n (fun m t => sigma i m * (entry (replace_entry d l t) i * entry (replace_entry d l t) m))). intros m Hm. apply dn_scal. eapply dn_eq; [|apply dn_mult; apply dn_entry; auto]. cbv beta. rewrite !replace_same by auto. reflexivity.
Qed.
Lemma slope_nth n j k g i : (i < n)%nat -> entry (mixture_slope n j k g) i = if Nat.eq_dec i j then g else if Nat.eq_dec i k then - g else 0.
Proof. intros H. unfold entry, mixture_slope. now rewrite map_seq_nth. Qed.
Lemma slope_length n j k g : length (mixture_slope n j k g) = n.
Proof. unfold mixture_slope. now rewrite map_length, seq_length. Qed.
Lemma interfacial_mixture n sigma a eps j k g : tensions n sigma -> (j < n)%nat -> (k < n)%nat -> j <> k -> free_energy_interfacial (mixture_slope n j k g) sigma a eps = eps * a / 2 * sigma j k * g ^ 2.
Proof.
  intros Ht Hj Hk Hjk. rewrite interfacial_half by (rewrite slope_length; exact Ht). rewrite slope_length. destruct Ht as [T1 T2]. set (e := entry (mixture_slope n j k g)).
  assert (Ej : e j = g) by (unfold e; rewrite slope_nth by auto; destruct (Nat.eq_dec j j); congruence).
  assert (Ek : e k = - g) by (unfold e; rewrite slope_nth by auto; destruct (Nat.eq_dec k j); [congruence|]; destruct (Nat.eq_dec k k); congruence).
  assert (Eo : forall i, (i < n)%nat -> i <> j -> i <> k -> e i = 0) by (intros i Hi N1 N2; unfold e; rewrite slope_nth by auto; destruct (Nat.eq_dec i j); [congruence|]; destruct (Nat.eq_dec i k); congruence).
  assert (T : forall i, times n sigma e i = sigma i j * g - sigma i k * g) by (intros i; unfold times; rewrite (total_two n j k) by (auto; intros m Hm N1 N2; rewrite (Eo m) by auto; ring); rewrite Ej, Ek; ring).
  rewrite (total_two n j k) by (auto; intros m Hm N1 N2; rewrite (Eo m) by auto; ring). rewrite !T, Ej, Ek, !T2, (T1 k j) by auto. field.
Qed.
