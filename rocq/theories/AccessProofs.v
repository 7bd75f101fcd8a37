(* The address identities of all streaming patterns. *)
From Coq Require Import String List ZArith Bool Arith Lia.
From Verif Require Import StencilModel StencilProofs AccessModel StreamModel StreamSpec.
Import ListNotations.
Local Open Scope Z_scope.

Section SymStencil.
  Context (D : nat) (S : stencil) (HS : symmetric_stencil D S).

  Local Notation Q := (length S).
  Local Notation dir := (dir S).
  Local Notation opp := (opp S).

  Lemma dir_nth_error i : (i < Q)%nat -> nth_error S i = Some (dir i).
  Proof. intros H. unfold StreamSpec.dir. apply nth_error_nth'. exact H. Qed.

  Lemma dir_In i : (i < Q)%nat -> In (dir i) S.
  Proof. intros H. eapply nth_error_In. apply dir_nth_error; exact H. Qed.

  Lemma dir_length i : (i < Q)%nat -> length (dir i) = D.
  Proof. intros H. apply HS. apply dir_In; exact H. Qed.

  Lemma dimD_D : dimD S = D.
  Proof.
    unfold dimD. destruct HS as (Hne & _ & Hl & _). destruct S as [|d S']; [congruence|].
    apply Hl. left; reflexivity.
  Qed.

  Lemma opp_spec i : (i < Q)%nat ->
    index_of (vneg (dir i)) S = Some (opp i) /\ (opp i < Q)%nat /\ dir (opp i) = vneg (dir i).
  Proof.
    intros H. unfold StreamSpec.opp.
    destruct (index_of_In (vneg (dir i)) S) as [k Hk].
    { apply HS. apply dir_In; exact H. }
    rewrite Hk. split; [reflexivity|]. split; [eapply index_of_lt; eauto|].
    unfold StreamSpec.dir at 1. apply nth_error_nth. now apply index_of_Some.
  Qed.

  Lemma opp_lt i : (i < Q)%nat -> (opp i < Q)%nat.
  Proof. intros H; apply opp_spec; exact H. Qed.

  Lemma dir_opp i : (i < Q)%nat -> dir (opp i) = vneg (dir i).
  Proof. intros H; apply opp_spec; exact H. Qed.

  Lemma dir_inj i j : (i < Q)%nat -> (j < Q)%nat -> dir i = dir j -> i = j.
  Proof.
    intros Hi Hj E. destruct HS as (_ & Hnd & _).
    eapply NoDup_nth_error_inj; [exact Hnd|apply dir_nth_error; exact Hi|].
    rewrite E. apply dir_nth_error; exact Hj.
  Qed.

  Lemma opp_opp i : (i < Q)%nat -> opp (opp i) = i.
  Proof.
    intros H. apply dir_inj; [apply opp_lt, opp_lt; exact H|exact H|].
    rewrite dir_opp, dir_opp by (try apply opp_lt; exact H). apply vneg_involutive.
  Qed.

  Lemma opp_inj i j : (i < Q)%nat -> (j < Q)%nat -> opp i = opp j -> i = j.
  Proof. intros Hi Hj E. rewrite <- (opp_opp i), <- (opp_opp j), E by assumption. reflexivity. Qed.

  Lemma st_inverse_index_dir i : (i < Q)%nat -> st_inverse_index S (dir i) = Ok (opp i).
  Proof.
    intros H. unfold st_inverse_index.
    rewrite dir_length, dimD_D, Nat.eqb_refl by exact H.
    destruct (opp_spec i H) as [-> _]. reflexivity.
  Qed.

  (* list comprehension over the stencil = map over positions *)
  Lemma seq_dir : S = map dir (seq 0 Q).
  Proof.
    apply nth_ext with (d := []) (d' := []).
    - rewrite map_length, seq_length. reflexivity.
    - intros n Hn. rewrite (nth_indep (map dir (seq 0 Q)) [] (dir 0%nat))
        by (rewrite map_length, seq_length; exact Hn).
      rewrite map_nth, seq_nth by exact Hn. reflexivity.
  Qed.

  Lemma enum_seq : enum S = map (fun i => (i, dir i)) (seq 0 Q).
  Proof.
    unfold enum. rewrite seq_dir at 2. set (l := seq 0 Q). clearbody l.
    induction l as [|x l IH]; simpl; [reflexivity|]. now rewrite IH.
  Qed.

  Lemma mapM_stencil {B} (f : vec -> res B) (g : nat -> B) :
    (forall i, (i < Q)%nat -> f (dir i) = Ok (g i)) -> mapM f S = Ok (map g (seq 0 Q)).
  Proof.
    intros H.
    assert (forall l, (forall i, In i l -> (i < Q)%nat) -> mapM f (map dir l) = Ok (map g l)) as A.
    { induction l as [|i l IH]; simpl; intros Hl; [reflexivity|].
      rewrite H by (apply Hl; auto). simpl. rewrite IH by (intros; apply Hl; auto). reflexivity. }
    rewrite seq_dir at 1. apply A. intros i Hi. apply in_seq in Hi. lia.
  Qed.

  Lemma map_enum {B} (f : nat * vec -> B) : map f (enum S) = map (fun i => f (i, dir i)) (seq 0 Q).
  Proof. rewrite enum_seq, map_map. reflexivity. Qed.

  (* position parity in the Lehmann ordering *)
  Definition par (i : nat) : bool :=
    match lehmann_even S (dir i) with Ok b => b | Err _ => false end.

  (* explicit addresses *)
  Definition raddr (p : pattern) (t : timestep) (i : nat) : access :=
    let z := vzero D in
    match p, t with
    | PULL, _ => mkacc (vneg (dir i)) i
    | PUSH, _ => mkacc z i
    | AA, EVEN => mkacc z i
    | AA, _ => mkacc (vneg (dir i)) (opp i)
    | ESOTWIST, EVEN => mkacc (vneg_pos (dir i)) i
    | ESOTWIST, _ => mkacc (vpos (vneg (dir i))) (opp i)
    | ESOPULL, EVEN => mkacc (if par i then vneg (dir i) else z) i
    | ESOPULL, _ => mkacc (if par i then vneg (dir i) else z) (opp i)
    | ESOPUSH, EVEN => mkacc (if par i then z else vneg (dir i)) (opp i)
    | ESOPUSH, _ => mkacc (if par i then z else vneg (dir i)) i
    end.

  Definition waddr (p : pattern) (t : timestep) (i : nat) : access :=
    let z := vzero D in
    match p, t with
    | PULL, _ => mkacc z i
    | PUSH, _ => mkacc (dir i) i
    | AA, EVEN => mkacc z (opp i)
    | AA, _ => mkacc (dir i) i
    | ESOTWIST, EVEN => mkacc (vpos (dir i)) (opp i)
    | ESOTWIST, _ => mkacc (vpos (dir i)) i
    | ESOPULL, EVEN => mkacc (if par i then z else dir i) (opp i)
    | ESOPULL, _ => mkacc (if par i then z else dir i) i
    | ESOPUSH, EVEN => mkacc (if par i then dir i else z) i
    | ESOPUSH, _ => mkacc (if par i then dir i else z) (opp i)
    end.
End SymStencil.

(* ---------- the Lehmann pairing ---------- *)

Definition lehmann_good (T : stencil) : bool :=
  forallb (fun d =>
    match lehmann_even T d, lehmann_even T (vneg d) with
    | Ok b, Ok b' => vec_eqb d (vneg d) || Bool.eqb b' (negb b)
    | _, _ => false
    end) T && vec_eqb (nth 0 T []) (vzero (dimD T)) && forallb (fun d => implb (vec_eqb d (vneg d)) (vec_eqb d (vzero (dimD T)))) T.

Lemma lehmann_good_tables :
  forallb lehmann_good [D2Q9_walberla; D3Q15_walberla; D3Q19_walberla; D3Q27_walberla] = true.
Proof. vm_compute. reflexivity. Qed.

Lemma lehmann_even_Q S T d : length S = length T -> lehmann_even S d = lehmann_even T d.
Proof. intros H. unfold lehmann_even, get_lehmann_stencil, sizeQ. rewrite H. reflexivity. Qed.

Section Eso.
  Context (D : nat) (S : stencil) (HS : symmetric_stencil D S) (HE : eso_pairs_stencil S).

  Local Notation Q := (length S).
  Local Notation dir := (dir S).
  Local Notation opp := (opp S).

  Lemma eso_facts :
    dir 0%nat = vzero D /\ (0 < Q)%nat /\ opp 0%nat = 0%nat /\
    (forall i, (i < Q)%nat -> lehmann_even S (dir i) = Ok (par S i)) /\
    (forall i, (i < Q)%nat -> i <> 0%nat -> par S (opp i) = negb (par S i)).
  Proof.
    destruct HE as (T & HT & Hlen & Hincl & H0).
    pose proof (proj1 (forallb_forall _ _) lehmann_good_tables T HT) as HG.
    unfold lehmann_good in HG. apply andb_prop in HG as [HG HG3]. apply andb_prop in HG as [HG1 HG2].
    rewrite forallb_forall in HG1, HG3. apply vec_eqb_eq in HG2.
    assert (HQ : (0 < Q)%nat).
    { destruct HS as (Hne & _). destruct S; [congruence|simpl; lia]. }
    assert (HTne : T <> []) by (intros ->; simpl in Hlen; lia).
    assert (HdT : dir 0%nat = nth 0 T []).
    { unfold StreamSpec.dir. rewrite (dir_nth_error S 0 HQ) in H0.
      destruct T as [|t T']; [congruence|]. simpl in *. now injection H0. }
    assert (HD : dimD T = D).
    { unfold dimD. rewrite <- HdT. eapply dir_length; eauto. }
    assert (Hz : dir 0%nat = vzero D) by (rewrite HdT, HG2, HD; reflexivity).
    assert (Ho : opp 0%nat = 0%nat).
    { eapply dir_inj; [exact HS| eapply opp_lt; eauto | exact HQ|].
      erewrite dir_opp by eauto. rewrite Hz. apply vneg_vzero. }
    assert (Hpar : forall i, (i < Q)%nat -> lehmann_even S (dir i) = Ok (par S i)).
    { intros i Hi. unfold par.
      assert (In (dir i) T) as HiT by (apply Hincl, dir_In; exact Hi).
      specialize (HG1 _ HiT). rewrite (lehmann_even_Q S T) by exact Hlen.
      destruct (lehmann_even T (dir i)) as [b|e]; [reflexivity|discriminate]. }
    split; [exact Hz|]. split; [exact HQ|]. split; [exact Ho|]. split; [exact Hpar|].
    intros i Hi Hi0.
    assert (In (dir i) T) as HiT by (apply Hincl, dir_In; exact Hi).
    pose proof (HG1 _ HiT) as G. pose proof (Hpar i Hi) as P1.
    pose proof (Hpar (opp i) (opp_lt D S HS i Hi)) as P2.
    rewrite (dir_opp D S HS i Hi) in P2.
    rewrite (lehmann_even_Q S T) in P1, P2 by exact Hlen.
    rewrite P1, P2 in G. apply orb_prop in G as [G|G].
    - specialize (HG3 _ HiT). rewrite G in HG3. simpl in HG3. apply vec_eqb_eq in HG3.
      rewrite HD in HG3. exfalso. apply Hi0. eapply dir_inj; eauto. congruence.
    - now apply eqb_prop in G.
  Qed.

  Lemma eso_accesses_seq f (g : nat -> access) :
    (forall i, (i < Q)%nat -> f (par S i) i (dir i) = Ok (g i)) ->
    g 0%nat = mkacc (vzero D) 0 ->
    eso_accesses S f = Ok (map g (seq 0 Q)).
  Proof.
    intros Hf Hg. destruct eso_facts as (Hz & HQ & Ho & Hp & _).
    unfold eso_accesses. rewrite enum_seq.
    assert (HQ' : Q = Datatypes.S (Q - 1)) by lia.
    rewrite HQ'. cbn [seq map tl].
    assert (A : forall l, (forall i, In i l -> (i < Q)%nat) ->
      mapM (fun q => rbind (lehmann_even S (snd q)) (fun b => f b (fst q) (snd q)))
           (map (fun i => (i, dir i)) l) = Ok (map g l)).
    { induction l as [|i l IH]; simpl; intros Hl; [reflexivity|].
      rewrite Hp by (apply Hl; auto). simpl. rewrite Hf by (apply Hl; auto). simpl.
      rewrite IH by (intros; apply Hl; auto). reflexivity. }
    rewrite A.
    - simpl. rewrite Hg. erewrite dimD_D by eauto. reflexivity.
    - intros i Hi. apply in_seq in Hi. lia.
  Qed.
End Eso.

Lemma center_seq D S : symmetric_stencil D S ->
  center_accesses S = Ok (map (fun i => mkacc (vzero D) i) (seq 0 (length S))).
Proof. intros HS. unfold center_accesses, sizeQ. erewrite dimD_D by eauto. reflexivity. Qed.

Ltac inv_idx HS := intros i Hi; unfold with_inv; erewrite st_inverse_index_dir by eassumption; simpl.

Lemma reads_of_seq p D S t :
  supported p D S t ->
  reads_of p t S = Ok (map (raddr D S p t) (seq 0 (length S))).
Proof.
  intros [HS Hp]. unfold reads_of.
  destruct p.
  - destruct t; simpl; apply center_seq; exact HS.
  - destruct t; simpl; f_equal; rewrite map_enum; reflexivity.
  - destruct t; simpl; [apply center_seq; exact HS| |congruence].
    apply mapM_stencil. intros i Hi. erewrite st_inverse_index_dir by eassumption. reflexivity.
  - destruct t; simpl; [| |congruence].
    + f_equal. rewrite map_enum. reflexivity.
    + apply mapM_stencil. intros i Hi. erewrite st_inverse_index_dir by eassumption. reflexivity.
  - destruct Hp as [Ht HE]. destruct (eso_facts D S HS HE) as (Hz & HQ & Ho & _).
    destruct t; simpl; [| |congruence]; apply (eso_accesses_seq D S HS HE).
    + intros i Hi. erewrite dimD_D by eauto. simpl. destruct (par S i); reflexivity.
    + simpl. rewrite Hz, vneg_vzero. destruct (par S 0); reflexivity.
    + inv_idx HS. erewrite dimD_D by eauto. destruct (par S i); reflexivity.
    + simpl. rewrite Ho, Hz, vneg_vzero. destruct (par S 0); reflexivity.
  - destruct Hp as [Ht HE]. destruct (eso_facts D S HS HE) as (Hz & HQ & Ho & _).
    destruct t; simpl; [| |congruence]; apply (eso_accesses_seq D S HS HE).
    + inv_idx HS. erewrite dimD_D by eauto. destruct (par S i); reflexivity.
    + simpl. rewrite Ho, Hz, vneg_vzero. destruct (par S 0); reflexivity.
    + intros i Hi. erewrite dimD_D by eauto. simpl. destruct (par S i); reflexivity.
    + simpl. rewrite Hz, vneg_vzero. destruct (par S 0); reflexivity.
Qed.

Lemma writes_of_seq p D S t :
  supported p D S t ->
  writes_of p t S = Ok (map (waddr D S p t) (seq 0 (length S))).
Proof.
  intros [HS Hp]. unfold writes_of.
  destruct p.
  - destruct t; simpl; f_equal; rewrite map_enum; reflexivity.
  - destruct t; simpl; apply center_seq; exact HS.
  - destruct t; simpl; [| |congruence].
    + apply mapM_stencil. intros i Hi. erewrite st_inverse_index_dir, dimD_D by eassumption. reflexivity.
    + f_equal; rewrite map_enum; reflexivity.
  - destruct t; simpl; [| |congruence].
    + apply mapM_stencil. intros i Hi. erewrite st_inverse_index_dir by eassumption. reflexivity.
    + f_equal. rewrite map_enum. reflexivity.
  - destruct Hp as [Ht HE]. destruct (eso_facts D S HS HE) as (Hz & HQ & Ho & _).
    destruct t; simpl; [| |congruence]; apply (eso_accesses_seq D S HS HE).
    + inv_idx HS. erewrite dimD_D by eauto. destruct (par S i); reflexivity.
    + simpl. rewrite Ho, Hz. destruct (par S 0); reflexivity.
    + intros i Hi. erewrite dimD_D by eauto. simpl. destruct (par S i); reflexivity.
    + simpl. rewrite Hz. destruct (par S 0); reflexivity.
  - destruct Hp as [Ht HE]. destruct (eso_facts D S HS HE) as (Hz & HQ & Ho & _).
    destruct t; simpl; [| |congruence]; apply (eso_accesses_seq D S HS HE).
    + intros i Hi. erewrite dimD_D by eauto. simpl. destruct (par S i); reflexivity.
    + simpl. rewrite Hz. destruct (par S 0); reflexivity.
    + inv_idx HS. erewrite dimD_D by eauto. destruct (par S i); reflexivity.
    + simpl. rewrite Ho, Hz. destruct (par S 0); reflexivity.
Qed.

(* ---------- vpos identities ---------- *)

Lemma vpos_length d : length (vpos d) = length d.
Proof. apply map_length. Qed.
Lemma vneg_pos_length d : length (vneg_pos d) = length d.
Proof. apply map_length. Qed.

Lemma vneg_pos_vneg d : vpos (vneg d) = vneg_pos d.
Proof. unfold vpos, vneg_pos, vneg. rewrite map_map. reflexivity. Qed.

Lemma vpos_split d : vpos d = vadd d (vneg_pos d).
Proof.
  induction d as [|x d IH]; [reflexivity|].
  cbn [vpos vneg_pos map]. fold (vpos d) (vneg_pos d). rewrite vadd_cons, <- IH. f_equal. lia.
Qed.

Lemma vpos_eq_neg d : vneg_pos (vneg d) = vpos d.
Proof.
  unfold vpos, vneg_pos, vneg. rewrite map_map. apply map_ext. intros; f_equal; lia.
Qed.

(* ---------- address identities ---------- *)

Section Facts.
  Context (p : pattern) (D : nat) (S : stencil) (t : timestep) (H : supported p D S t).
  Local Notation Q := (length S).
  Local Notation dir := (dir S).
  Local Notation opp := (opp S).

  Let HS : symmetric_stencil D S.
  Proof. exact (proj1 H). Qed.

  Lemma supported_next : supported p D S (ts_next t).
  Proof.
    destruct H as [H1 H2]. split; [exact H1|].
    destruct p; try exact I;
      try (destruct H2 as [H2 HE]; split; [|exact HE]); destruct t; simpl in *; congruence.
  Qed.

  Lemma raddr_length i : (i < Q)%nat -> length (off (raddr D S p t i)) = D.
  Proof.
    intros Hi. pose proof (dir_length D S HS i Hi) as HL.
    destruct p, t; simpl; try destruct (par S i);
      rewrite ?vneg_length, ?vneg_pos_length, ?vpos_length, ?vneg_length, ?vzero_length; auto.
  Qed.

  Lemma waddr_length i : (i < Q)%nat -> length (off (waddr D S p t i)) = D.
  Proof.
    intros Hi. pose proof (dir_length D S HS i Hi) as HL.
    destruct p, t; simpl; try destruct (par S i);
      rewrite ?vneg_length, ?vneg_pos_length, ?vpos_length, ?vneg_length, ?vzero_length; auto.
  Qed.

  (* (A) what cell x writes for direction i at time step t is what its
     downstream neighbour reads for direction i at the next time step *)
  Lemma write_is_next_read i : (i < Q)%nat ->
    idx (waddr D S p t i) = idx (raddr D S p (ts_next t) i) /\
    off (waddr D S p t i) = vadd (dir i) (off (raddr D S p (ts_next t) i)).
  Proof.
    intros Hi. pose proof (dir_length D S HS i Hi) as HL.
    assert (Z1 : vadd (dir i) (vneg (dir i)) = vzero D) by (rewrite vadd_neg_r, HL; reflexivity).
    assert (Z2 : vadd (dir i) (vzero D) = dir i) by (rewrite <- HL; apply vadd_zero_r).
    pose proof (proj2 H) as Hp. clear H.
    destruct p, t; simpl in *; try (exfalso; (congruence || (destruct Hp; congruence)));
      try destruct (par S i); rewrite ?Z1, ?Z2; auto;
      rewrite ?vneg_pos_vneg, <- ?vpos_split; auto.
  Qed.

  (* (B) for in-place patterns a cell writes exactly the slots it reads *)
  Lemma inplace_write_is_read i : is_inplace p = true -> (i < Q)%nat ->
    waddr D S p t i = raddr D S p t (opp i).
  Proof.
    intros Hip Hi. pose proof (dir_length D S HS i Hi) as HL.
    pose proof (opp_opp D S HS i Hi) as OO. pose proof (dir_opp D S HS i Hi) as DO.
    pose proof (proj2 H) as Hp. clear H.
    destruct p; try discriminate.
    - destruct t; simpl in *; [reflexivity| |congruence].
      rewrite OO, DO, vneg_involutive. reflexivity.
    - destruct t; simpl in *; [| |congruence].
      + rewrite DO, vpos_eq_neg. reflexivity.
      + rewrite OO, DO, vneg_involutive. reflexivity.
    - destruct Hp as [Ht HE]. destruct (eso_facts D S HS HE) as (Hz & HQ & Ho & _ & Hneg).
      destruct (Nat.eq_dec i 0) as [->|Hi0].
      + destruct t; simpl; rewrite ?Ho, ?Ho, Hz, ?vneg_vzero; destruct (par S 0); congruence.
      + pose proof (Hneg i Hi Hi0) as HN.
        destruct t; simpl in *; [| |congruence]; rewrite HN, ?OO, DO, vneg_involutive;
          destruct (par S i); reflexivity.
    - destruct Hp as [Ht HE]. destruct (eso_facts D S HS HE) as (Hz & HQ & Ho & _ & Hneg).
      destruct (Nat.eq_dec i 0) as [->|Hi0].
      + destruct t; simpl; rewrite ?Ho, ?Ho, Hz, ?vneg_vzero; destruct (par S 0); congruence.
      + pose proof (Hneg i Hi Hi0) as HN.
        destruct t; simpl in *; [| |congruence]; rewrite HN, ?OO, DO, vneg_involutive;
          destruct (par S i); reflexivity.
  Qed.

  Lemma waddr_idx_inj i j : (i < Q)%nat -> (j < Q)%nat ->
    idx (waddr D S p t i) = idx (waddr D S p t j) -> i = j.
  Proof.
    intros Hi Hj.
    destruct p, t; simpl; auto; apply (opp_inj D S HS); assumption.
  Qed.

  Lemma raddr_idx_inj i j : (i < Q)%nat -> (j < Q)%nat ->
    idx (raddr D S p t i) = idx (raddr D S p t j) -> i = j.
  Proof.
    intros Hi Hj.
    destruct p, t; simpl; auto; apply (opp_inj D S HS); assumption.
  Qed.

  Lemma waddr_idx_lt i : (i < Q)%nat -> (idx (waddr D S p t i) < Q)%nat.
  Proof. intros Hi. destruct p, t; simpl; auto; apply (opp_lt D S HS); exact Hi. Qed.
  Lemma raddr_idx_lt i : (i < Q)%nat -> (idx (raddr D S p t i) < Q)%nat.
  Proof. intros Hi. destruct p, t; simpl; auto; apply (opp_lt D S HS); exact Hi. Qed.
End Facts.
