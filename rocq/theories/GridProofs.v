From Coq Require Import String List ZArith Bool Arith Lia FinFun.
From Verif Require Import StencilModel StencilProofs StreamModel GridModel.
Import ListNotations.
Local Open Scope Z_scope.

Lemma attach_In s l (x : gcell s) : In x (attach s l) <-> In (proj1_sig x) l.
Proof.
  unfold attach. rewrite in_flat_map. split.
  - intros (y & Hy & Hx). destruct (bool_dec (in_grid s y) true) as [H|H]; [|destruct Hx].
    destruct Hx as [<-|[]]. exact Hy.
  - intros H. exists (proj1_sig x). split; [exact H|].
    destruct x as [x Hx]; simpl in *. destruct (bool_dec (in_grid s x) true) as [H'|H']; [|contradiction].
    left. apply gcell_eq. reflexivity.
Qed.

Lemma attach_NoDup s l : NoDup l -> NoDup (attach s l).
Proof.
  induction 1 as [|x l Hx Hnd IH]; simpl; [constructor|].
  destruct (bool_dec (in_grid s x) true) as [H|H]; simpl; [|exact IH].
  constructor; [|exact IH]. intros Hin. apply (attach_In s l) in Hin. contradiction.
Qed.

Lemma NoDup_flat_map_cons (zs : list Z) (l : list vec) : NoDup zs -> NoDup l ->
  NoDup (flat_map (fun z => map (cons z) l) zs).
Proof.
  intros Hz Hl. induction Hz as [|z zs Hn Hz IH]; simpl; [constructor|].
  assert (Hdis : forall x, In x (map (cons z) l) -> ~ In x (flat_map (fun z => map (cons z) l) zs)).
  { intros x Hx Hin. apply in_map_iff in Hx as (y & <- & _).
    apply in_flat_map in Hin as (w & Hw & Hin). apply in_map_iff in Hin as (y' & [= -> _] & _). contradiction. }
  assert (A : NoDup (map (cons z) l)).
  { apply Injective_map_NoDup; [|exact Hl]. intros a b E. now injection E. }
  induction (map (cons z) l) as [|a l' IHl]; simpl; [exact IH|].
  inversion A as [|? ? Ha Hl']; subst. constructor.
  - rewrite in_app_iff. intros [H|H]; [contradiction|]. apply (Hdis a); [left; reflexivity|exact H].
  - apply IHl; [|exact Hl']. intros x Hx. apply Hdis. right; exact Hx.
Qed.

Lemma box_raw_NoDup lo hi : NoDup (box_raw lo hi).
Proof.
  revert hi; induction lo as [|l lo IH]; intros [|h hi]; simpl;
    try (constructor; [intros []|constructor]).
  apply NoDup_flat_map_cons; [|apply IH].
  apply Injective_map_NoDup; [|apply seq_NoDup]. intros a b E. lia.
Qed.

Lemma box_raw_In lo hi x : length lo = length hi ->
  In x (box_raw lo hi) <-> length x = length lo /\
    forall k, (k < length lo)%nat -> nth k lo 0 <= nth k x 0 < nth k hi 0.
Proof.
  revert hi x; induction lo as [|l lo IH]; intros [|h hi] x Hl; try discriminate; simpl in Hl.
  - simpl. split.
    + intros [<-|[]]. split; [reflexivity|]. simpl; lia.
    + intros [H _]. destruct x; [left; reflexivity|discriminate].
  - cbn [box_raw]. rewrite in_flat_map. split.
    + intros (z & Hz & Hx). apply in_map_iff in Hx as (y & <- & Hy).
      apply in_map_iff in Hz as (k & <- & Hk). apply in_seq in Hk.
      apply IH in Hy; [|lia]. destruct Hy as [Hy1 Hy2]. simpl. split; [lia|].
      intros [|j] Hj; [lia|]. apply Hy2. lia.
    + intros [Hx1 Hx2]. destruct x as [|z x]; [discriminate|]. simpl in Hx1.
      exists z. split.
      * pose proof (Hx2 O ltac:(simpl; lia)) as H0. simpl in H0.
        apply in_map_iff. exists (Z.to_nat (z - l)). split; [lia|]. apply in_seq. lia.
      * apply in_map. apply IH; [lia|]. split; [lia|]. intros k Hk. apply (Hx2 (S k)). simpl; lia.
Qed.

Lemma in_torus N x : in_grid (torus_shape N) x = true ->
  length x = length N /\ forall k, (k < length N)%nat -> 0 <= nth k x 0 < nth k (map Zpos N) 0.
Proof.
  revert x; induction N as [|n N IH]; intros [|z x]; simpl; try discriminate.
  - intros _. split; [reflexivity|]. lia.
  - intros H. apply andb_prop in H as [H1 H2]. destruct (IH x H2) as [H3 H4].
    split; [lia|]. intros [|k] Hk; [lia|]. apply H4. lia.
Qed.

Lemma torus_cells_NoDup N : NoDup (torus_cells N).
Proof. apply attach_NoDup, box_raw_NoDup. Qed.

Lemma torus_cells_all N (x : cell (torus N)) : In x (torus_cells N).
Proof.
  unfold torus_cells. apply attach_In. destruct x as [x Hx]; simpl.
  destruct (in_torus N x Hx) as [H1 H2].
  apply box_raw_In; [now rewrite !map_length|]. rewrite map_length. split; [exact H1|].
  intros k Hk. specialize (H2 k Hk).
  replace (nth k (map (fun _ => 0) N) 0) with 0; [exact H2|].
  clear. revert k; induction N; intros [|k]; simpl; auto.
Qed.
