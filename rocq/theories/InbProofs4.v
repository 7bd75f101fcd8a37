(* n calls of a kernel with built-in boundaries. *)
From Coq Require Import String List ZArith Bool Arith Lia Permutation.
From Verif Require Import StencilModel StencilProofs AccessModel StreamModel StreamSpec AccessProofs StreamProofs RaceProofs StreamProofs2
  GridModel GridProofs BoundSpec InbModel InbSpec InbProofs InbProofs2 InbProofs3.
Import ListNotations.

Section Simulation.
  Context (N : list positive) (V : Type) (v0 : V) (S : stencil) (p : pattern).
  Notation L := (torus N).
  Notation D := (ldim (torus N)).
  Notation Q := (length S).
  Notation at_ := (at_loc L V).
  Hypothesis HN : nearest_neighbours S.
  Hypothesis Hip : is_inplace p = true.
  Context (spec : list (side V)).
  Hypothesis Hkeys : forall n r, In (n, r) spec -> exists k s, k < length N /\ (s = 1%Z \/ s = (-1)%Z) /\ n = axis_vec (length N) k s.
  Hypothesis Hall : forall k s, k < length N -> s = 1%Z \/ s = (-1)%Z -> exists r, In (axis_vec (length N) k s, r) spec.
  Hypothesis Hloc : forall n r i, In (n, r) spec -> i < Q -> own_reads N V S (r i).
  Context (B : cell L -> nat -> brule V).
  Hypothesis HB : responsible N S spec B.
  Context (C : nat -> cell L -> list V -> list V).
  Hypothesis HC : forall n x f, length f = Q -> length (C n x f) = Q.
  Context (xs : nat -> list (cell L)).
  Hypothesis Hnd : forall n, NoDup (xs n).
  Hypothesis Hxs : forall n x, In x (xs n) <-> inner N x = true.

  Definition ready (t : timestep) (f : cell L -> list V) (m : mem L V) : Prop :=
    (forall x i, inner N x = true -> i < Q -> at_ m (loc x (waddr D S p t i)) = nth i (f x) v0) /\
    (forall x i, is_link S (inner N) (x, i) ->
       at_ m (loc x (raddr D S p (ts_next t) (opp S i))) = b_fun (B x i) (map (pacc_value L V v0 S f x) (b_reads (B x i)))).

  Lemma ready_step t n f m : supported p D S t -> (forall x, length (f x) = Q) -> ready t f m ->
    exists m', kernel_with_boundaries N V p (ts_next t) S spec (xs n) (C n) m = Ok m' /\
      ready (ts_next t) (fun x => C n x (map (fun j =>
          let y := shift x (vneg (dir S j)) in
          if inner N y then nth j (f y) v0
          else b_fun (B x (opp S j)) (map (pacc_value L V v0 S f x) (b_reads (B x (opp S j))))) (seq 0 Q))) m'.
  Proof.
    intros HP Hf [Hm1 Hm2]. pose proof (supported_next p D S t HP) as HP'.
    destruct (sweep N V v0 S p (ts_next t) HP' HN Hip spec Hkeys Hloc (C n) (HC n) (xs n) m (Hnd n)) as (m' & E & Hw & Hv & _).
    { intros x Hx. apply (Hxs n). exact Hx. }
    exists m'. split; [exact E|].
    assert (Hnp : forall x, inner N x = true -> new_pops N V S p (ts_next t) (C n) m x =
      C n x (map (fun j => let y := shift x (vneg (dir S j)) in
          if inner N y then nth j (f y) v0
          else b_fun (B x (opp S j)) (map (pacc_value L V v0 S f x) (b_reads (B x (opp S j))))) (seq 0 Q))).
    { intros x Hx. unfold new_pops. f_equal. apply map_ext_in. intros j Hj. apply in_seq in Hj. cbv zeta.
      destruct (inner N (shift x (vneg (dir S j)))) eqn:Ey.
      - rewrite (rloc_next L S p t x j HP) by lia. apply Hm1; [exact Ey|lia].
      - assert (Ho : opp S j < Q) by (apply (opp_lt D S (proj1 HP)); lia).
        rewrite <- (Hm2 x (opp S j)).
        + rewrite (opp_opp D S (proj1 HP)) by lia. reflexivity.
        + split; [exact Hx|]. split; [exact Ho|]. cbn [fst snd]. rewrite (dir_opp D S (proj1 HP)) by lia. exact Ey. }
    split.
    - intros x i Hx Hi. rewrite Hw by (try exact Hi; apply Hxs; exact Hx). rewrite Hnp by exact Hx. reflexivity.
    - intros x i Hl. pose proof Hl as (Hx & Hi & _). cbn [fst snd] in Hx, Hi.
      destruct (link_rule N V S p (ts_next t) HP' HN spec Hkeys Hall B HB x i Hl) as (b & nn & r & a & Es & H1 & H2 & EB).
      rewrite (Hv x i b nn r a) by (try assumption; apply Hxs; exact Hx).
      rewrite Hnp by exact Hx. rewrite EB. unfold own_value. f_equal.
      rewrite (own_reads_value N V v0 S x) by (apply (Hloc nn r i); [rewrite Es; apply in_or_app; right; left; reflexivity|exact Hi]).
      reflexivity.
  Qed.

  Theorem in_kernel_simulation xs0 links f0 t m0 m_tmp n x : supported p D S t ->
    (forall x, inner N x = true -> In x xs0) ->
    (forall l, In l links <-> is_link S (inner N) l) ->
    (forall x, length (f0 x) = Q) -> inner N x = true ->
    rbind (setter L V p t S false xs0 f0 m0) (fun m =>
    rbind (boundary L V p t S B links {| src := m; tmp := m_tmp |}) (fun s =>
    rbind (run_with_boundaries N V p S spec xs C n (t, src s)) (fun tm =>
      getter L V p (fst tm) S false (snd tm) x)))
    = Ok (post v0 S (inner N) C (fun _ => B) f0 n x).
  Proof.
    intros HP Hxs0 Hlinks Hf0 Hx.
    unfold setter, get_field_accesses.
    pose proof (writes_of_seq p D S t HP) as HW. unfold writes_of in HW.
    destruct (get_accessor p t) as [a|]; [|discriminate]. cbn [rbind] in HW |- *. rewrite HW. cbn [rbind].
    destruct (setter_fold L V v0 S p t f0 HP Hf0 xs0 m0) as [Hs _].
    set (m := fold_left _ xs0 m0) in *.
    destruct (boundary_alone L V v0 S p t (inner N) B HP) with (links := links) (s := {| src := m; tmp := m_tmp |})
      as (s2 & E2 & _ & Hv2 & Hg2 & _).
    { intros y i b. apply (link_reads N V S p t HP HN spec Hkeys Hloc Hall B HB). }
    { intros l Hl. apply Hlinks; exact Hl. }
    rewrite E2. cbn [rbind].
    assert (Hp0 : forall y i, inner N y = true -> i < Q -> nth i (pops L V S p t m y) v0 = nth i (f0 y) v0).
    { intros y i Hy Hi. rewrite (nth_pops L V v0 S p t) by exact Hi. apply Hs; [apply Hxs0; exact Hy|exact Hi]. }
    assert (R0 : ready t f0 (src s2)).
    { split.
      - intros y i Hy Hi. specialize (Hg2 y Hy). rewrite !(getter_pops L V S p t HP) in Hg2. injection Hg2 as Hg2.
        rewrite <- (nth_pops L V v0 S p t) by exact Hi. rewrite Hg2. cbn [src]. apply Hp0; assumption.
      - intros y i Hl. pose proof Hl as (Hy & Hi & _). cbn [fst snd] in Hy, Hi.
        rewrite (Hv2 y i) by (apply Hlinks; exact Hl).
        destruct (link_rule N V S p t HP HN spec Hkeys Hall B HB y i Hl) as (b & nn & r & af & Es & _ & _ & EB).
        rewrite EB. f_equal. apply map_ext_in. intros c Hc.
        destruct (Hloc nn r i) with (a := c) as (j & Hj & ->); [rewrite Es; apply in_or_app; right; left; reflexivity|exact Hi|exact Hc|].
        cbn [pacc_value]. rewrite shift_zero. cbn [src]. apply Hp0; assumption. }
    assert (G : forall k, exists mk, run_with_boundaries N V p S spec xs C k (t, src s2) = Ok (ts_after t k, mk) /\
              ready (ts_after t k) (post v0 S (inner N) C (fun _ => B) f0 k) mk /\ supported p D S (ts_after t k) /\
              (forall y, length (post v0 S (inner N) C (fun _ => B) f0 k y) = Q)).
    { induction k as [|k (mk & Ek & Rk & Sk & Lk)].
      - exists (src s2). split; [reflexivity|]. split; [exact R0|]. split; [exact HP|exact Hf0].
      - destruct (ready_step (ts_after t k) k _ mk Sk Lk Rk) as (m' & E' & R').
        exists m'. cbn [run_with_boundaries]. rewrite Ek. cbn [rbind fst snd]. rewrite E'. cbn [rbind].
        split; [reflexivity|]. split; [exact R'|]. split; [apply supported_next; exact Sk|].
        intros y. cbn [post]. apply HC. now rewrite map_length, seq_length. }
    destruct (G n) as (mk & Ek & Rk & Sk & Lk). rewrite Ek. cbn [rbind fst snd].
    rewrite (getter_pops L V S p (ts_after t n) Sk). f_equal.
    rewrite <- (map_nth_seq v0 (post v0 S (inner N) C (fun _ => B) f0 n x) Q (Lk x)). unfold pops.
    apply map_ext_in. intros i Hi. apply in_seq in Hi. apply Rk; [exact Hx|lia].
  Qed.
End Simulation.
