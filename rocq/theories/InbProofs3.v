(* The whole sweep, equivalence with update kernel and boundary kernel, and the simulation. *)
From Coq Require Import String List ZArith Bool Arith Lia Permutation.
From Verif Require Import StencilModel StencilProofs AccessModel StreamModel StreamSpec AccessProofs StreamProofs RaceProofs StreamProofs2
  GridModel GridProofs BoundSpec InbModel InbSpec InbProofs InbProofs2.
Import ListNotations.

Section Sweep.
  Context (N : list positive) (V : Type) (v0 : V) (S : stencil) (p : pattern) (t : timestep).
  Notation L := (torus N).
  Notation D := (ldim (torus N)).
  Notation Q := (length S).
  Notation W := (waddr D S p t).
  Notation R := (raddr D S p t).
  Notation R' := (raddr D S p (ts_next t)).
  Notation outs := (map W (seq 0 Q)).
  Notation ins := (map R' (seq 0 Q)).
  Notation at_ := (at_loc L V).
  Notation target x i := (loc x (R' (opp S i))).
  Notation leaves x i n := (leaves_through N (proj1_sig x) (dir S i) n).
  Hypothesis HP : supported p D S t.
  Hypothesis HN : nearest_neighbours S.
  Hypothesis Hip : is_inplace p = true.
  Context (spec : list (side V)).
  Hypothesis Hkeys : forall n r, In (n, r) spec -> exists k s, k < length N /\ (s = 1%Z \/ s = (-1)%Z) /\ n = axis_vec (length N) k s.
  Hypothesis Hloc : forall n r i, In (n, r) spec -> i < Q -> own_reads N V S (r i).
  Context (C : cell L -> list V -> list V).
  Hypothesis HC : forall x f, length f = Q -> length (C x f) = Q.

  Let HSl : symmetric_stencil (length N) S.
  Proof. rewrite <- ldim_torus. exact (proj1 HP). Qed.

  Definition new_pops (m : mem L V) (x : cell L) : list V := C x (map (fun j => at_ m (loc x (R j))) (seq 0 Q)).

  Lemma new_pops_length m x : length (new_pops m x) = Q.
  Proof. apply HC. now rewrite map_length, seq_length. Qed.

  Lemma leaves_link (x : cell L) i n r : inner N x = true -> i < Q -> In (n, r) spec -> leaves x i n -> is_link S (inner N) (x, i).
  Proof.
    intros Hx Hi Hin Hl. apply (link_leaves N S HN x i Hx Hi).
    destruct (Hkeys n r Hin) as (k & s & Hk & Hs & ->). exists k, s. tauto.
  Qed.

  Lemma sweep : forall xs m, NoDup xs -> (forall x, In x xs -> inner N x = true) ->
    exists m', kernel_with_boundaries N V p t S spec xs C m = Ok m' /\
      (forall x i, In x xs -> i < Q -> at_ m' (loc x (W i)) = nth i (new_pops m x) v0) /\
      (forall x i before n r after, In x xs -> i < Q -> spec = before ++ (n, r) :: after -> leaves x i n ->
         (forall n' r', In (n', r') after -> ~ leaves x i n') ->
         at_ m' (target x i) = own_value V v0 (r i) (new_pops m x)) /\
      (forall l, (forall x i, In x xs -> i < Q -> loc x (W i) <> l) ->
         (forall x i n r, In x xs -> i < Q -> In (n, r) spec -> leaves x i n -> target x i <> l) ->
         at_ m' l = at_ m l).
  Proof.
    unfold kernel_with_boundaries. rewrite (between_seq L S p t HP).
    pose proof (reads_of_seq p D S t HP) as HR. pose proof (writes_of_seq p D S t HP) as HW.
    unfold reads_of, writes_of in *.
    destruct (get_accessor p t) as [a|]; [|discriminate]. cbn [rbind] in HR, HW. cbn [rbind]. rewrite HR, HW. cbn [rbind fst snd].
    clear HR HW.
    induction xs as [|x xs IH]; intros m Hnd Hin.
    - exists m. split; [reflexivity|]. split; [intros ? ? []|]. split; [intros ? ? ? ? ? ? []|reflexivity].
    - inversion Hnd as [|? ? Hnx Hnd']; subst. cbn [foldM]. cbv zeta.
      assert (Hx : inner N x = true) by (apply Hin; left; reflexivity).
      rewrite (load_eq L V S p t m x). fold (new_pops m x).
      set (ms := store L V m x outs (new_pops m x)).
      destruct (conditionals_own N V v0 S p t HP HN x (new_pops m x) Hx (new_pops_length m x) spec ms Hkeys Hloc)
        as (m1 & -> & Hv1 & Ho1). cbn [rbind].
      assert (Hnot : forall y j i n r, inner N y = true -> j < Q -> i < Q -> In (n, r) spec -> leaves x i n -> target x i <> loc y (W j)).
      { intros y j i n r Hy Hj Hi Hs Hl E. symmetry in E.
        exact (target_not_own N S p t HP x y i j (leaves_link x i n r Hx Hi Hs Hl) Hy Hj E). }
      assert (Hsame : forall y, In y xs -> new_pops m1 y = new_pops m y).
      { intros y Hy. unfold new_pops. f_equal. apply map_ext_in. intros j Hj. apply in_seq in Hj.
        assert (Hoj : opp S j < Q) by (apply (opp_lt D S (proj1 HP)); lia).
        rewrite (inplace_loc' L S p t y j HP Hip) by lia.
        rewrite Ho1.
        - unfold ms. apply (store_at_miss L V S p t m x (new_pops m x) _ HP (new_pops_length m x)).
          intros i Hi E. apply wloc_inj in E; [|exact HP|exact Hi|exact Hoj]. destruct E as [-> _]. contradiction.
        - intros i n r Hi Hs Hl. apply (Hnot y (opp S j) i n r); try assumption. apply Hin. right; exact Hy. }
      destruct (IH m1 Hnd' (fun y Hy => Hin y (or_intror Hy))) as (m' & E' & Hw & Hv & Ho).
      exists m'. split; [exact E'|]. split; [|split].
      + intros y i Hy Hi. destruct (in_dec cell_eq_dec y xs) as [Hyx|Hyx].
        * rewrite Hw by assumption. rewrite Hsame by exact Hyx. reflexivity.
        * destruct Hy as [->|Hy]; [|contradiction]. rewrite Ho.
          -- rewrite Ho1.
             ++ unfold ms. apply (store_at_hit L V v0 S p t m y (new_pops m y) i HP (new_pops_length m y) Hi).
             ++ intros k n r Hk Hs Hl. apply (Hnot y i k n r); assumption.
          -- intros z j Hz Hj E. apply wloc_inj in E; [|exact HP|exact Hj|exact Hi]. destruct E as [-> _]. contradiction.
          -- intros z j n r Hz Hj Hs Hl E. symmetry in E.
             assert (Hzi : inner N z = true) by (apply Hin; right; exact Hz).
             exact (target_not_own N S p t HP z y j i (leaves_link z j n r Hzi Hj Hs Hl) Hx Hi E).
      + intros y i before n r after Hy Hi Es Hl Hn. destruct (in_dec cell_eq_dec y xs) as [Hyx|Hyx].
        * rewrite (Hv y i before n r after) by assumption. rewrite Hsame by exact Hyx. reflexivity.
        * destruct Hy as [->|Hy]; [|contradiction]. rewrite Ho.
          -- apply (Hv1 i before n r after); assumption.
          -- intros z j Hz Hj. apply (target_not_own N S p t HP y z i j).
             ++ apply (leaves_link y i n r Hx Hi); [|exact Hl]. rewrite Es. apply in_or_app. right; left; reflexivity.
             ++ apply Hin. right; exact Hz.
             ++ exact Hj.
          -- intros z j n' r' Hz Hj _ _ E. apply (target_inj N S p t HP) in E as [-> _]; try assumption. contradiction.
      + intros l Hl1 Hl2. rewrite Ho.
        * rewrite Ho1 by (intros i n r Hi; apply Hl2; [left; reflexivity|exact Hi]).
          unfold ms. apply (store_at_miss L V S p t m x (new_pops m x) l HP (new_pops_length m x)).
          intros i Hi. apply Hl1; [left; reflexivity|exact Hi].
        * intros y i Hy. apply Hl1. right; exact Hy.
        * intros y i n r Hy. apply Hl2. right; exact Hy.
  Qed.

  (* the last listed face a link leaves through *)
  Lemma last_face (x : cell L) i : inner N x = true -> i < Q -> forall sp : list (side V),
    (forall n r, In (n, r) sp -> exists k s, k < length N /\ (s = 1%Z \/ s = (-1)%Z) /\ n = axis_vec (length N) k s) ->
    (exists n r, In (n, r) sp /\ leaves x i n) ->
    exists before n r after, sp = before ++ (n, r) :: after /\ leaves x i n /\
      (forall n' r', In (n', r') after -> ~ leaves x i n').
  Proof.
    intros Hx Hi. induction sp as [|[n r] sp IH]; intros Hk (n0 & r0 & Hin & Hl); [destruct Hin|].
    assert (D' : (exists n1 r1, In (n1, r1) sp /\ leaves x i n1) \/ (forall n1 r1, In (n1, r1) sp -> ~ leaves x i n1)).
    { assert (Hk' : forall n r, In (n, r) sp -> exists k s, k < length N /\ (s = 1%Z \/ s = (-1)%Z) /\ n = axis_vec (length N) k s)
        by (intros; eapply Hk; right; eassumption).
      clear - Hk' HSl HN Hx Hi. induction sp as [|[n1 r1] sp IH]; [right; intros ? ? []|].
      destruct (leaves_dec N S HSl HN x i n1 Hx Hi (Hk' n1 r1 (or_introl eq_refl))) as [H|H].
      - left. exists n1, r1. split; [left; reflexivity|exact H].
      - destruct IH as [(n2 & r2 & H1 & H2)|IH]; [intros; eapply Hk'; right; eassumption| |].
        + left. exists n2, r2. split; [right; exact H1|exact H2].
        + right. intros n2 r2 [[= <- <-]|H2]; [exact H|exact (IH n2 r2 H2)]. }
    destruct D' as [D'|D'].
    - destruct (IH ltac:(intros; eapply Hk; right; eassumption) D') as (b & n1 & r1 & a & -> & H1 & H2).
      exists ((n, r) :: b), n1, r1, a. split; [reflexivity|]. tauto.
    - destruct Hin as [[= -> ->]|Hin]; [|exfalso; exact (D' _ _ Hin Hl)].
      exists [], n0, r0, sp. split; [reflexivity|]. tauto.
  Qed.

  Hypothesis Hall : forall k s, k < length N -> s = 1%Z \/ s = (-1)%Z -> exists r, In (axis_vec (length N) k s, r) spec.
  Context (B : cell L -> nat -> brule V).
  Hypothesis HB : responsible N S spec B.

  Lemma link_rule (x : cell L) i : is_link S (inner N) (x, i) ->
    exists before n r after, spec = before ++ (n, r) :: after /\ leaves x i n /\
      (forall n' r', In (n', r') after -> ~ leaves x i n') /\ B x i = r i.
  Proof.
    intros Hl. pose proof Hl as (Hx & Hi & _). cbn [fst snd] in Hx, Hi.
    apply (link_leaves N S HN x i Hx Hi) in Hl as (k & s & Hk & Hs & Hl).
    destruct (Hall k s Hk Hs) as (r0 & Hr0).
    destruct (last_face x i Hx Hi spec Hkeys) as (b & n & r & a & E & H1 & H2); [eauto|].
    exists b, n, r, a. split; [exact E|]. split; [exact H1|]. split; [exact H2|].
    apply (HB x i b n r a Hx Hi E H1 H2).
  Qed.

  Lemma link_reads (x : cell L) i a : is_link S (inner N) (x, i) -> In a (b_reads (B x i)) -> readable S (inner N) x a.
  Proof.
    intros Hl Ha. destruct (link_rule x i Hl) as (b & n & r & af & E & _ & _ & EB). rewrite EB in Ha.
    destruct (Hloc n r i) with (a := a) as (j & Hj & ->); [|apply Hl|exact Ha|].
    - rewrite E. apply in_or_app. right; left; reflexivity.
    - cbn [readable]. split; [exact Hj|]. split; [apply repeat_length|]. rewrite shift_zero. apply Hl.
  Qed.

  Lemma own_reads_value (x : cell L) f r : own_reads N V S r ->
    map (pacc_value L V v0 S f x) (b_reads r) = map (own V v0 (f x)) (b_reads r).
  Proof.
    intros H. apply map_ext_in. intros a Ha. destruct (H a Ha) as (j & _ & ->). cbn [pacc_value own].
    rewrite shift_zero. reflexivity.
  Qed.

  Theorem in_kernel_equivalence xs s links : NoDup xs -> (forall x, In x xs <-> inner N x = true) ->
    (forall l, In l links <-> is_link S (inner N) l) ->
    exists m' s1 s2, kernel_with_boundaries N V p t S spec xs C (src s) = Ok m' /\
      update L V p t S xs C s = Ok s1 /\ boundary L V p t S B links s1 = Ok s2 /\
      forall c q, m' c q = src s2 c q.
  Proof.
    intros Hnd Hxs Hlinks.
    destruct (sweep xs (src s) Hnd) as (m' & E & Hw & Hv & Ho); [intros x Hx; apply Hxs; exact Hx|].
    destruct (update_spec L V v0 S p t C xs s HP Hnd HC) as (s1 & E1 & Hw1 & Hin1 & _).
    destruct (Hin1 Hip) as [_ Ho1].
    destruct (boundary_alone L V v0 S p t (inner N) B HP link_reads links s1) as (s2 & E2 & _ & Hv2 & Hg2 & Ho2).
    { intros l Hl. apply Hlinks; exact Hl. }
    exists m', s1, s2. split; [exact E|]. split; [exact E1|]. split; [exact E2|]. intros c q.
    set (g := fun e : cell L * nat => target (fst e) (snd e)).
    set (h := fun e : cell L * nat => loc (fst e) (W (snd e))).
    destruct (in_dec (link_eq_dec L) (c, q) (map g links)) as [Hl|Hl].
    - apply in_map_iff in Hl as ((x & i) & Eg & Hl). unfold g in Eg; cbn [fst snd] in Eg.
      assert (Hlk : is_link S (inner N) (x, i)) by (apply Hlinks; exact Hl).
      pose proof Hlk as (Hx & Hi & _). cbn [fst snd] in Hx, Hi.
      specialize (Hv2 x i Hl). rewrite Eg in Hv2. unfold at_loc at 1 in Hv2; cbn [fst snd] in Hv2. rewrite Hv2.
      destruct (link_rule x i Hlk) as (b & n & r & a & Es & H1 & H2 & EB).
      specialize (Hv x i b n r a (proj2 (Hxs x) Hx) Hi Es H1 H2). rewrite Eg in Hv. unfold at_loc at 1 in Hv; cbn [fst snd] in Hv.
      rewrite Hv, EB. unfold own_value. f_equal.
      rewrite own_reads_value by (apply (Hloc n r i); [rewrite Es; apply in_or_app; right; left; reflexivity|exact Hi]).
      f_equal. f_equal.
      rewrite <- (map_nth_seq v0 (new_pops (src s) x) Q (new_pops_length (src s) x)). unfold pops.
      apply map_ext_in. intros j Hj. apply in_seq in Hj. symmetry. apply Hw1; [apply Hxs; exact Hx|lia].
    - assert (Hn : forall x i, is_link S (inner N) (x, i) -> target x i <> (c, q)).
      { intros x i Hlk Eq. apply Hl. rewrite <- Eq. apply (in_map g links (x, i)). apply Hlinks. exact Hlk. }
      assert (E3 : src s2 c q = src s1 c q).
      { apply (Ho2 (c, q)). intros x i Hin. apply Hn. apply Hlinks. exact Hin. }
      rewrite E3.
      destruct (in_dec (link_eq_dec L) (c, q) (map h (list_prod xs (seq 0 Q)))) as [Hh|Hh].
      + apply in_map_iff in Hh as ((x & i) & Eh & Hh). unfold h in Eh; cbn [fst snd] in Eh.
        apply in_prod_iff in Hh as [Hx Hi]. apply in_seq in Hi.
        specialize (Hw x i Hx ltac:(lia)). specialize (Hw1 x i Hx ltac:(lia)). rewrite Eh in Hw, Hw1.
        unfold at_loc at 1 in Hw. unfold at_loc at 1 in Hw1. cbn [fst snd] in Hw, Hw1. rewrite Hw, Hw1. reflexivity.
      + assert (Hm : forall x i, In x xs -> i < Q -> loc x (W i) <> (c, q)).
        { intros x i Hx Hi Eq. apply Hh. rewrite <- Eq. apply (in_map h (list_prod xs (seq 0 Q)) (x, i)).
          apply in_prod; [exact Hx|]. apply in_seq. lia. }
        specialize (Ho (c, q) Hm). specialize (Ho1 (c, q) Hm). unfold at_loc in Ho, Ho1; cbn [fst snd] in Ho, Ho1.
        rewrite Ho1. apply Ho. intros x i n r Hx Hi Hs Hlv. apply Hn. apply (leaves_link x i n r); try assumption. apply Hxs; exact Hx.
  Qed.
End Sweep.
