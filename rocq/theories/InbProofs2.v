(* Kernels with built-in boundaries are the plain kernel followed by the boundary kernel. *)
From Coq Require Import String List ZArith Bool Arith Lia Permutation.
From Verif Require Import StencilModel StencilProofs AccessModel StreamModel StreamSpec AccessProofs StreamProofs RaceProofs StreamProofs2
  GridModel GridProofs BoundSpec InbModel InbSpec InbProofs.
Import ListNotations.

Section Effect.
  Context (N : list positive) (V : Type) (v0 : V) (S : stencil) (p : pattern) (t : timestep).
  Notation L := (torus N).
  Notation D := (ldim (torus N)).
  Notation Q := (length S).
  Notation W := (waddr D S p t).
  Notation R' := (raddr D S p (ts_next t)).
  Notation outs := (map W (seq 0 Q)).
  Notation ins := (map R' (seq 0 Q)).
  Notation at_ := (at_loc L V).
  Notation target x i := (loc x (R' (opp S i))).
  Hypothesis HP : supported p D S t.
  Hypothesis HN : nearest_neighbours S.

  Let HP' : supported p D S (ts_next t) := supported_next p D S t HP.

  Definition own (f : list V) (a : pacc) : V := match a with FOut _ j | FIn _ j => nth j f v0 end.
  Definition own_reads (r : brule V) : Prop := forall a, In a (b_reads r) -> exists j, j < Q /\ a = FOut (vzero D) j.
  Definition own_value (r : brule V) (f : list V) : V := b_fun r (map (own f) (b_reads r)).

  Lemma target_inj (x : cell L) i (y : cell L) j : i < Q -> j < Q -> target x i = target y j -> x = y /\ i = j.
  Proof.
    intros Hi Hj E. apply rloc_inj in E; try exact HP'; try (apply (opp_lt D S (proj1 HP)); assumption).
    destruct E as [-> E]. split; [reflexivity|]. apply (opp_inj D S (proj1 HP)) in E; assumption.
  Qed.

  (* a link's slot is not one an inner cell writes *)
  Lemma target_not_own (x y : cell L) i j : is_link S (inner N) (x, i) -> inner N y = true -> j < Q ->
    loc y (W j) <> target x i.
  Proof.
    intros Hl Hy Hj E. rewrite (link_slot L S p t HP (inner N) x i Hl) in E.
    apply wloc_inj in E; [|exact HP|exact Hj|apply (opp_lt D S (proj1 HP)), Hl].
    destruct E as [-> _]. destruct Hl as (_ & _ & H). cbn [fst snd] in H. congruence.
  Qed.

  Lemma in_kernel_read_own m (x : cell L) f a : length f = Q -> (exists j, j < Q /\ a = FOut (vzero D) j) ->
    in_kernel_read N V S outs ins m x f a = Ok (own f a).
  Proof.
    intros Hf (j & Hj & ->). unfold in_kernel_read. rewrite (dimD_D D S (proj1 HP)).
    unfold vec_eqb. destruct (vec_eq_dec (vzero D) (vzero D)); [|congruence].
    rewrite (nth_error_nth' f v0) by lia. reflexivity.
  Qed.

  Lemma mapM_own m (x : cell L) f accs : length f = Q -> (forall a, In a accs -> exists j, j < Q /\ a = FOut (vzero D) j) ->
    mapM (in_kernel_read N V S outs ins m x f) accs = Ok (map (own f) accs).
  Proof.
    intros Hf. induction accs as [|a accs IH]; intros Ha; [reflexivity|].
    cbn [mapM map]. rewrite in_kernel_read_own by (try assumption; apply Ha; left; reflexivity).
    cbn [rbind]. rewrite IH by (intros; apply Ha; right; assumption). reflexivity.
  Qed.

  Lemma in_kernel_link_own m (x : cell L) f r i : length f = Q -> own_reads (r i) -> i < Q ->
    in_kernel_link N V S outs ins r x f m i =
    Ok (upd L V m (fst (target x i)) (snd (target x i)) (own_value (r i) f)).
  Proof.
    intros Hf Hr Hi. unfold in_kernel_link. rewrite mapM_own by assumption. cbn [rbind].
    rewrite (dir_nth_error S i Hi), (st_inverse_index_dir D S (proj1 HP) i Hi). cbn [rbind].
    assert (Ho : opp S i < Q) by (apply (opp_lt D S (proj1 HP)); exact Hi).
    unfold resolve at 1. rewrite nth_error_seqmap by exact Ho. cbn [rbind off idx].
    rewrite (dimD_D D S (proj1 HP)).
    rewrite (vadd_zero_r' _ _ (raddr_length p D S (ts_next t) HP' _ Ho)). reflexivity.
  Qed.

  Lemma links_own (x : cell L) f r : length f = Q -> (forall i, i < Q -> own_reads (r i)) ->
    forall is m, (forall i, In i is -> i < Q) ->
    exists m', foldM (in_kernel_link N V S outs ins r x f) is m = Ok m' /\
      (forall i, In i is -> at_ m' (target x i) = own_value (r i) f) /\
      (forall l, (forall i, In i is -> target x i <> l) -> at_ m' l = at_ m l).
  Proof.
    intros Hf Hr. induction is as [|i is IH]; intros m Hi.
    - exists m. split; [reflexivity|]. split; [intros ? []|reflexivity].
    - cbn [foldM]. rewrite in_kernel_link_own by (try apply Hr; try assumption; apply Hi; left; reflexivity). cbn [rbind].
      set (m1 := upd L V m _ _ _).
      destruct (IH m1) as (m' & Hf' & Hv & Ho); [intros; apply Hi; right; assumption|].
      exists m'. split; [exact Hf'|]. split.
      + intros j Hj. destruct (in_dec Nat.eq_dec j is) as [Hin|Hnin]; [apply Hv; exact Hin|].
        destruct Hj as [->|Hj]; [|contradiction]. rewrite Ho.
        * unfold m1, at_loc. apply upd_same.
        * intros k Hk E. apply target_inj in E as [_ ->]; [contradiction| |]; apply Hi; [right; exact Hk|left; reflexivity].
      + intros l Hl. rewrite Ho by (intros; apply Hl; right; assumption).
        destruct l as [c q]. unfold m1, at_loc; simpl. apply upd_other.
        apply (Hl i). left; reflexivity.
  Qed.

  Let HSl : symmetric_stencil (length N) S.
  Proof. rewrite <- ldim_torus. exact (proj1 HP). Qed.

  Notation leaves x i n := (leaves_through N (proj1_sig x) (dir S i) n).

  (* one face *)
  Lemma conditional_own (x : cell L) f n r m : inner N x = true -> length f = Q ->
    (exists k s, k < length N /\ (s = 1%Z \/ s = (-1)%Z) /\ n = axis_vec (length N) k s) ->
    (forall i, i < Q -> own_reads (r i)) ->
    exists m', boundary_conditional N V S outs ins x f m (n, r) = Ok m' /\
      (forall i, i < Q -> leaves x i n -> at_ m' (target x i) = own_value (r i) f) /\
      (forall l, (forall i, i < Q -> leaves x i n -> target x i <> l) -> at_ m' l = at_ m l).
  Proof.
    intros Hx Hf (k & s & Hk & Hs & ->) Hr. unfold boundary_conditional. cbn [fst snd].
    destruct (border_axis N x k s Hx Hk Hs) as (c & -> & Hc). cbn [rbind].
    assert (HIn : forall i, In i (direction_indices_in_direction (axis_vec (length N) k s) S) <->
                    i < Q /\ nth k (dir S i) 0%Z = s).
    { intros i. rewrite (direction_indices_In (length N) S _ i HSl). split.
      - intros (Hi & H). split; [exact Hi|]. apply (in_direction_axis (length N) k s) in H; try assumption.
        apply (dir_length _ S HSl); exact Hi.
      - intros (Hi & H). split; [exact Hi|]. apply (in_direction_axis (length N) k s); try assumption.
        apply (dir_length _ S HSl); exact Hi. }
    destruct c.
    - destruct (links_own x f r Hf Hr (direction_indices_in_direction (axis_vec (length N) k s) S) m) as (m' & E & Hv & Ho).
      { intros i Hi. apply HIn in Hi. apply Hi. }
      exists m'. split; [exact E|]. split.
      + intros i Hi Hl. apply leaves_axis in Hl as [_ Hd]; try assumption. apply Hv, HIn. split; assumption.
      + intros l Hl. apply Ho. intros i Hi. apply HIn in Hi as [Hi Hd]. apply Hl; [exact Hi|].
        apply leaves_axis; try assumption. split; [apply Hc; reflexivity|exact Hd].
    - exists m. split; [reflexivity|]. split; [|reflexivity].
      intros i Hi Hl. exfalso. apply leaves_axis in Hl as [E _]; try assumption. apply Hc in E. discriminate.
  Qed.

  (* all faces, in order *)
  Lemma conditionals_own (x : cell L) f : inner N x = true -> length f = Q ->
    forall spec m,
    (forall n r, In (n, r) spec -> exists k s, k < length N /\ (s = 1%Z \/ s = (-1)%Z) /\ n = axis_vec (length N) k s) ->
    (forall n r i, In (n, r) spec -> i < Q -> own_reads (r i)) ->
    exists m', foldM (boundary_conditional N V S outs ins x f) spec m = Ok m' /\
      (forall i before n r after, i < Q -> spec = before ++ (n, r) :: after -> leaves x i n ->
         (forall n' r', In (n', r') after -> ~ leaves x i n') -> at_ m' (target x i) = own_value (r i) f) /\
      (forall l, (forall i n r, i < Q -> In (n, r) spec -> leaves x i n -> target x i <> l) -> at_ m' l = at_ m l).
  Proof.
    intros Hx Hf. induction spec as [|[n r] spec IH]; intros m Hk Hr.
    - exists m. split; [reflexivity|]. split; [|reflexivity]. intros i [|] n r after _ E; discriminate.
    - destruct (conditional_own x f n r m Hx Hf (Hk n r (or_introl eq_refl))) as (m1 & E1 & Hv1 & Ho1).
      { intros i. apply (Hr n r i). left; reflexivity. }
      destruct (IH m1) as (m' & E' & Hv & Ho).
      { intros n' r' H. apply (Hk n' r'). right; exact H. }
      { intros n' r' i H. apply (Hr n' r' i). right; exact H. }
      exists m'. cbn [foldM]. rewrite E1. cbn [rbind]. split; [exact E'|]. split.
      + intros i [|[nb rb] before] n' r' after Hi E Hl Hn; cbn [app] in E.
        * injection E as <- <- <-. rewrite Ho.
          -- apply Hv1; assumption.
          -- intros j nj rj Hj Hin Hlj Et. apply target_inj in Et as [_ ->]; try assumption. exact (Hn _ _ Hin Hlj).
        * injection E as _ _ E. exact (Hv i before n' r' after Hi E Hl Hn).
      + intros l Hl. rewrite Ho by (intros i n' r' Hi H; apply (Hl i n' r' Hi); right; exact H).
        apply Ho1. intros i Hi. apply (Hl i n r Hi). left; reflexivity.
  Qed.
End Effect.
