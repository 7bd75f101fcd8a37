(* Advection and diffusion: bounds for single cells and whole simulations. *)
From Coq Require Import String List ZArith QArith Qreals Bool Arith Reals Lra Lia.
From Verif Require Import StencilModel StencilProofs StencilProofs2 AccessModel AccessProofs StreamModel StreamSpec StreamProofs RealLib LinLib TransSpec EqModel EqSpec CollModel CollSpec CollProofs2 CollProofs4 BoundModel BoundSpec BoundProofs BoundProofs2 BoundProofs4 StabProofs2 StabProofs3 AdvSpec AdvProofs.
Import ListNotations.
Local Open Scope R_scope.

(* ---------- shares ---------- *)
Lemma along_zero c v : (forall a, nth a v 0 = 0) -> along c v = 0.
Proof. intros H. unfold along. rewrite (rsum_ext _ (fun _ => 0)), rsum_zero; [reflexivity|]. intros a _. rewrite H. ring. Qed.
Lemma square_seq v : square v = rsum (map (fun a => nth a v 0 * nth a v 0) (seq 0 (length v))).
Proof. unfold square. rewrite <- (rsum_nth (map (fun x => x * x) v) (length v)) by apply map_length. apply rsum_ext. intros a Ha. apply in_seq in Ha. rewrite (nth_indep _ 0 ((fun x : R => x * x) 0)) by (rewrite map_length; lia). exact (map_nth (fun x : R => x * x) v 0 a). Qed.
Lemma share_zero second c n : share second c (repeat 0 n) = 1.
Proof.
  assert (Z : forall a, nth a (repeat 0 n) 0 = 0) by (intros; apply nth_repeat). unfold share. rewrite (along_zero c _ Z), square_seq.
  rewrite (rsum_ext _ (fun _ => 0)), rsum_zero by (intros a _; rewrite Z; ring). destruct second; lra.
Qed.
Lemma share_sum D S w second v : isotropic_weights D S w -> length v = D ->
  rsum (map (fun i => nth i w 0 * share second (nth i S []) v) (seq 0 (length S))) = 1.
Proof.
  intros (Lw & W0 & W1 & W2 & _) Lv.
  assert (A1 : rsum (map (fun i => nth i w 0 * along (nth i S []) v) (seq 0 (length S))) = 0).
  { rewrite (rsum_ext _ (fun i => rsum (map (fun a => nth a v 0 * (nth i w 0 * comp (nth i S []) a)) (seq 0 D)))).
    - rewrite (rsum_swap (fun i a => nth a v 0 * (nth i w 0 * comp (nth i S []) a))). rewrite (rsum_ext _ (fun _ => 0)), rsum_zero; [reflexivity|].
      intros a Ha. apply in_seq in Ha. rewrite rsum_scal, <- (fsum_seq w S (fun c => comp c a) Lw). fold (momentum w S a). rewrite W1 by lia. ring.
    - intros i _. unfold along. rewrite Lv, <- rsum_scal. apply rsum_ext. intros; ring. }
  assert (A2 : rsum (map (fun i => nth i w 0 * (along (nth i S []) v * along (nth i S []) v)) (seq 0 (length S))) = square v / 3).
  { rewrite (rsum_ext _ (fun i => rsum (map (fun a => rsum (map (fun b => nth a v 0 * nth b v 0 * (nth i w 0 * (comp (nth i S []) a * comp (nth i S []) b))) (seq 0 D))) (seq 0 D)))).
    - rewrite (rsum_swap (fun i a => rsum (map (fun b => nth a v 0 * nth b v 0 * (nth i w 0 * (comp (nth i S []) a * comp (nth i S []) b))) (seq 0 D)))).
      rewrite square_seq, Lv. unfold Rdiv. rewrite <- rsum_scal_r. apply rsum_ext. intros a Ha. apply in_seq in Ha.
      rewrite (rsum_swap (fun i b => nth a v 0 * nth b v 0 * (nth i w 0 * (comp (nth i S []) a * comp (nth i S []) b)))).
      rewrite (rsum_ext _ (fun b => (nth a v 0 * nth b v 0 / 3) * delta b a)).
      + rewrite (rsum_delta (fun b => nth a v 0 * nth b v 0 / 3) D a) by lia. field.
      + intros b Hb. apply in_seq in Hb. rewrite rsum_scal, <- (fsum_seq w S (fun c => comp c a * comp c b) Lw). fold (second_moment w S a b). rewrite W2 by lia. unfold delta. rewrite Nat.eqb_sym. destruct (Nat.eqb_spec b a); field.
    - intros i _. unfold along. rewrite Lv. set (X := rsum (map (fun a => comp (nth i S []) a * nth a v 0) (seq 0 D))).
      transitivity (rsum (map (fun a => (comp (nth i S []) a * nth a v 0) * (nth i w 0 * X)) (seq 0 D))); [rewrite rsum_scal_r; fold X; ring|].
      apply rsum_ext. intros a _. rewrite (rsum_ext _ (fun b => (nth a v 0 * nth i w 0 * comp (nth i S []) a) * (comp (nth i S []) b * nth b v 0))) by (intros; ring). rewrite rsum_scal. fold X. ring. }
  assert (A0 : rsum (map (fun i => nth i w 0 * 1) (seq 0 (length S))) = 1) by (rewrite <- (fsum_seq w S (fun _ => 1) Lw); exact W0).
  rewrite (rsum_ext _ (fun i => (nth i w 0 * 1 * (1 - if second then 3 / 2 * square v else 0) + 3 * (nth i w 0 * along (nth i S []) v)) + (if second then 9 / 2 else 0) * (nth i w 0 * (along (nth i S []) v * along (nth i S []) v)))).
  - rewrite !rsum_plus, rsum_scal_r, !rsum_scal, A0, A1, A2. destruct second; field.
  - intros i _. unfold share. destruct second; field.
Qed.
(* slow flows *)
Lemma along_bound (c : vec) (v : list R) : (forall a, (-1 <= nth a c 0 <= 1)%Z) -> Rabs (along c v) <= rsum (map Rabs v).
Proof.
  intros Hc. unfold along. rewrite <- (rsum_nth (map Rabs v) (length v)) by apply map_length.
  apply Rle_trans with (rsum (map (fun a => Rabs (comp c a * nth a v 0)) (seq 0 (length v)))).
  - induction (seq 0 (length v)) as [|a l IH]; cbn [map]; [unfold rsum; cbn; rewrite Rabs_R0; lra|]. rewrite !rsum_cons. eapply Rle_trans; [apply Rabs_triang|]. lra.
  - apply rsum_le. intros a Ha. apply in_seq in Ha. rewrite (nth_indep (map Rabs v) 0 (Rabs 0)) by (rewrite map_length; lia). rewrite map_nth, Rabs_mult.
    assert (Rabs (comp c a) <= 1). { unfold comp. destruct (Hc a) as [H1 H2]. apply IZR_le in H1, H2. apply Rabs_le. lra. }
    pose proof (Rabs_pos (nth a v 0)). pose proof (Rabs_pos (comp c a)). nra.
Qed.
Lemma slow_share (second : bool) (c : vec) (v : list R) : (forall a, (-1 <= nth a c 0 <= 1)%Z) -> (if second then square v <= 1 / 3 else rsum (map Rabs v) <= 1 / 3) -> 0 <= share second c v.
Proof.
  intros Hc H. unfold share. destruct second.
  - pose proof (Rle_0_sqr (1 + 3 * along c v)). unfold Rsqr in *. lra.
  - pose proof (along_bound c v Hc) as B. pose proof (Rle_abs (- along c v)) as N. rewrite Rabs_Ropp in N. lra.
Qed.

(* ---------- one cell ---------- *)
Section Cell.
  Context (Q : nat) (q : nat -> R) (omega : R).
  Hypothesis Hq : forall i, (i < Q)%nat -> 0 <= q i.
  Hypothesis H1 : rsum (map q (seq 0 Q)) = 1.
  Hypothesis Ho : 0 <= omega.
  Hypothesis Hs : forall i, (i < Q)%nat -> omega * (1 - q i) <= 1.
  Definition relaxed (h : nat -> R) (i : nat) : R := (1 - omega) * h i + omega * (q i * rsum (map h (seq 0 Q))).
  Lemma relaxed_nonneg h : (forall i, (i < Q)%nat -> 0 <= h i) -> forall i, (i < Q)%nat -> 0 <= relaxed h i.
  Proof.
    clear H1. intros Hh i Hi. unfold relaxed. set (s := rsum (map h (seq 0 Q))).
    assert (h i <= s) by (apply (rsum_member_le h); [intros b Hb; apply in_seq in Hb; apply Hh; lia|apply in_seq; lia]).
    specialize (Hq i Hi). specialize (Hs i Hi). specialize (Hh i Hi).
    replace ((1 - omega) * h i + omega * (q i * s)) with ((1 - omega * (1 - q i)) * h i + omega * q i * (s - h i)) by ring.
    apply Rplus_le_le_0_compat; apply Rmult_le_pos; try lra. apply Rmult_le_pos; lra.
  Qed.
  Lemma relaxed_sum h : rsum (map (relaxed h) (seq 0 Q)) = rsum (map h (seq 0 Q)).
  Proof.
    unfold relaxed. rewrite rsum_plus, !rsum_scal, rsum_scal_r, H1. ring.
  Qed.
  Lemma relaxed_abs h : rsum (map (fun i => Rabs (relaxed h i)) (seq 0 Q)) <= rsum (map (fun i => Rabs (h i)) (seq 0 Q)).
  Proof.
    rewrite <- (relaxed_sum (fun i => Rabs (h i))). apply rsum_le. intros i Hi. apply in_seq in Hi.
    pose proof (relaxed_nonneg (fun i => Rabs (h i) + h i)) as A. pose proof (relaxed_nonneg (fun i => Rabs (h i) - h i)) as B.
    specialize (A (fun j _ => ltac:(pose proof (Rle_abs (- h j)) as T; rewrite Rabs_Ropp in T; lra)) i ltac:(lia)). specialize (B (fun j _ => ltac:(pose proof (Rle_abs (h j)); lra)) i ltac:(lia)).
    unfold relaxed in *. rewrite rsum_plus in A. rewrite rsum_minus in B. apply Rabs_le. split; lra.
  Qed.
End Cell.

Lemma population_sum D S w zc f : isotropic_weights D S w -> length f = length S -> rsum (map (population zc w f) (seq 0 (length S))) = concentration zc f.
Proof.
  intros (Lw & W0 & _) Hf. unfold population, concentration. rewrite rsum_plus, rsum_nth by exact Hf. f_equal. unfold offset. destruct zc; [|apply rsum_zero].
  unfold density in W0. rewrite (fsum_seq w S (fun _ => 1) Lw) in W0. rewrite <- W0. apply rsum_ext. intros; ring.
Qed.
(* ---------- whole simulations ---------- *)
Section Run.
  Context (name ord : string) (L : lattice) (S : stencil) (ws : list Q).
  Hypothesis HSt : predefined_stencils name ord = Ok S.
  Hypothesis HW : get_weights S = Ok ws.
  Hypothesis HSym : symmetric_stencil (ldim L) S.
  Notation w := (map Q2R ws).
  Context (zc second : bool) (fluid : cell L -> bool) (omega : nat -> cell L -> R) (v : nat -> cell L -> list R).
  Context (C : nat -> cell L -> list R -> list R) (B : nat -> cell L -> nat -> brule R).
  Hypothesis HC : forall n x f, length f = length S -> length (C n x f) = length S /\
    forall i, (i < length S)%nat -> population zc w (C n x f) i = (1 - omega n x) * population zc w f i + omega n x * (nth i w 0 * (concentration zc f * share second (nth i S []) (v n x))).
  Hypothesis Hv : forall n x, length (v n x) = dimD S.
  Hypothesis Hadm : forall n x, fluid x = true -> admissible second S w (omega n x) (v n x).
  Notation Qn := (length S).
  Notation F f0 := (post 0 S fluid C B f0).
  Notation G n f := (arriving S fluid (B n) f).
  Notation q n x i := (nth i w 0 * share second (nth i S []) (v n x)).
  Let Hiso : isotropic_weights (dimD S) S w.
  Proof. destruct (weights_isotropic _ _ _ _ HSt HW). assumption. Qed.
  Let Hq n x i : fluid x = true -> (i < Qn)%nat -> 0 <= q n x i.
  Proof. intros Fx Hi. apply Rmult_le_pos; [apply (weights_nonneg S); exact HW|]. destruct (Hadm n x Fx) as [_ H]. apply H. exact Hi. Qed.
  Let Hq1 n x : rsum (map (fun i => q n x i) (seq 0 Qn)) = 1.
  Proof. apply (share_sum (dimD S)); auto. Qed.
  Let Ho n x : fluid x = true -> 0 <= omega n x.
  Proof. intros Fx. apply (Hadm n x Fx). Qed.
  Let Hs n x i : fluid x = true -> (i < Qn)%nat -> omega n x * (1 - q n x i) <= 1.
  Proof. intros Fx Hi. destruct (Hadm n x Fx) as [_ H]. apply H. exact Hi. Qed.
  Lemma F_len f0 : (forall x, length (f0 x) = Qn) -> forall n x, length (F f0 n x) = Qn.
  Proof. intros H n x. apply post_length; auto. intros m y f Hf. apply HC. exact Hf. Qed.
  (* difference of two collided cells *)
  Lemma collided_difference n x f g i : length f = Qn -> length g = Qn -> (i < Qn)%nat ->
    nth i (C n x g) 0 - nth i (C n x f) 0 = relaxed Qn (fun i => q n x i) (omega n x) (fun i => nth i g 0 - nth i f 0) i.
  Proof.
    intros Hf Hg Hi. destruct (HC n x f Hf) as [_ E1]. destruct (HC n x g Hg) as [_ E2]. specialize (E1 i Hi). specialize (E2 i Hi). unfold relaxed. rewrite rsum_minus, !rsum_nth by assumption.
    unfold population, concentration in *. nra.
  Qed.
  Lemma passed_on n x i : passes_on S w fluid (B n) -> is_link S fluid (x, i) ->
    exists y j, fluid y = true /\ (j < Qn)%nat /\ nth j w 0 = nth i w 0 /\ forall f, rule_value S f x (B n x i) = nth j (f y) 0.
  Proof.
    intros HB Hl. destruct (HB x i Hl) as (a & Ea & Ra & Wa & Hb). destruct a as [o j|o j]; cbn [acc_index readable] in *; destruct Ra as (R1 & R2 & R3).
    - exists (shift x o), j. repeat split; auto. intros f'. unfold rule_value. rewrite Ea. cbn [map]. rewrite Hb. reflexivity.
    - exists (shift (shift x o) (vneg (dir S j))), j. repeat split; auto. intros f'. unfold rule_value. rewrite Ea. cbn [map]. rewrite Hb. reflexivity.
  Qed.
  Lemma arriving_cases n x j : passes_on S w fluid (B n) -> fluid x = true -> (j < Qn)%nat ->
    exists y k, fluid y = true /\ (k < Qn)%nat /\ nth k w 0 = nth j w 0 /\ (k = j \/ is_link S fluid (x, opp S j)) /\ forall f, nth j (G n f x) 0 = nth k (f y) 0.
  Proof.
    intros HB Fx Hj. destruct (fluid (shift x (vneg (dir S j)))) eqn:E.
    - exists (shift x (vneg (dir S j))), j. repeat split; auto. intros f. unfold arriving. rewrite nth_map_seq by exact Hj. now rewrite E.
    - assert (Hl : is_link S fluid (x, opp S j)).
      { repeat split; cbn [fst snd]; [exact Fx|apply (opp_lt (ldim L) S HSym j Hj)|]. rewrite (dir_opp (ldim L) S HSym j Hj). exact E. }
      destruct (passed_on n x (opp S j) HB Hl) as (y & k & Fy & Hk & Hw & Hr). exists y, k. repeat split; auto.
      + rewrite Hw. apply (weights_opp (ldim L) S ws j HSym HW Hj).
      + intros f. unfold arriving. rewrite nth_map_seq by exact Hj. rewrite E. apply Hr.
  Qed.

  (* two runs *)
  Lemma comparison f0 g0 : (forall n, passes_on S w fluid (B n)) -> (forall x, length (f0 x) = Qn) -> (forall x, length (g0 x) = Qn) ->
    (forall x i, fluid x = true -> (i < Qn)%nat -> nth i (f0 x) 0 <= nth i (g0 x) 0) ->
    forall n x i, fluid x = true -> (i < Qn)%nat -> nth i (F f0 n x) 0 <= nth i (F g0 n x) 0.
  Proof.
    intros HB Lf Lg H n. induction n as [|n IH]; intros x i Fx Hi; [now apply H|].
    change (nth i (C n x (G n (F f0 n) x)) 0 <= nth i (C n x (G n (F g0 n) x)) 0). apply Rge_le, Rminus_ge, Rle_ge. rewrite collided_difference by (auto using arriving_length).
    apply relaxed_nonneg; auto. intros j Hj. destruct (arriving_cases n x j (HB n) Fx Hj) as (y & k & Fy & Hk & _ & _ & E). rewrite !E. specialize (IH y k Fy Hk). lra.
  Qed.
  (* one run between multiples of a steady state *)
  Lemma envelope (u0 : list R) (sigma c : R) f0 : (forall n, passes_on S w fluid (B n)) -> (forall x, length (f0 x) = Qn) -> length u0 = dimD S ->
    c = 0 \/ ((forall n x, fluid x = true -> v n x = u0) /\ (u0 = repeat 0 (dimD S) \/ forall l : link L, ~ is_link S fluid l)) ->
    (forall x i, fluid x = true -> (i < Qn)%nat -> 0 <= sigma * (population zc w (f0 x) i - c * (nth i w 0 * share second (nth i S []) u0))) ->
    forall n x i, fluid x = true -> (i < Qn)%nat -> 0 <= sigma * (population zc w (F f0 n x) i - c * (nth i w 0 * share second (nth i S []) u0)).
  Proof.
    intros HB Lf Lu Hc H n. induction n as [|n IH]; intros x i Fx Hi; [now apply H|].
    set (g := G n (F f0 n) x). assert (Lg : length g = Qn) by apply arriving_length.
    assert (A : forall j, (j < Qn)%nat -> 0 <= sigma * (population zc w g j - c * (nth j w 0 * share second (nth j S []) u0))).
    { intros j Hj. destruct (arriving_cases n x j (HB n) Fx Hj) as (y & k & Fy & Hk & Wk & Hkj & E). specialize (IH y k Fy Hk).
      unfold population, offset in *. unfold g. rewrite E. rewrite <- Wk. 
      replace (c * (nth k w 0 * share second (nth j S []) u0)) with (c * (nth k w 0 * share second (nth k S []) u0)); [exact IH|].
      destruct Hkj as [->|Hl]; [reflexivity|]. destruct Hc as [->|[_ [->|Hn]]]; [ring|now rewrite !share_zero|now destruct (Hn _ Hl)]. }
    change (F f0 (Datatypes.S n) x) with (C n x g). destruct (HC n x g Lg) as [_ E]. rewrite E by exact Hi.
    pose proof (relaxed_nonneg Qn (fun i => q n x i) (omega n x) (fun i => Hq n x i Fx) (Ho n x Fx) (fun i => Hs n x i Fx) _ A i Hi) as P. unfold relaxed in P.
    rewrite rsum_scal, rsum_minus, rsum_scal, (population_sum _ S w zc g Hiso Lg) in P. rewrite (share_sum (dimD S) S w second u0 Hiso Lu) in P.
    eapply Rle_trans; [exact P|]. right. destruct Hc as [->|[Hv0 _]]; [ring|]. rewrite (Hv0 n x Fx). ring.
  Qed.
  (* distances never grow *)
  Lemma contraction cells links f0 g0 : lists_geometry S fluid cells links -> (forall n x i, is_link S fluid (x, i) -> B n x i = no_slip S i) -> (forall x, length (f0 x) = Qn) -> (forall x, length (g0 x) = Qn) ->
    forall n, distance S cells (F f0 (Datatypes.S n)) (F g0 (Datatypes.S n)) <= distance S cells (F f0 n) (F g0 n).
  Proof.
    intros HG HB Lf Lg n. set (f := F f0 n). set (g := F g0 n). assert (HL := HG). destruct HL as (_ & Hcl & _ & Hlk).
    apply Rle_trans with (distance S cells (G n f) (G n g)).
    - unfold distance. apply rsum_le. intros x Hx. apply Hcl in Hx.
      change (F f0 (Datatypes.S n) x) with (C n x (G n f x)). change (F g0 (Datatypes.S n) x) with (C n x (G n g x)).
      rewrite (rsum_ext _ (fun i => Rabs (relaxed Qn (fun i => q n x i) (omega n x) (fun i => nth i (G n f x) 0 - nth i (G n g x) 0) i))).
      + apply (relaxed_abs Qn (fun i => q n x i)); auto.
      + intros i Hi. apply in_seq in Hi. f_equal. apply collided_difference; auto using arriving_length; lia.
    - set (d := fun x : cell L => map (fun i => Rabs (nth i (f x) 0 - nth i (g x) 0)) (seq 0 Qn)).
      assert (Nd : forall x i, (i < Qn)%nat -> nth i (d x) 0 = Rabs (nth i (f x) 0 - nth i (g x) 0)) by (intros x i Hi; unfold d; now rewrite nth_map_seq).
      pose proof (balance L S fluid cells links (fun x i => no_slip S i) d HSym HG (fun _ => 1)) as Bal. cbv beta in Bal.
      assert (Z : rsum (map (fun l => 1 * rule_value S d (fst l) (no_slip S (snd l)) - 1 * nth (snd l) (d (fst l)) 0) links) = 0).
      { rewrite (rsum_ext _ (fun _ => 0)), rsum_zero; [reflexivity|]. intros [x i] _. cbn [fst snd]. rewrite no_slip_value by exact HSym. ring. }
      rewrite Z, Rplus_0_r in Bal.
      assert (E1 : distance S cells f g = rsum (map (fun x => rsum (map (fun j => 1 * nth j (d x) 0) (seq 0 Qn))) cells)).
      { unfold distance. apply rsum_ext. intros x _. apply rsum_ext. intros j Hj. apply in_seq in Hj. rewrite Nd by lia. ring. }
      rewrite E1, <- Bal. unfold distance. right. apply rsum_ext. intros x Hx. apply Hcl in Hx. apply rsum_ext. intros j Hj. apply in_seq in Hj. rewrite Rmult_1_l. unfold arriving. rewrite !nth_map_seq by lia.
      destruct (fluid (shift x (vneg (dir S j)))) eqn:E; [now rewrite Nd by lia|].
      assert (Hl : is_link S fluid (x, opp S j)) by (repeat split; cbn [fst snd]; [exact Hx|apply (opp_lt (ldim L) S HSym j); lia|rewrite (dir_opp (ldim L) S HSym j) by lia; exact E]).
      rewrite (HB n x _ Hl), !no_slip_value by exact HSym. rewrite Nd; [reflexivity|]. apply (opp_lt (ldim L) S HSym j); lia.
  Qed.
End Run.

Lemma predefined_two name ord S : predefined_stencils name ord = Ok S -> (2 <= length S)%nat.
Proof.
  unfold predefined_stencils. destruct (find _ predefined_table) as [e|] eqn:E; [|discriminate]. intros H. injection H as <-. apply find_some in E as [E _].
  assert (T : forallb (fun e => Nat.leb 2 (length (snd e))) predefined_table = true) by (vm_compute; reflexivity).
  apply Nat.leb_le. exact (proj1 (forallb_forall _ _) T e E).
Qed.
(* every stencil has the axes; some velocity points upstream *)
Definition axis (D a : nat) (s : Z) : vec := map (fun b => if Nat.eqb b a then s else 0%Z) (seq 0 D).
Lemma predefined_axes name ord S a : predefined_stencils name ord = Ok S -> (a < dimD S)%nat -> In (axis (dimD S) a 1) S /\ In (axis (dimD S) a (-1)) S.
Proof.
  unfold predefined_stencils. destruct (find _ predefined_table) as [e|] eqn:E; [|discriminate]. intros H Ha. injection H as <-. apply find_some in E as [E _].
  assert (T : forallb (fun e => forallb (fun a => existsb (vec_eqb (axis (dimD (snd e)) a 1)) (snd e) && existsb (vec_eqb (axis (dimD (snd e)) a (-1))) (snd e)) (seq 0 (dimD (snd e)))) predefined_table = true) by (vm_compute; reflexivity).
  pose proof (proj1 (forallb_forall _ _) (proj1 (forallb_forall _ _) T e E) a ltac:(apply in_seq; lia)) as G. cbn beta in G. apply andb_prop in G as [G1 G2]. split; now apply existsb_vec_In.
Qed.
Lemma along_axis D a s (v : list R) : length v = D -> (a < D)%nat -> along (axis D a s) v = IZR s * nth a v 0.
Proof.
  intros Lv Ha. unfold along. rewrite Lv. rewrite (rsum_ext _ (fun b => (IZR s * nth b v 0) * delta b a)).
  - apply (CollProofs2.rsum_delta (fun b => IZR s * nth b v 0)). exact Ha.
  - intros b Hb. apply in_seq in Hb. unfold comp, axis, delta. rewrite (nth_indep _ 0%Z ((fun b => if Nat.eqb b a then s else 0%Z) 0%nat)) by (rewrite map_length, seq_length; lia).
    rewrite (map_nth (fun b => if Nat.eqb b a then s else 0%Z) (seq 0 D) 0%nat b), seq_nth by lia. cbn [Nat.add]. destruct (Nat.eqb b a); ring.
Qed.
Lemma upstream name ord S (v : list R) a : predefined_stencils name ord = Ok S -> length v = dimD S -> (a < dimD S)%nat -> nth a v 0 <> 0 ->
  exists i, (i < length S)%nat /\ along (nth i S []) v < 0.
Proof.
  intros HS Lv Ha Hv. destruct (predefined_axes name ord S a HS Ha) as [H1 H2]. destruct (Rlt_le_dec (nth a v 0) 0) as [N|N].
  - destruct (In_nth _ _ [] H1) as (i & Hi & E). exists i. split; [exact Hi|]. change (@nth vec) with (@nth (list Z)) in *. rewrite E, (along_axis _ a 1 v Lv Ha). lra.
  - destruct (In_nth _ _ [] H2) as (i & Hi & E). exists i. split; [exact Hi|]. change (@nth vec) with (@nth (list Z)) in *. rewrite E, (along_axis _ a (-1) v Lv Ha). lra.
Qed.
Lemma weights_sum S (w : list R) : length w = length S -> density w S = 1 -> rsum w = 1.
Proof. intros L <-. symmetry. now apply CollProofs.density_rsum. Qed.
