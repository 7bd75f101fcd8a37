(* The projected cells. *)
From Coq Require Import List Bool Arith ZArith Reals Lra Lia.
From Verif Require Import RealLib NphSpec NphProofs SpxModel SpxSpec SpxProofs.
Import ListNotations.
Local Open Scope R_scope.


Section Projected.
  Context (thr : R) (n : nat) (m : mask) (c : phases).
  Notation start := {| vals := c; handled := m; local_phases := Z.of_nat n |}.
  Notation marked := (mark_zeros thr n start).

  Lemma marked_vals b : (b < n)%nat -> vals marked b = rounded thr c b.
  Proof.
    intros Hb. unfold mark_zeros. destruct (mark_prefix thr start n) as (H & _). rewrite H. cbn [vals].
    destruct (Nat.ltb_spec b n); [|lia]. reflexivity.
  Qed.
  Lemma marked_handled b : (b < n)%nat -> handled marked b = (m b || tiny thr (c b))%bool.
  Proof.
    intros Hb. unfold mark_zeros. destruct (mark_prefix thr start n) as (_ & H & _). rewrite H. cbn [vals handled].
    destruct (Nat.ltb_spec b n); [|lia]. reflexivity.
  Qed.
  Lemma marked_local : IZR (local_phases marked) = total n (fun b => 1 - ind (tiny thr (c b))).
  Proof.
    unfold mark_zeros. destruct (mark_prefix thr start n) as (_ & _ & H). rewrite H. cbn [vals local_phases].
    rewrite total_minus, total_const, <- INR_IZR_INZ. ring.
  Qed.
  Lemma marked_inv : inv n (fun b => tiny thr (c b)) marked.
  Proof.
    split; [|split; [apply marked_local|]].
    - intros b Hb E. rewrite marked_handled, marked_vals by exact Hb. unfold rounded. rewrite E. rewrite orb_true_r. split; reflexivity.
    - apply le_IZR. rewrite marked_local. apply total_nonneg. intros i _. pose proof (ind_bounds (tiny thr (c i))). lra.
  Qed.
  Lemma marked_fuel : (Z.to_nat (local_phases marked) * (n + 1) + (n - 0) <= fuel_bound n)%nat.
  Proof.
    assert (H : (local_phases marked <= Z.of_nat n)%Z).
    { apply le_IZR. rewrite marked_local, <- INR_IZR_INZ. rewrite <- (Rmult_1_r (INR n)), <- total_const.
      apply total_le. intros i _. pose proof (ind_bounds (tiny thr (c i))). lra. }
    destruct marked_inv as (_ & _ & H0). unfold fuel_bound.
    assert (Z.to_nat (local_phases marked) <= n)%nat by lia. nia.
  Qed.

  Lemma project_ok (P : work -> Prop) :
    (forall h w a w', inv n h w -> P w -> (a < n)%nat -> vals w a < 0 -> body n a w = Some (0%nat, w') -> P w') ->
    P marked -> 0 < total n (rounded thr c) ->
    exists w, project_cell thr n m c = Some (fun a => vals w a / total n (vals w), handled w) /\ P w /\
      (forall b, (b < n)%nat -> 0 <= vals w b) /\ total n (rounded thr c) <= total n (vals w).
  Proof.
    intros HP H0 Hs.
    destruct (loop_ok n P HP (fuel_bound n) 0 marked _ marked_inv H0) as (w & E & Hw & Hn & Ht).
    - lia.
    - intros b Hb; lia.
    - apply marked_fuel.
    - rewrite (total_ext n (vals marked) (rounded thr c)) in Ht by (intros; apply marked_vals; assumption).
      exists w. split; [|split; [exact Hw|split; [exact Hn|exact Ht]]].
      unfold project_cell. cbv zeta. rewrite E. cbn [obind]. unfold normalize. cbv zeta. rewrite total_rsum.
      destruct (Req_EM_T (total n (vals w)) 0); [lra|]. reflexivity.
  Qed.

  Lemma normal_simplex (v : nat -> R) : (forall b, (b < n)%nat -> 0 <= v b) -> 0 < total n v -> on_simplex n (fun a => v a / total n v).
  Proof.
    intros Hv Ht. split.
    - intros a Ha. apply Rmult_le_pos; [apply Hv; exact Ha|]. left. now apply Rinv_0_lt_compat.
    - unfold Rdiv. rewrite (total_scal_r n (/ total n v) (fun a => v a)). change (fun a : nat => v a) with v. field. lra.
  Qed.

  Theorem project_simplex : 0 < total n (rounded thr c) ->
    exists y m', project_cell thr n m c = Some (y, m') /\ on_simplex n y.
  Proof.
    intros Hs. destruct (project_ok (fun _ => True)) as (w & E & _ & Hn & Ht); [trivial|trivial|exact Hs|].
    do 2 eexists. split; [exact E|]. apply normal_simplex; [exact Hn|lra].
  Qed.

  Theorem project_zero : (forall b, (b < n)%nat -> tiny thr (c b) = true) -> project_cell thr n m c = None.
  Proof.
    intros H. destruct (loop_ok n (fun w => forall b, (b < n)%nat -> vals w b = 0)) with (fuel := fuel_bound n) (a := 0%nat) (w := marked) (h := fun b => tiny thr (c b))
      as (w & E & Hw & _).
    - intros h w a w' _ Hw Ha Hv. rewrite Hw in Hv by exact Ha. lra.
    - apply marked_inv.
    - intros b Hb. rewrite marked_vals by exact Hb. unfold rounded. rewrite H by exact Hb. reflexivity.
    - lia.
    - intros b Hb; lia.
    - apply marked_fuel.
    - unfold project_cell. cbv zeta. rewrite E. cbn [obind]. unfold normalize. cbv zeta. rewrite total_rsum, total_zero by exact Hw.
      destruct (Req_EM_T 0 0); [reflexivity|contradiction].
  Qed.

  Lemma resolved_rounded b : resolved thr n c -> (b < n)%nat -> rounded thr c b = c b.
  Proof.
    intros Hr Hb. unfold rounded, tiny. destruct (Rlt_dec (- thr) (c b)) as [H1|H1]; [|reflexivity].
    destruct (Rlt_dec (c b) thr) as [H2|H2]; [|reflexivity]. destruct (Hr b Hb) as [E|E]; [now rewrite E|].
    unfold Rabs in E. destruct (Rcase_abs (c b)); lra.
  Qed.

  Theorem project_identity : on_simplex n c -> resolved thr n c ->
    exists y m', project_cell thr n m c = Some (y, m') /\ forall a, (a < n)%nat -> y a = c a.
  Proof.
    intros [Hn Hs] Hr.
    assert (Et : total n (rounded thr c) = 1).
    { rewrite (total_ext n _ c) by (intros; apply resolved_rounded; assumption). exact Hs. }
    destruct (project_ok (fun w => forall b, (b < n)%nat -> vals w b = c b)) as (w & E & Hw & _).
    - intros h w a w' _ Hw Ha Hv. rewrite Hw in Hv by exact Ha. pose proof (Hn a Ha). lra.
    - intros b Hb. rewrite marked_vals by exact Hb. now apply resolved_rounded.
    - lra.
    - do 2 eexists. split; [exact E|]. intros a Ha. cbv beta.
      assert (total n (vals w) = 1) as -> by (rewrite (total_ext n (vals w) c) by exact Hw; exact Hs). rewrite Hw by exact Ha. field.
  Qed.

  (* ---------- clear mask: nearest point ---------- *)
  Definition michelot (w : work) : Prop :=
    exists d, d <= 0 /\
      (forall b, (b < n)%nat -> handled w b = false -> vals w b = c b + d) /\
      (forall b, (b < n)%nat -> handled w b = true -> vals w b = 0 /\ c b + d <= 0) /\
      IZR (local_phases w) = total n (fun b => 1 - ind (handled w b)) /\
      total n (vals w) = 1.

  Lemma michelot_step h w a w' : inv n h w -> michelot w -> (a < n)%nat -> vals w a < 0 -> body n a w = Some (0%nat, w') -> michelot w'.
  Proof.
    intros Hi (d & Hd & H1 & H2 & H3 & H4) Ha Hv E.
    destruct (body_neg n h w a Hi Ha Hv) as (w1 & E1 & _ & _ & Eh & El & Hl & Hval & _ & Hl2). rewrite E in E1. injection E1 as <-.
    assert (Hna : handled w a = false) by (destruct (handled w a) eqn:Ea; [destruct (H2 a Ha Ea); lra|reflexivity]).
    set (l := (local_phases w - 1)%Z) in *.
    assert (Ecnt : IZR l = total n (fun b => 1 - ind (handled w' b))).
    { unfold l. rewrite minus_IZR, H3, Eh.
      assert (G : total n (fun b => (1 - ind (handled w b)) - (1 - ind (set_bit (handled w) a b))) = 1).
      { rewrite (total_one n a); [|exact Ha|].
        - unfold set_bit. rewrite Nat.eqb_refl, Hna. cbn. ring.
        - intros i _ Hne. unfold set_bit. destruct (Nat.eqb_spec a i); [congruence|ring]. }
      rewrite total_minus in G. lra. }
    (* some phase is left: otherwise the sum would be negative *)
    assert (Hlp : 0 < IZR l).
    { assert (0 <= IZR l) by (apply IZR_le; unfold l; lia). destruct (Req_EM_T (IZR l) 0) as [E0|E0]; [|lra]. exfalso.
      assert (Hall : forall b, (b < n)%nat -> b <> a -> vals w b = 0).
      { intros b Hb Hne. destruct (handled w b) eqn:Eb; [apply H2; assumption|]. exfalso.
        assert (handled w' b = false) as Eb' by (rewrite Eh; unfold set_bit; destruct (Nat.eqb_spec a b); [congruence|exact Eb]).
        pose proof (Hl2 b Hb Eb') as G. assert (1 <= l)%Z by (unfold l; lia). apply IZR_le in H0. lra. }
      rewrite (total_one n a) in H4 by assumption. lra. }
    exists (d + vals w a / IZR l).
    assert (Hq : vals w a / IZR l <= 0).
    { unfold Rdiv. assert (0 < / IZR l) by now apply Rinv_0_lt_compat. nra. }
    split; [lra|]. split; [|split; [|split]].
    - intros b Hb E0. rewrite Hval. rewrite Eh in E0. unfold set_bit in E0. destruct (Nat.eqb_spec a b); [discriminate|].
      destruct (Nat.ltb_spec b n); [|lia]. rewrite E0. cbn [andb negb]. rewrite (H1 b Hb E0). ring.
    - intros b Hb E0. rewrite Hval. rewrite Eh in E0. unfold set_bit in E0. destruct (Nat.eqb_spec a b) as [<-|].
      + split; [reflexivity|]. rewrite (H1 a Ha Hna) in Hv. lra.
      + rewrite E0, andb_false_r. destruct (H2 b Hb E0) as [G1 G2]. split; [exact G1|lra].
    - rewrite El. exact Ecnt.
    - rewrite (total_ext n (vals w') (fun b => vals w b + ((if Nat.eqb a b then - vals w a else 0) + vals w a / IZR l * (1 - ind (handled w' b))))).
      2:{ intros b Hb. rewrite Hval, Eh. unfold set_bit. destruct (Nat.eqb_spec a b) as [<-|]; [cbn; ring|].
          destruct (Nat.ltb_spec b n); [|lia]. destruct (handled w b); cbn; ring. }
      rewrite !total_plus, total_scal, <- Ecnt.
      rewrite (total_one n a (fun b => if Nat.eqb a b then - vals w a else 0)) by first [exact Ha | intros i _ Hi'; destruct (Nat.eqb_spec a i); [congruence|reflexivity]].
      rewrite Nat.eqb_refl. change (fun i : nat => vals w i) with (vals w). rewrite H4. field. lra.
  Qed.

  Theorem project_nearest : (forall b, (b < n)%nat -> m b = true -> c b = 0) -> resolved thr n c -> 0 < thr -> total n c = 1 ->
    exists y m', project_cell thr n m c = Some (y, m') /\ nearest n c y.
  Proof.
    intros Hm Hr Hthr Hs.
    assert (Et : total n (rounded thr c) = 1).
    { rewrite (total_ext n _ c) by (intros; apply resolved_rounded; assumption). exact Hs. }
    assert (Htiny : forall b, (b < n)%nat -> tiny thr (c b) = true -> c b = 0).
    { intros b Hb E. pose proof (resolved_rounded b Hr Hb) as G. unfold rounded in G. rewrite E in G. congruence. }
    assert (Hmt : forall b, (b < n)%nat -> m b = true -> tiny thr (c b) = true).
    { intros b Hb E. rewrite (Hm b Hb E). unfold tiny. destruct (Rlt_dec (- thr) 0); [|lra]. destruct (Rlt_dec 0 thr); [reflexivity|lra]. }
    destruct (project_ok michelot michelot_step) as (w & E & (d & Hd & H1 & H2 & _ & H4) & Hn & _).
    - exists 0. split; [lra|]. split; [|split; [|split]].
      + intros b Hb _. rewrite marked_vals, (resolved_rounded b Hr Hb) by exact Hb. ring.
      + intros b Hb E. rewrite marked_handled in E by exact Hb. rewrite marked_vals, (resolved_rounded b Hr Hb) by exact Hb.
        assert (c b = 0) as -> by (apply orb_prop in E as [E|E]; [apply Hm|apply Htiny]; assumption). lra.
      + rewrite marked_local. apply total_ext. intros b Hb. rewrite marked_handled by exact Hb.
        destruct (m b) eqn:Em; [rewrite (Hmt b Hb Em)|]; reflexivity.
      + rewrite (total_ext n _ (rounded thr c)) by (intros; apply marked_vals; assumption). exact Et.
    - lra.
    - do 2 eexists. split; [exact E|].
      assert (Ey : forall a, (a < n)%nat -> vals w a / total n (vals w) = vals w a) by (intros; rewrite H4; field).
      split; [apply normal_simplex; [exact Hn|lra]|].
      intros z [Hz1 Hz2]. unfold dist2.
      set (y := fun a => vals w a / total n (vals w)).
      assert (G : 0 <= total n (fun a => 2 * ((y a - c a) * (z a - y a)))).
      { rewrite total_scal. enough (0 <= total n (fun a => (y a - c a) * (z a - y a))) by lra.
        apply Rle_trans with (total n (fun a => d * (z a - y a))).
        - assert (Hy1 : total n y = 1) by (rewrite (total_ext n y (vals w)) by (intros; apply Ey; assumption); exact H4).
          rewrite total_scal. replace (total n (fun a => z a - y a)) with (total n z - total n y) by (symmetry; apply (total_minus n z y)).
          rewrite Hz2, Hy1. lra.
        - apply total_le. intros b Hb. unfold y. rewrite (Ey b Hb). destruct (handled w b) eqn:Eb.
          + destruct (H2 b Hb Eb) as [-> G]. pose proof (Hz1 b Hb). nra.
          + rewrite (H1 b Hb Eb). lra. }
      rewrite <- total_plus.
      apply Rle_trans with (total n (fun a => ((c a - y a) * (c a - y a) + (y a - z a) * (y a - z a)) + 2 * ((y a - c a) * (z a - y a)))).
      + rewrite (total_plus n (fun a => (c a - y a) * (c a - y a) + (y a - z a) * (y a - z a)) (fun a => 2 * ((y a - c a) * (z a - y a)))). unfold y in *. lra.
      + apply Req_le. apply total_ext. intros. ring.
  Qed.
End Projected.

Theorem cells_simplex thr n : forall cells m, (forall c, In c cells -> 0 < total n (rounded thr c)) ->
  exists ys, project_cells thr n m cells = Some ys /\ length ys = length cells /\ forall y, In y ys -> on_simplex n y.
Proof.
  induction cells as [|c cells IH]; intros m Hc.
  - exists []. split; [reflexivity|]. split; [reflexivity|]. intros y [].
  - destruct (project_simplex thr n m c (Hc c (or_introl eq_refl))) as (y & m' & E & Hy).
    destruct (IH m' (fun d Hd => Hc d (or_intror Hd))) as (ys & E' & Hl & Hys).
    exists (y :: ys). cbn [project_cells]. rewrite E. cbn [obind fst snd]. rewrite E'. cbn [obind].
    split; [reflexivity|]. split; [cbn; now rewrite Hl|]. intros z [<-|Hz]; [exact Hy|apply Hys; exact Hz].
Qed.
