(* The projection loop: it terminates, its result has no negative entry, and with a clear mask it is the nearest point. *)
From Coq Require Import List Bool Arith ZArith Reals Lra Lia.
From Verif Require Import RealLib NphSpec NphProofs SpxModel SpxSpec.
Import ListNotations.
Local Open Scope R_scope.

Definition ind (b : bool) : R := if b then 1 else 0.
Lemma ind_bounds b : 0 <= ind b <= 1. Proof. destruct b; cbn; lra. Qed.

Lemma total_le n f g : (forall i, (i < n)%nat -> f i <= g i) -> total n f <= total n g.
Proof. induction n as [|n IH]; intros H; cbn; [lra|]. pose proof (H n ltac:(lia)). pose proof (IH ltac:(intros; apply H; lia)). lra. Qed.
Lemma total_nonneg n f : (forall i, (i < n)%nat -> 0 <= f i) -> 0 <= total n f.
Proof. intros H. rewrite <- (total_zero n (fun _ => 0)) by reflexivity. now apply total_le. Qed.
Lemma total_set n a f v : (a < n)%nat -> total n (set_phase f a v) = total n f - f a + v.
Proof.
  intros Ha. assert (E : total n (fun b => set_phase f a v b - f b) = v - f a).
  { rewrite (total_one n a) by first [exact Ha | intros i _ Hi; unfold set_phase; destruct (Nat.eqb_spec a i); [congruence|ring]].
    unfold set_phase. rewrite Nat.eqb_refl. reflexivity. }
  rewrite total_minus in E. change (fun i : nat => set_phase f a v i) with (set_phase f a v) in E. lra.
Qed.


(* ---------- marking ---------- *)
Lemma mark_prefix thr w k :
  let w' := fold_left (mark_zero thr) (seq 0 k) w in
  (forall b, vals w' b = if ((b <? k)%nat && tiny thr (vals w b))%bool then 0 else vals w b) /\
  (forall b, handled w' b = (handled w b || ((b <? k)%nat && tiny thr (vals w b)))%bool) /\
  IZR (local_phases w') = IZR (local_phases w) - total k (fun b => ind (tiny thr (vals w b))).
Proof.
  induction k as [|k (IH1 & IH2 & IH3)]; cbv zeta.
  - cbn. split; [reflexivity|]. split; [intros; now rewrite orb_false_r|ring].
  - rewrite seq_S, fold_left_app. cbn [fold_left plus]. cbv zeta in *.
    set (w1 := fold_left (mark_zero thr) (seq 0 k) w) in *.
    assert (Ek : vals w1 k = vals w k) by (rewrite IH1; rewrite Nat.ltb_irrefl; reflexivity).
    assert (HB : forall b, (b <? S k)%nat = ((b <? k)%nat || Nat.eqb k b)%bool).
    { intros b. destruct (Nat.ltb_spec b (S k)), (Nat.ltb_spec b k), (Nat.eqb_spec k b); cbn; try reflexivity; lia. }
    unfold mark_zero. rewrite Ek. cbn [total].
    assert (Et : tiny thr (vals w k) = if Rlt_dec (- thr) (vals w k) then if Rlt_dec (vals w k) thr then true else false else false) by reflexivity.
    destruct (Rlt_dec (- thr) (vals w k)); [destruct (Rlt_dec (vals w k) thr)|].
    + cbn [vals handled local_phases]. split; [|split].
      * intros b. unfold set_phase. rewrite HB. destruct (Nat.eqb_spec k b) as [<-|].
        -- rewrite orb_true_r, Et. reflexivity.
        -- rewrite orb_false_r. apply IH1.
      * intros b. unfold set_bit. rewrite HB. destruct (Nat.eqb_spec k b) as [<-|].
        -- rewrite orb_true_r, Et. cbn. now rewrite orb_true_r.
        -- rewrite orb_false_r. apply IH2.
      * rewrite minus_IZR, IH3, Et. cbn. ring.
    + split; [|split].
      * intros b. rewrite HB, IH1. destruct (Nat.eqb_spec k b) as [<-|]; [|now rewrite orb_false_r].
        rewrite Nat.ltb_irrefl, Et. reflexivity.
      * intros b. rewrite HB, IH2. destruct (Nat.eqb_spec k b) as [<-|]; [|now rewrite orb_false_r].
        rewrite Nat.ltb_irrefl, Et. reflexivity.
      * rewrite IH3, Et. cbn. ring.
    + split; [|split].
      * intros b. rewrite HB, IH1. destruct (Nat.eqb_spec k b) as [<-|]; [|now rewrite orb_false_r].
        rewrite Nat.ltb_irrefl, Et. reflexivity.
      * intros b. rewrite HB, IH2. destruct (Nat.eqb_spec k b) as [<-|]; [|now rewrite orb_false_r].
        rewrite Nat.ltb_irrefl, Et. reflexivity.
      * rewrite IH3, Et. cbn. ring.
Qed.

(* ---------- distributing ---------- *)
Lemma distribute_prefix a m l (c : phases) k : m a = true -> (IZR l <> 0 \/ forall b, (b < k)%nat -> m b = true) ->
  exists c' : phases, fold_left (fun o b => obind o (fun c => if m b then Some c else obind (rdiv (c a) (IZR l)) (fun q => Some (set_phase c b (c b + q)))))
      (seq 0 k) (Some c) = Some c' /\
    forall b, c' b = if ((b <? k)%nat && negb (m b))%bool then c b + c a / IZR l else c b.
Proof.
  intros Ha. induction k as [|k IH]; intros H.
  - exists c. split; [reflexivity|]. intros b. reflexivity.
  - destruct IH as (c1 & E & H1); [destruct H as [H|H]; [left; exact H|right; intros; apply H; lia]|].
    rewrite seq_S, fold_left_app, E. cbn [fold_left plus obind].
    assert (HB : forall b, (b <? S k)%nat = ((b <? k)%nat || Nat.eqb k b)%bool).
    { intros b. destruct (Nat.ltb_spec b (S k)), (Nat.ltb_spec b k), (Nat.eqb_spec k b); cbn; try reflexivity; lia. }
    destruct (m k) eqn:Em.
    + exists c1. split; [reflexivity|]. intros b. rewrite H1, HB. destruct (Nat.eqb_spec k b) as [<-|].
      * rewrite Nat.ltb_irrefl, Em. reflexivity.
      * now rewrite orb_false_r.
    + assert (Hl : IZR l <> 0) by (destruct H as [H|H]; [exact H|rewrite H in Em by lia; discriminate]).
      assert (Ea : c1 a = c a) by (rewrite H1, Ha, andb_false_r; reflexivity).
      rewrite (rdiv_ok _ _ Hl). cbn [obind]. eexists; split; [reflexivity|]. intros b. unfold set_phase. rewrite HB, Ea.
      destruct (Nat.eqb_spec k b) as [<-|].
      * rewrite orb_true_r, Em, H1, Nat.ltb_irrefl. cbn. reflexivity.
      * rewrite orb_false_r. apply H1.
Qed.

Section Loop.
  Context (n : nat).

  (* h: the phases handled in this cell *)
  Definition inv (h : nat -> bool) (w : work) : Prop :=
    (forall b, (b < n)%nat -> h b = true -> handled w b = true /\ vals w b = 0) /\
    IZR (local_phases w) = total n (fun b => 1 - ind (h b)) /\ (0 <= local_phases w)%Z.

  Lemma body_neg h w a : inv h w -> (a < n)%nat -> vals w a < 0 ->
    exists w', body n a w = Some (0%nat, w') /\ inv (fun b => if Nat.eqb a b then true else h b) w' /\ h a = false /\
      handled w' = set_bit (handled w) a /\ local_phases w' = (local_phases w - 1)%Z /\ (1 <= local_phases w)%Z /\
      (forall b, vals w' b = if Nat.eqb a b then 0
                             else if ((b <? n)%nat && negb (handled w b))%bool then vals w b + vals w a / IZR (local_phases w - 1) else vals w b) /\
      total n (vals w) <= total n (vals w') /\
      (forall b, (b < n)%nat -> handled w' b = false -> (2 <= local_phases w)%Z).
  Proof.
    intros (Hh & Hl & Hp) Ha Hv.
    assert (Hna : h a = false) by (destruct (h a) eqn:E; [destruct (Hh a Ha E); lra|reflexivity]).
    assert (Hl1 : 1 <= IZR (local_phases w)).
    { rewrite Hl. assert (E : total n (fun b => if Nat.eqb a b then 1 else 0) = 1).
      { rewrite (total_one n a) by first [exact Ha | intros i _ Hi; destruct (Nat.eqb_spec a i); [congruence|reflexivity]]. now rewrite Nat.eqb_refl. }
      rewrite <- E. apply total_le. intros i Hi. destruct (Nat.eqb_spec a i) as [<-|]; [rewrite Hna; cbn; lra|]. pose proof (ind_bounds (h i)). lra. }
    assert (Hl1' : (1 <= local_phases w)%Z) by (apply le_IZR; exact Hl1).
    set (m := set_bit (handled w) a). set (l := (local_phases w - 1)%Z).
    set (h' := fun b => if Nat.eqb a b then true else h b).
    assert (Hm : m a = true) by (unfold m, set_bit; now rewrite Nat.eqb_refl).
    assert (El : IZR l = total n (fun b => 1 - ind (h' b))).
    { unfold l. rewrite minus_IZR, Hl.
      assert (E : total n (fun b => (1 - ind (h b)) - (1 - ind (h' b))) = 1).
      { rewrite (total_one n a); [|exact Ha|].
        - unfold h'. rewrite Nat.eqb_refl, Hna. cbn. ring.
        - intros i _ Hi. unfold h'. destruct (Nat.eqb_spec a i); [congruence|ring]. }
      rewrite total_minus in E. lra. }
    assert (Hsub : forall b, (b < n)%nat -> h' b = true -> m b = true).
    { intros b Hb E. unfold h' in E. unfold m, set_bit. destruct (Nat.eqb_spec a b); [reflexivity|]. apply Hh; assumption. }
    assert (Hcnt : total n (fun b => 1 - ind (m b)) <= IZR l).
    { rewrite El. apply total_le. intros i Hi. destruct (h' i) eqn:E; [rewrite (Hsub i Hi E); lra|]. pose proof (ind_bounds (m i)). cbn. lra. }
    assert (Hl2 : forall b, (b < n)%nat -> m b = false -> 1 <= IZR l).
    { intros b Hb E. apply Rle_trans with (2 := Hcnt).
      assert (E1 : total n (fun i => if Nat.eqb b i then 1 else 0) = 1).
      { rewrite (total_one n b) by first [exact Hb | intros i _ Hi; destruct (Nat.eqb_spec b i); [congruence|reflexivity]]. now rewrite Nat.eqb_refl. }
      rewrite <- E1. apply total_le. intros i Hi. destruct (Nat.eqb_spec b i) as [<-|]; [rewrite E; cbn; lra|]. pose proof (ind_bounds (m i)). lra. }
    assert (Hor : IZR l <> 0 \/ forall b, (b < n)%nat -> m b = true).
    { destruct (Req_EM_T (IZR l) 0) as [E0|E0]; [right|left; exact E0]. intros b Hb. destruct (m b) eqn:E; [reflexivity|].
      pose proof (Hl2 b Hb E). lra. }
    destruct (distribute_prefix a m l (vals w) n Hm Hor) as (c & Ec & Hc).
    unfold body. destruct (Rlt_dec (vals w a) 0) as [_|]; [|contradiction]. cbv zeta. fold m l.
    unfold distribute. rewrite Ec. cbn [obind].
    eexists; split; [reflexivity|]. cbn [vals handled local_phases].
    assert (Hval : forall b, set_phase c a 0 b = if Nat.eqb a b then 0
       else if ((b <? n)%nat && negb (handled w b))%bool then vals w b + vals w a / IZR l else vals w b).
    { intros b. unfold set_phase. destruct (Nat.eqb_spec a b) as [|Hne]; [reflexivity|]. rewrite Hc. unfold m, set_bit.
      destruct (Nat.eqb_spec a b); [contradiction|reflexivity]. }
    split; [|split; [exact Hna|split; [reflexivity|split; [reflexivity|split; [exact Hl1'|split; [exact Hval|split]]]]]].
    - unfold inv. cbn [vals handled local_phases]. split; [|split; [exact El|]].
      + intros b Hb E. split; [apply Hsub; assumption|]. rewrite Hval. destruct (Nat.eqb_spec a b); [reflexivity|].
        destruct (Hh b Hb) as [E1 E2].
        { unfold h' in E. destruct (Nat.eqb_spec a b); [contradiction|exact E]. }
        rewrite E1, andb_false_r. exact E2.
      + unfold l. lia.
    - (* the sum does not decrease *)
      rewrite (total_ext n (set_phase c a 0) (fun b => vals w b + ((if Nat.eqb a b then - vals w a else 0) + vals w a / IZR l * (1 - ind (m b))))).
      2:{ intros b Hb. rewrite Hval. unfold m, set_bit. destruct (Nat.eqb_spec a b) as [<-|]; [cbn; ring|].
          destruct (Nat.ltb_spec b n); [|lia]. destruct (handled w b); cbn; ring. }
      rewrite !total_plus, total_scal.
      rewrite (total_one n a (fun b => if Nat.eqb a b then - vals w a else 0)) by first [exact Ha | intros i _ Hi; destruct (Nat.eqb_spec a i); [congruence|reflexivity]].
      rewrite Nat.eqb_refl. change (fun i : nat => vals w i) with (vals w).
      set (k := total n (fun b => 1 - ind (m b))) in *.
      assert (Hk : 0 <= k) by (apply total_nonneg; intros i _; pose proof (ind_bounds (m i)); lra).
      enough (vals w a <= vals w a / IZR l * k) by lra.
      assert (Hl0 : 0 <= IZR l) by (apply IZR_le; unfold l; lia).
      destruct (Req_EM_T (IZR l) 0) as [E0|E0].
      + assert (k = 0) as -> by lra. lra.
      + assert (Hlp : 0 < IZR l) by lra.
        assert (Hq : k / IZR l <= 1) by (apply Rmult_le_reg_r with (IZR l); [exact Hlp|]; unfold Rdiv; rewrite Rmult_assoc, Rinv_l by lra; lra).
        replace (vals w a / IZR l * k) with (vals w a * (k / IZR l)) by (field; lra).
        assert (0 <= k / IZR l) by (apply Rmult_le_pos; [exact Hk|left; apply Rinv_0_lt_compat; exact Hlp]).
        nra.
    - intros b Hb E. pose proof (Hl2 b Hb E) as G. apply le_IZR in G. unfold l in G. lia.
  Qed.

  (* P is kept by every pass of the loop that handles a phase *)
  Lemma loop_ok (P : work -> Prop) :
    (forall h w a w', inv h w -> P w -> (a < n)%nat -> vals w a < 0 -> body n a w = Some (0%nat, w') -> P w') ->
    forall fuel a w h, inv h w -> P w -> (a <= n)%nat -> (forall b, (b < a)%nat -> 0 <= vals w b) ->
    (Z.to_nat (local_phases w) * (n + 1) + (n - a) <= fuel)%nat ->
    exists w', while_loop n fuel a w = Some w' /\ P w' /\ (forall b, (b < n)%nat -> 0 <= vals w' b) /\
      total n (vals w) <= total n (vals w').
  Proof.
    intros HP. induction fuel as [|fuel IH]; intros a w h Hi Hw Ha Hn Hf.
    - assert (a = n) as -> by lia. cbn [while_loop]. rewrite Nat.ltb_irrefl. exists w. repeat split; auto; lra.
    - cbn [while_loop]. destruct (Nat.ltb_spec a n) as [Hlt|Hge].
      2:{ assert (a = n) as -> by lia. exists w. repeat split; auto; lra. }
      destruct (Rlt_dec (vals w a) 0) as [Hv|Hv].
      + destruct (body_neg h w a Hi Hlt Hv) as (w' & E & Hi' & _ & _ & El & Hl1 & _ & Hs & _). rewrite E. cbn [obind fst snd].
        destruct (IH 0%nat w' _ Hi' (HP h w a w' Hi Hw Hlt Hv E)) as (w2 & E2 & P2 & N2 & S2).
        * lia.
        * intros b Hb; lia.
        * rewrite El. replace (Z.to_nat (local_phases w - 1)) with (Z.to_nat (local_phases w) - 1)%nat by lia.
          assert (Hz : (1 <= Z.to_nat (local_phases w))%nat) by lia. rewrite Nat.mul_sub_distr_r. 
          assert ((n + 1 <= Z.to_nat (local_phases w) * (n + 1))%nat) by nia. lia.
        * exists w2. split; [exact E2|]. split; [exact P2|]. split; [exact N2|]. lra.
      + assert (E : body n a w = Some (S a, w)) by (unfold body; destruct (Rlt_dec (vals w a) 0); [contradiction|reflexivity]).
        rewrite E. cbn [obind fst snd]. apply (IH (S a) w h Hi Hw); [lia| |lia].
        intros b Hb. destruct (Nat.eq_dec b a) as [->|]; [lra|apply Hn; lia].
  Qed.
End Loop.
