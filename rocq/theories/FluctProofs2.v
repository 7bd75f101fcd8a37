(* Conservation, covariance of the fluctuations and the predefined bases. *)
From Coq Require Import List ZArith QArith Qreals Bool Arith Lia Reals Lra Permutation.
From Verif Require Import StencilModel EqModel RealLib LinLib LinQ TransSpec MomModel ModeModel ModeSpec ModeProofs ModeProofs2 ModeProofs3 ModeProofs4 FluctModel FluctSpec FluctProofs.
Import ListNotations.
Local Open Scope R_scope.

Section Conservation.
  Context (m : fmethod) (Minv : mat) (T c2 : R) (truthy : bool) (amps : list R) (rng : nat -> R) (mains out : list R).
  Let S := f_stencil m.
  Let ms := f_moments m.
  Hypothesis HR : length (f_rates m) = length ms.
  Hypothesis HI : is_inverse (length S) (q2r (qmoment_matrix ms S)) Minv.
  Hypothesis HA : add_fluctuations truthy T amps c2 m Minv rng mains = Ok (Some out).

  Lemma pop_length : length (populations S mains) = length S /\ length (populations S out) = length S.
  Proof.
    destruct (add_inv m Minv T c2 HR HI _ _ _ _ _ HA) as (_ & _ & _ & HL & _). destruct (rest_unchanged m Minv T c2 HR HI _ _ _ _ _ HA) as [L _].
    unfold populations, S. rewrite !firstn_length. lia.
  Qed.
  Lemma conserved_unchanged p : is_conserved p -> In p ms -> raw_moment S (populations S out) p = raw_moment S (populations S mains) p.
  Proof.
    intros Hc Hin. apply In_nth with (d := []) in Hin. destruct Hin as (k & Hk & <-).
    destruct (moment_change m Minv T c2 HR HI _ _ _ _ _ k HA Hk) as (d & E & D). fold S ms in E, D. rewrite E.
    apply in_conserved_spec in Hc. rewrite Hc in D. rewrite D. ring.
  Qed.
  Lemma mass_unchanged : In one ms -> mass (populations S out) = mass (populations S mains).
  Proof. intros H. destruct pop_length as [L1 L2]. rewrite !(mass_moment S) by assumption. apply conserved_unchanged; [apply conserved_one|exact H]. Qed.
  Lemma momentum_unchanged a : Forall (fun c => (a < length c <= 3)%nat) S -> In (coordinate a) ms -> momentum S (populations S out) a = momentum S (populations S mains) a.
  Proof.
    intros HD H. rewrite !momentum_moment by assumption. destruct S as [|c S'] eqn:ES.
    - unfold raw_moment. now rewrite !combine_nil.
    - rewrite <- ES in *. apply conserved_unchanged; [apply conserved_coordinate|exact H]. rewrite ES in HD. inversion HD; lia.
  Qed.
End Conservation.

(* ---- covariance ---- *)
Section Covariance.
  Context (n : nat) (E : ((nat -> R) -> R) -> R) (HE : uniform_numbers n E).
  Lemma E_ext X Y : (forall u, X u = Y u) -> E X = E Y. Proof. apply HE. Qed.
  Lemma E_plus X Y : E (fun u => X u + Y u) = E X + E Y. Proof. apply HE. Qed.
  Lemma E_scal c X : E (fun u => c * X u) = c * E X. Proof. apply HE. Qed.
  Lemma E_one : E (fun _ => 1) = 1. Proof. apply HE. Qed.
  Lemma E_const c : E (fun _ => c) = c.
  Proof. rewrite (E_ext _ (fun _ => c * 1)) by (intros; ring). rewrite (E_scal c (fun _ => 1)), E_one. ring. Qed.
  Lemma E_centered i : (i < n)%nat -> E (fun u => (u i - / 2) * sqrt 12) = 0.
  Proof.
    intros Hi. rewrite (E_ext _ (fun u => sqrt 12 * u i + (- (sqrt 12 / 2)))) by (intros; field).
    rewrite (E_plus (fun u => sqrt 12 * u i) (fun _ => - (sqrt 12 / 2))), E_const, (E_scal (sqrt 12) (fun u => u i)).
    destruct HE as (_ & _ & _ & _ & H & _). rewrite H by exact Hi. field.
  Qed.
  Lemma E_cov i j : (i < n)%nat -> (j < n)%nat ->
    E (fun u => (u i - / 2) * sqrt 12 * ((u j - / 2) * sqrt 12)) = if Nat.eq_dec i j then 1 else 0.
  Proof.
    intros Hi Hj. destruct HE as (_ & _ & _ & _ & H1 & H2 & H3).
    rewrite (E_ext _ (fun u => 12 * (u i * u j) + ((-6) * u i + ((-6) * u j + 3)))).
    2:{ intros u. replace ((u i - / 2) * sqrt 12 * ((u j - / 2) * sqrt 12)) with ((u i - / 2) * (u j - / 2) * (sqrt 12 * sqrt 12)) by ring.
        rewrite sqrt_sqrt by lra. field. }
    rewrite (E_plus (fun u => 12 * (u i * u j)) (fun u => (-6) * u i + ((-6) * u j + 3))), (E_plus (fun u => (-6) * u i) (fun u => (-6) * u j + 3)),
      (E_plus (fun u => (-6) * u j) (fun _ => 3)), (E_scal 12 (fun u => u i * u j)), (E_scal (-6) (fun u => u i)), (E_scal (-6) (fun u => u j)), E_const.
    rewrite !H1 by assumption. destruct (Nat.eq_dec i j) as [->|Hn]; [rewrite H2 by assumption|rewrite H3 by assumption]; lra.
  Qed.

  Context (m : fmethod) (Minv : mat) (T c2 : R) (mains : list R) (out : (nat -> R) -> list R).
  Let S := f_stencil m.
  Let ms := f_moments m.
  Hypothesis HR : length (f_rates m) = length ms.
  Hypothesis HI : is_inverse (length S) (q2r (qmoment_matrix ms S)) Minv.
  Hypothesis Hn : (length (filter (fun p => negb (in_conserved p)) ms) <= n)%nat.
  Hypothesis HA : forall rng, add_fluctuations true T [] c2 m Minv rng mains = Ok (Some (out rng)).
  (* the change of moment k *)
  Let delta (k : nat) (rng : nat -> R) := raw_moment S (populations S (out rng)) (nth k ms []) - raw_moment S (populations S mains) (nth k ms []).

  Lemma delta_spec k rng : (k < length ms)%nat -> delta k rng = if in_conserved (nth k ms []) then 0 else sqrt (radicand m T c2 k) * ((rng (draws ms k) - / 2) * sqrt 12).
  Proof.
    intros Hk. destruct (moment_change m Minv T c2 HR HI _ _ _ _ _ k (HA rng) Hk) as (d & Ed & D). unfold delta. fold S ms in Ed, D. rewrite Ed.
    destruct (in_conserved _); [rewrite D; ring|]. destruct D as (_ & _ & ->). ring.
  Qed.
  Lemma radicand_nonneg k : (k < length ms)%nat -> in_conserved (nth k ms []) = false -> 0 <= radicand m T c2 k.
  Proof.
    intros Hk Hc. destruct (moment_change m Minv T c2 HR HI _ _ _ _ _ k (HA (fun _ => 0)) Hk) as (d & _ & D). fold ms in D. rewrite Hc in D. tauto.
  Qed.
  Lemma draws_n k : (k < length ms)%nat -> in_conserved (nth k ms []) = false -> (draws ms k < n)%nat.
  Proof. intros Hk Hc. pose proof (draws_lt ms k Hk Hc). rewrite draws_all in H. lia. Qed.
  Lemma delta_mean k : (k < length ms)%nat -> E (delta k) = 0.
  Proof.
    intros Hk. rewrite (E_ext _ _ (fun rng => delta_spec k rng Hk)). destruct (in_conserved (nth k ms [])) eqn:Ec; [apply E_const|].
    rewrite (E_scal (sqrt (radicand m T c2 k)) (fun rng => (rng (draws ms k) - / 2) * sqrt 12)), E_centered by (now apply draws_n). ring.
  Qed.
  Lemma delta_cov k l : (k < length ms)%nat -> (l < length ms)%nat ->
    E (fun rng => delta k rng * delta l rng) = if Nat.eq_dec k l then (if in_conserved (nth k ms []) then 0 else radicand m T c2 k) else 0.
  Proof.
    intros Hk Hl. rewrite (E_ext _ (fun rng => (if in_conserved (nth k ms []) then 0 else sqrt (radicand m T c2 k) * ((rng (draws ms k) - / 2) * sqrt 12)) *
      (if in_conserved (nth l ms []) then 0 else sqrt (radicand m T c2 l) * ((rng (draws ms l) - / 2) * sqrt 12)))) by (intros; rewrite !delta_spec by assumption; reflexivity).
    destruct (in_conserved (nth k ms [])) eqn:Ck.
    { rewrite (E_ext _ (fun _ => 0)) by (intros; ring). rewrite E_const. now destruct (Nat.eq_dec k l). }
    destruct (in_conserved (nth l ms [])) eqn:Cl.
    { rewrite (E_ext _ (fun _ => 0)) by (intros; ring). rewrite E_const. destruct (Nat.eq_dec k l) as [->|]; [congruence|reflexivity]. }
    rewrite (E_ext _ (fun rng => sqrt (radicand m T c2 k) * sqrt (radicand m T c2 l) * ((rng (draws ms k) - / 2) * sqrt 12 * ((rng (draws ms l) - / 2) * sqrt 12)))) by (intros; ring).
    rewrite (E_scal (sqrt (radicand m T c2 k) * sqrt (radicand m T c2 l)) (fun rng => (rng (draws ms k) - / 2) * sqrt 12 * ((rng (draws ms l) - / 2) * sqrt 12))), E_cov by (now apply draws_n).
    destruct (Nat.eq_dec k l) as [->|Hne].
    - destruct (Nat.eq_dec (draws ms l) (draws ms l)) as [_|]; [|congruence]. rewrite sqrt_sqrt by (now apply radicand_nonneg). ring.
    - destruct (Nat.eq_dec (draws ms k) (draws ms l)) as [Ed|_]; [|ring]. exfalso. now apply (draws_inj ms k l).
  Qed.
  (* the relaxed equilibrium fluctuations plus the added ones are the equilibrium fluctuations *)
  Lemma balance k l : (k < length ms)%nat -> (l < length ms)%nat -> (forall i, (i < length ms)%nat -> in_conserved (nth i ms []) = true -> nth i (f_rates m) 0 = 0) ->
    let C := mu m T c2 * inner (f_weights m) S (nth k ms []) (nth l ms []) in
    (1 - nth k (f_rates m) 0) * (1 - nth l (f_rates m) 0) * C + E (fun rng => delta k rng * delta l rng) = C.
  Proof.
    intros Hk Hl Hcons C. rewrite delta_cov by assumption. destruct (Nat.eq_dec k l) as [->|Hne].
    - destruct (in_conserved (nth l ms [])) eqn:Cl; [rewrite (Hcons l) by assumption; ring|]. unfold radicand. fold S ms. fold C. ring.
    - destruct (add_inv m Minv T c2 HR HI _ _ _ _ _ (HA (fun _ => 0))) as (_ & _ & Ho & _). apply weighted_orthogonal_spec in Ho.
      unfold C. fold S ms in Ho. rewrite (Ho k l) by assumption. ring.
  Qed.
End Covariance.

(* ---- a distribution with these first and second moments: fair coins at 1/2 +- 1/sqrt 12 ---- *)
Definition ucons (a : R) (u : nat -> R) : nat -> R := fun i => match i with O => a | S i => u i end.
Definition coin_lo : R := / 2 - / sqrt 12.
Definition coin_hi : R := / 2 + / sqrt 12.
Fixpoint coins (n : nat) (X : (nat -> R) -> R) : R :=
  match n with
  | O => X (fun _ => 0)
  | S n => (coins n (fun u => X (ucons coin_lo u)) + coins n (fun u => X (ucons coin_hi u))) / 2
  end.
Lemma coins_ext n : forall X Y, (forall u, X u = Y u) -> coins n X = coins n Y.
Proof. induction n as [|n IH]; intros X Y H; [apply H|]. cbn [coins]. rewrite (IH _ (fun u => Y (ucons coin_lo u))), (IH (fun u => X (ucons coin_hi u)) (fun u => Y (ucons coin_hi u))) by auto. reflexivity. Qed.
Lemma coins_plus n : forall X Y, coins n (fun u => X u + Y u) = coins n X + coins n Y.
Proof. induction n as [|n IH]; intros X Y; [reflexivity|]. cbn [coins]. rewrite (IH (fun u => X (ucons coin_lo u)) (fun u => Y (ucons coin_lo u))), (IH (fun u => X (ucons coin_hi u)) (fun u => Y (ucons coin_hi u))). lra. Qed.
Lemma coins_scal n : forall c X, coins n (fun u => c * X u) = c * coins n X.
Proof. induction n as [|n IH]; intros c X; [reflexivity|]. cbn [coins]. rewrite (IH c (fun u => X (ucons coin_lo u))), (IH c (fun u => X (ucons coin_hi u))). lra. Qed.
Lemma coins_const n c : coins n (fun _ => c) = c.
Proof. induction n as [|n IH]; [reflexivity|]. cbn [coins]. rewrite IH. lra. Qed.
Lemma coin_sum : coin_lo + coin_hi = 1. Proof. unfold coin_lo, coin_hi. lra. Qed.
Lemma coin_sq : coin_lo * coin_lo + coin_hi * coin_hi = 2 / 3.
Proof.
  assert (H : / sqrt 12 * / sqrt 12 = / 12) by (rewrite <- Rinv_mult, sqrt_sqrt by lra; reflexivity).
  unfold coin_lo, coin_hi. revert H. generalize (/ sqrt 12). intros s H. nra.
Qed.
Lemma coins_mean n : forall i, (i < n)%nat -> coins n (fun u => u i) = 1 / 2.
Proof.
  induction n as [|n IH]; intros i Hi; [lia|]. cbn [coins]. destruct i as [|i]; cbn [ucons].
  - rewrite !coins_const. pose proof coin_sum. lra.
  - rewrite IH by lia. lra.
Qed.
Lemma coins_square n : forall i, (i < n)%nat -> coins n (fun u => u i * u i) = 1 / 3.
Proof.
  induction n as [|n IH]; intros i Hi; [lia|]. cbn [coins]. destruct i as [|i]; cbn [ucons].
  - rewrite !coins_const. pose proof coin_sq. lra.
  - rewrite IH by lia. lra.
Qed.
Lemma coins_cov n : forall i j, (i < n)%nat -> (j < n)%nat -> i <> j -> coins n (fun u => u i * u j) = 1 / 4.
Proof.
  induction n as [|n IH]; intros i j Hi Hj Hij; [lia|]. cbn [coins]. pose proof coin_sum. destruct i as [|i], j as [|j]; cbn [ucons]; [congruence| | |].
  - rewrite (coins_scal n coin_lo (fun u => u j)), (coins_scal n coin_hi (fun u => u j)), coins_mean by lia. lra.
  - rewrite (coins_ext n _ (fun u => coin_lo * u i)) by (intros; ring). rewrite (coins_ext n (fun u => u i * coin_hi) (fun u => coin_hi * u i)) by (intros; ring).
    rewrite (coins_scal n coin_lo (fun u => u i)), (coins_scal n coin_hi (fun u => u i)), coins_mean by lia. lra.
  - rewrite IH by lia. lra.
Qed.
Lemma coins_uniform n : uniform_numbers n (coins n).
Proof.
  split; [apply coins_ext|]. split; [apply coins_plus|]. split; [apply coins_scal|]. split; [apply coins_const|]. split; [apply coins_mean|].
  split; [apply coins_square|apply coins_cov].
Qed.

(* ---- the predefined bases ---- *)
Definition qpoly_in (p : qpoly) (l : list qpoly) : bool :=
  existsb (fun q => match list_eq_dec (fun a b : Q * list nat => ltac:(decide equality; [apply list_eq_dec, Nat.eq_dec|decide equality; [apply Pos.eq_dec|apply Z.eq_dec]]) : {a = b} + {a <> b}) q p with left _ => true | _ => false end) l.
Lemma qpoly_in_sound p l : qpoly_in p l = true -> In p l.
Proof. unfold qpoly_in. rewrite existsb_exists. intros (q & Hq & H). destruct (list_eq_dec _ q p) as [->|]; [exact Hq|discriminate]. Qed.
Definition contains_conserved (D : nat) (l : list qpoly) : bool := qpoly_in one l && forallb (fun a => qpoly_in (coordinate a) l) (seq 0 D).
Lemma contains_conserved_sound D l : contains_conserved D l = true -> In one l /\ forall a, (a < D)%nat -> In (coordinate a) l.
Proof.
  unfold contains_conserved. rewrite andb_true_iff, forallb_forall. intros [H1 H2]. split; [now apply qpoly_in_sound|].
  intros a Ha. apply qpoly_in_sound, H2, in_seq. lia.
Qed.
Lemma default_conserved_table : forallb (fun T => forallb (fun b => match orthogonal_default_groups T b with
  | Ok gs => contains_conserved (dimD T) (concat gs) | Err _ => false end) [true; false]) standard_stencils = true.
Proof. vm_compute. reflexivity. Qed.
Lemma literature_conserved_table : forallb (fun T => forallb (fun b => match mrt_orthogonal_modes_literature T b with
  | Ok gs => contains_conserved (dimD T) (map expand (concat gs)) | Err _ => true end) [true; false]) standard_stencils = true.
Proof. vm_compute. reflexivity. Qed.
Lemma default_conserved S b gs : standard S -> orthogonal_default_groups S b = Ok gs ->
  In one (concat gs) /\ forall a, (a < dimD S)%nat -> In (coordinate a) (concat gs).
Proof.
  intros HS H. pose proof HS as HS'. apply standard_perm in HS. destruct HS as (T & HT & HN & HP).
  rewrite (orthogonal_default_perm T S) in H; auto.
  2:{ exists T. split; [exact HT|]. split; [now apply five_nodup|tauto]. }
  pose proof default_conserved_table as B. rewrite forallb_forall in B. specialize (B _ HT). rewrite forallb_forall in B. specialize (B b ltac:(destruct b; cbn; tauto)).
  rewrite H in B. destruct (perm_dim T S HT HP) as [-> _]. now apply contains_conserved_sound.
Qed.
Lemma literature_conserved S b gs : NoDup S -> mrt_orthogonal_modes_literature S b = Ok gs ->
  In one (map expand (concat gs)) /\ forall a, (a < dimD S)%nat -> In (coordinate a) (map expand (concat gs)).
Proof.
  intros HN H. pose proof (literature_standard S b gs HN H) as HS. apply standard_perm in HS. destruct HS as (T & HT & _ & HP).
  rewrite (literature_perm T S) in H by assumption.
  pose proof literature_conserved_table as B. rewrite forallb_forall in B. specialize (B _ HT). rewrite forallb_forall in B. specialize (B b ltac:(destruct b; cbn; tauto)).
  rewrite H in B. destruct (perm_dim T S HT HP) as [-> _]. now apply contains_conserved_sound.
Qed.
