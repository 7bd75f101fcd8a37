(* Algebra of turns. *)
From Coq Require Import String List ZArith QArith Qreals Bool Arith Reals Lra Lia Permutation.
From Verif Require Import StencilModel StencilSpec StencilProofs StencilProofs2 AccessModel AccessProofs StreamModel StreamSpec RealLib LinLib TransSpec TransModel TransProofs EqModel EqSpec EqProofs CollModel CollSpec CollProofs BoundSpec BoundProofs BoundProofs4 StabProofs2 SymSpec.
Import ListNotations.
Local Open Scope R_scope.

Section Act.
  Context {T : Type} (neg : T -> T).
  Lemma at_axis_length a l : length (at_axis neg a l) = length l.
  Proof. revert l; induction a as [|a IH]; intros [|x l]; cbn; auto. Qed.
  Lemma exchange_length a (l : list T) : length (exchange a l) = length l.
  Proof. revert l; induction a as [|a IH]; intros [|x l]; cbn; auto. destruct l; reflexivity. Qed.
  Lemma act_length g l : length (act neg g l) = length l.
  Proof. destruct g; [apply at_axis_length|apply exchange_length]. Qed.
  Lemma exchange_twice a (l : list T) : exchange a (exchange a l) = l.
  Proof. revert l; induction a as [|a IH]; intros [|x l]; cbn; auto; [destruct l; reflexivity|now rewrite IH]. Qed.
  Hypothesis Hneg : forall x, neg (neg x) = x.
  Lemma at_axis_twice a l : at_axis neg a (at_axis neg a l) = l.
  Proof. revert l; induction a as [|a IH]; intros [|x l]; cbn; auto; [now rewrite Hneg|now rewrite IH]. Qed.
  Lemma act_twice g l : act neg g (act neg g l) = l.
  Proof. destruct g; [apply at_axis_twice|apply exchange_twice]. Qed.
End Act.
Lemma map_at_axis {T U} (h : T -> U) neg neg' a l : (forall x, h (neg x) = neg' (h x)) -> map h (at_axis neg a l) = at_axis neg' a (map h l).
Proof. intros H. revert l; induction a as [|a IH]; intros [|x l]; cbn; auto; [now rewrite H|now rewrite IH]. Qed.
Lemma map_exchange {T U} (h : T -> U) a l : map h (exchange a l) = exchange a (map h l).
Proof. revert l; induction a as [|a IH]; intros [|x l]; cbn; auto; [destruct l; reflexivity|now rewrite IH]. Qed.
Lemma map_act {T U} (h : T -> U) neg neg' g l : (forall x, h (neg x) = neg' (h x)) -> map h (act neg g l) = act neg' g (map h l).
Proof. intros H. destruct g; [now apply map_at_axis|apply map_exchange]. Qed.

Lemma turn_length w v : length (turn w v) = length v.
Proof. induction w as [|g w IH]; [reflexivity|]. cbn [turn fold_right]. rewrite act_length. exact IH. Qed.
Lemma turnR_length w v : length (turnR w v) = length v.
Proof. induction w as [|g w IH]; [reflexivity|]. cbn [turnR fold_right]. rewrite act_length. exact IH. Qed.
Lemma turn_app w w' v : turn (w ++ w') v = turn w (turn w' v).
Proof. unfold turn. apply fold_right_app. Qed.
Lemma turn_cons g w v : turn (g :: w) v = act Z.opp g (turn w v).
Proof. reflexivity. Qed.
Lemma turnR_cons g w v : turnR (g :: w) v = act Ropp g (turnR w v).
Proof. reflexivity. Qed.
Lemma turn_inverse w v : turn w (turn (rev w) v) = v.
Proof.
  revert v; induction w as [|g w IH]; intros v; [reflexivity|]. cbn [rev]. rewrite turn_app, turn_cons, IH. cbn [turn fold_right]. apply act_twice. apply Z.opp_involutive.
Qed.
Lemma turn_back w v : turn (rev w) (turn w v) = v.
Proof. rewrite <- (rev_involutive w) at 2. apply turn_inverse. Qed.
Lemma vecR_turn w v : vecR (turn w v) = turnR w (vecR v).
Proof. induction w as [|g w IH]; [reflexivity|]. rewrite turn_cons, turnR_cons, <- IH. unfold vecR. apply map_act. apply opp_IZR. Qed.
Lemma turn_vneg w v : turn w (vneg v) = vneg (turn w v).
Proof. induction w as [|g w IH]; [reflexivity|]. rewrite !turn_cons, IH. unfold vneg. symmetry. apply map_act. reflexivity. Qed.
Lemma turn_vzero w n : turn w (vzero n) = vzero n.
Proof.
  induction w as [|g w IH]; [reflexivity|]. rewrite turn_cons, IH. unfold vzero. clear. destruct g as [a|a]; cbn [act].
  - revert n; induction a as [|a IH]; intros [|n]; cbn; auto. now rewrite IH.
  - revert n; induction a as [|a IH]; intros [|n]; cbn; auto; [destruct n; reflexivity|now rewrite IH].
Qed.
Lemma turnR_rzero w n : turnR w (rzero n) = rzero n.
Proof.
  induction w as [|g w IH]; [reflexivity|]. rewrite turnR_cons, IH. unfold rzero. clear. destruct g as [a|a]; cbn [act].
  - revert n; induction a as [|a IH]; intros [|n]; cbn; auto; [f_equal; ring|now rewrite IH].
  - revert n; induction a as [|a IH]; intros [|n]; cbn; auto; [destruct n; reflexivity|now rewrite IH].
Qed.
Lemma turn_speed w v : signed_permutation v (turn w v).
Proof.
  unfold signed_permutation. induction w as [|g w IH]; [apply Permutation_refl|]. rewrite turn_cons. eapply Permutation_trans; [exact IH|]. generalize (turn w v). clear. intros l. destruct g as [a|a]; cbn [act].
  - revert l; induction a as [|a IH]; intros [|x l]; cbn [at_axis map]; try apply Permutation_refl; [rewrite Z.abs_opp; apply Permutation_refl|constructor; apply IH].
  - revert l; induction a as [|a IH]; intros [|x l]; cbn [exchange map]; try apply Permutation_refl; [destruct l; [apply Permutation_refl|apply perm_swap]|]. constructor. apply IH.
Qed.
Lemma turn_abs_sum w v : abs_sum (turn w v) = abs_sum v.
Proof.
  unfold abs_sum. pose proof (turn_speed w v) as H. unfold signed_permutation in H. symmetry. induction H; cbn; lia.
Qed.

(* operations on two vectors of the same length *)
Lemma map2_act (h : R -> R -> R) g x y : (forall a b, h (- a) (- b) = - h a b) -> length x = length y ->
  map (fun p => h (fst p) (snd p)) (combine (act Ropp g x) (act Ropp g y)) = act Ropp g (map (fun p => h (fst p) (snd p)) (combine x y)).
Proof.
  intros H. destruct g as [a|a]; cbn [act].
  - revert x y; induction a as [|a IH]; intros [|u x] [|v y] E; try discriminate; cbn; auto; [now rewrite H|]. rewrite IH by (cbn in E; lia). reflexivity.
  - revert x y; induction a as [|a IH]; intros [|u x] [|v y] E; try discriminate; cbn; auto.
    + destruct x, y; try discriminate; reflexivity.
    + rewrite IH by (cbn in E; lia). reflexivity.
Qed.
Lemma turnR_map2 (h : R -> R -> R) w x y : (forall a b, h (- a) (- b) = - h a b) -> length x = length y ->
  map (fun p => h (fst p) (snd p)) (combine (turnR w x) (turnR w y)) = turnR w (map (fun p => h (fst p) (snd p)) (combine x y)).
Proof.
  intros H E. induction w as [|g w IH]; [reflexivity|]. rewrite !turnR_cons, map2_act by (auto; now rewrite !turnR_length). now rewrite IH.
Qed.
Lemma dot_sum_act g x y : length x = length y -> rsum (map (fun p => fst p * snd p) (combine (act Ropp g x) (act Ropp g y))) = rsum (map (fun p => fst p * snd p) (combine x y)).
Proof.
  destruct g as [a|a]; cbn [act].
  - revert x y; induction a as [|a IH]; intros [|u x] [|v y] E; try discriminate; cbn [at_axis combine map]; auto; rewrite !rsum_cons; cbn [fst snd]; [ring|]. rewrite IH by (cbn in E; lia). reflexivity.
  - revert x y; induction a as [|a IH]; intros [|u x] [|v y] E; try discriminate; cbn [exchange combine map]; auto.
    + destruct x, y; try discriminate; [reflexivity|]. cbn [combine map]. rewrite !rsum_cons. ring.
    + rewrite !rsum_cons, IH by (cbn in E; lia). reflexivity.
Qed.
Lemma dot_sum_turn w x y : length x = length y -> rsum (map (fun p => fst p * snd p) (combine (turnR w x) (turnR w y))) = rsum (map (fun p => fst p * snd p) (combine x y)).
Proof. intros E. induction w as [|g w IH]; [reflexivity|]. rewrite !turnR_cons, dot_sum_act by (now rewrite !turnR_length). exact IH. Qed.

(* component a of a turned vector is plus or minus a component, the same one for every vector *)
Lemma act_component g D a : exists s b, forall u, length u = D -> nth a (act Ropp g u) 0 = s * nth b u 0.
Proof.
  destruct g as [c|c]; cbn [act].
  - exists (if Nat.eqb a c then -1 else 1), a. intros u _. revert a u; induction c as [|c IH]; intros [|a] [|x u]; cbn; try ring; try (rewrite <- IH; reflexivity).
    all: destruct (Nat.eqb _ _); ring.
  - destruct (Nat.ltb_spec (c + 1) D) as [H|H].
    + exists 1, (if Nat.eqb a c then c + 1 else if Nat.eqb a (c + 1) then c else a)%nat. intros u Hu. rewrite Rmult_1_l. revert a D u H Hu; induction c as [|c IH]; intros a D u H Hu.
      * destruct u as [|x [|y u]]; cbn in Hu; try lia. destruct a as [|[|a]]; reflexivity.
      * destruct u as [|x u]; [cbn in Hu; lia|]. destruct a as [|a]; [reflexivity|]. cbn [exchange nth Nat.eqb]. rewrite (IH a (D - 1)%nat u) by (cbn in Hu; lia). cbn [plus Nat.eqb]. destruct (Nat.eqb a c); [reflexivity|]. destruct (Nat.eqb a (c + 1)); reflexivity.
    + exists 1, a. intros u Hu. rewrite Rmult_1_l. f_equal. revert D u H Hu; induction c as [|c IH]; intros D u H Hu; destruct u as [|x u]; cbn; auto; [destruct u; [reflexivity|cbn in Hu; lia]|]. rewrite (IH (D - 1)%nat u) by (cbn in Hu; lia). reflexivity.
Qed.
Lemma turn_component w D a : exists s b, forall u, length u = D -> nth a (turnR w u) 0 = s * nth b u 0.
Proof.
  revert a; induction w as [|g w IH]; intros a; [exists 1, a; intros; cbn; ring|]. destruct (act_component g D a) as (s & b & H). destruct (IH b) as (s' & b' & H'). exists (s * s'), b'. intros u Hu. rewrite turnR_cons, H by (now rewrite turnR_length). rewrite H' by exact Hu. ring.
Qed.

(* monomials *)
Lemma act_exp_length g e : length (act_exp g e) = length e.
Proof. destruct g; [reflexivity|apply exchange_length]. Qed.
Lemma turn_exp_length w e : length (turn_exp w e) = length e.
Proof. revert e; induction w as [|g w IH]; intros e; [reflexivity|]. cbn [turn_exp]. rewrite IH. apply act_exp_length. Qed.
Lemma rmono_act g x e : length x = length e -> rmono (act Ropp g x) e = act_sign g e * rmono x (act_exp g e).
Proof.
  destruct g as [a|a]; cbn [act act_sign act_exp].
  - revert x e; induction a as [|a IH]; intros [|u x] [|n e] E; try discriminate; cbn [at_axis rmono nth]; try (cbn; ring).
    + replace (- u) with ((-1) * u) by ring. rewrite Rpow_mult_distr. ring.
    + rewrite IH by (cbn in E; lia). ring.
  - intros E. rewrite Rmult_1_l. revert x e E; induction a as [|a IH]; intros [|u x] [|n e] E; try discriminate; cbn [exchange rmono]; auto.
    + destruct x, e; try discriminate; cbn [rmono]; [reflexivity|ring].
    + rewrite IH by (cbn in E; lia). reflexivity.
Qed.
Lemma rmono_turn w x e : length x = length e -> rmono (turnR w x) e = turn_sign w e * rmono x (turn_exp w e).
Proof.
  revert e; induction w as [|g w IH]; intros e E; [cbn; ring|]. rewrite turnR_cons, rmono_act by (now rewrite turnR_length). rewrite IH by (rewrite act_exp_length; exact E). cbn [turn_sign turn_exp]. ring.
Qed.
Lemma peval_turn w p x : (forall t, In t p -> length (snd t) = length x) -> peval p (turnR w x) = peval (turn_poly w p) x.
Proof.
  intros H. unfold peval, turn_poly. rewrite map_map. apply rsum_ext. intros t Ht. cbn [fst snd]. rewrite rmono_turn by (symmetry; auto). ring.
Qed.

(* ---- stencils ---- *)
Section Stencil.
  Context (D : nat) (S : stencil).
  Hypothesis HS : symmetric_stencil D S.
  Hypothesis Hcl : forall d d', In d S -> signed_permutation d d' -> In d' S.
  Notation Q := (length S).
  Lemma turn_in w c : In c S -> In (turn w c) S.
  Proof. intros H. apply (Hcl c); [exact H|apply turn_speed]. Qed.
  Definition slot (w : list axis_op) (i : nat) : nat := match index_of (turn w (dir S i)) S with Some k => k | None => i end.
  Lemma slot_spec w i : (i < Q)%nat -> (slot w i < Q)%nat /\ dir S (slot w i) = turn w (dir S i).
  Proof.
    intros Hi. unfold slot. destruct (index_of_In (turn w (dir S i)) S) as [k Hk]; [apply turn_in, nth_In; exact Hi|]. rewrite Hk. split; [eapply index_of_lt; eauto|]. apply index_of_Some in Hk. unfold dir. now apply nth_error_nth.
  Qed.
  Lemma dir_injective i j : (i < Q)%nat -> (j < Q)%nat -> dir S i = dir S j -> i = j.
  Proof. intros Hi Hj E. destruct HS as (_ & Hnd & _). apply (proj1 (NoDup_nth S []) Hnd); assumption. Qed.
  Lemma slot_unique w i j : (i < Q)%nat -> (j < Q)%nat -> dir S j = turn w (dir S i) -> j = slot w i.
  Proof. intros Hi Hj E. destruct (slot_spec w i Hi) as [H1 H2]. apply dir_injective; auto. congruence. Qed.
  Lemma slot_back w i : (i < Q)%nat -> slot (rev w) (slot w i) = i.
  Proof. intros Hi. destruct (slot_spec w i Hi) as [H1 H2]. symmetry. apply slot_unique; auto. rewrite H2. symmetry. apply turn_back. Qed.
  Lemma slot_forth w i : (i < Q)%nat -> slot w (slot (rev w) i) = i.
  Proof. intros Hi. rewrite <- (rev_involutive w) at 1. apply slot_back. exact Hi. Qed.
  Lemma slot_sum w (h : nat -> R) : rsum (map (fun i => h (slot w i)) (seq 0 Q)) = rsum (map h (seq 0 Q)).
  Proof.
    apply (rsum_reindex (slot w) h); try apply seq_NoDup.
    - intros i Hi. apply in_seq in Hi. apply in_seq. pose proof (proj1 (slot_spec w i ltac:(lia))). lia.
    - intros i j Hi Hj E. apply in_seq in Hi, Hj. rewrite <- (slot_back w i), <- (slot_back w j) by lia. now rewrite E.
    - intros j Hj. apply in_seq in Hj. exists (slot (rev w) j). split; [apply in_seq; pose proof (proj1 (slot_spec (rev w) j ltac:(lia))); lia|]. apply slot_forth. lia.
  Qed.
  Lemma turned_nth w f f' i : turned w S f f' -> (i < Q)%nat -> nth (slot w i) f' 0 = nth i f 0.
  Proof. intros (_ & _ & H) Hi. destruct (slot_spec w i Hi). apply H; auto. Qed.
  Lemma turned_intro w f f' : length f = Q -> length f' = Q -> (forall i, (i < Q)%nat -> nth (slot w i) f' 0 = nth i f 0) -> turned w S f f'.
  Proof. intros H1 H2 H. split; [exact H1|]. split; [exact H2|]. intros i j Hi Hj E. rewrite (slot_unique w i j Hi Hj E). auto. Qed.
  Lemma turned_exists w f : length f = Q -> exists f', turned w S f f'.
  Proof.
    intros Hf. exists (map (fun j => nth (slot (rev w) j) f 0) (seq 0 Q)). apply turned_intro; [exact Hf|now rewrite map_length, seq_length|]. intros i Hi. rewrite nth_map_seq by (apply slot_spec; exact Hi). now rewrite slot_back.
  Qed.
  Lemma turned_fsum w f f' h : turned w S f f' -> fsum f' S h = fsum f S (fun c => h (turn w c)).
  Proof.
    intros H. pose proof H as (L1 & L2 & _). rewrite !fsum_seq by auto. rewrite <- (slot_sum w (fun j => nth j f' 0 * h (nth j S []))). apply rsum_ext. intros i Hi. apply in_seq in Hi.
    rewrite (turned_nth w f f' i H) by lia. f_equal. f_equal. apply slot_spec. lia.
  Qed.
  Lemma turned_unique w f f1 f2 : turned w S f f1 -> turned w S f f2 -> f1 = f2.
  Proof.
    intros H1 H2. pose proof H1 as (_ & L1 & _). pose proof H2 as (_ & L2 & _). apply list_ext; [congruence|]. intros j Hj. rewrite <- (slot_forth w j) by lia. pose proof (proj1 (slot_spec (rev w) j ltac:(lia))). now rewrite (turned_nth w f f1), (turned_nth w f f2).
  Qed.
  Lemma turned_radd w f f' g g' : turned w S f f' -> turned w S g g' -> turned w S (radd f g) (radd f' g').
  Proof.
    intros H1 H2. pose proof H1 as (A1 & A2 & _). pose proof H2 as (B1 & B2 & _). apply turned_intro; [rewrite radd_length; lia|rewrite radd_length; lia|]. intros i Hi. pose proof (proj1 (slot_spec w i Hi)).
    rewrite !nth_radd by lia. now rewrite (turned_nth w f f'), (turned_nth w g g').
  Qed.
  (* populations computed from the direction *)
  Lemma turned_weights w ws : get_weights S = Ok ws -> turned w S (map Q2R ws) (map Q2R ws).
  Proof.
    intros HW. assert (L : length (map Q2R ws) = Q) by (rewrite map_length; apply (mapM_Ok_length _ _ _ HW)). apply turned_intro; auto. intros i Hi. destruct (slot_spec w i Hi). apply (weights_speed S ws); auto. rewrite H0. apply turn_abs_sum.
  Qed.
  Lemma turned_rzero w : turned w S (rzero Q) (rzero Q).
  Proof. apply turned_intro; try apply rzero_length. intros. now rewrite !nth_rzero. Qed.
  Lemma turned_density w f f' : turned w S f f' -> density f' S = density f S.
  Proof. intros H. unfold density. now rewrite (turned_fsum w f f' _ H). Qed.
  Lemma turned_momentum w f f' : turned w S f f' -> map (momentum f' S) (seq 0 D) = turnR w (map (momentum f S) (seq 0 D)).
  Proof.
    intros H. apply list_ext; [rewrite turnR_length, !map_length; reflexivity|]. intros a Ha. rewrite map_length, seq_length in Ha. rewrite nth_map_seq by exact Ha.
    destruct (turn_component w D a) as (s & b & Hc). rewrite Hc by (rewrite map_length, seq_length; reflexivity). unfold momentum at 1. rewrite (turned_fsum w f f' _ H).
    assert (E : forall c, In c S -> comp (turn w c) a = s * nth b (vecR c) 0).
    { intros c Hin. rewrite <- Hc by (unfold vecR; rewrite map_length; apply HS; exact Hin). rewrite <- vecR_turn. unfold comp, vecR. now rewrite (map_nth IZR _ 0%Z). }
    destruct (Nat.ltb_spec b D) as [Hb|Hb].
    - rewrite nth_map_seq by exact Hb. unfold momentum. pose proof H as (L1 & _). rewrite !fsum_seq by exact L1. rewrite <- rsum_scal. apply rsum_ext. intros i Hi. apply in_seq in Hi. rewrite E by (apply nth_In; lia). unfold comp, vecR. rewrite (map_nth IZR _ 0%Z). ring.
    - rewrite (nth_overflow (map _ _)) by (rewrite map_length, seq_length; exact Hb). pose proof H as (L1 & _). rewrite !fsum_seq by exact L1. rewrite Rmult_0_r. rewrite (rsum_ext _ (fun _ => 0)), rsum_zero; [reflexivity|].
      intros i Hi. apply in_seq in Hi. rewrite E by (apply nth_In; lia). rewrite (nth_overflow (vecR _)) by (unfold vecR; rewrite map_length, (proj1 (proj2 (proj2 HS)) (nth i S [])) by (apply nth_In; lia); exact Hb). ring.
  Qed.
End Stencil.
