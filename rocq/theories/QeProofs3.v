From Coq Require Import List ZArith Bool Arith Reals Lra Lia.
From Verif Require Import StencilModel StencilProofs RealLib EqModel EqSpec QeModel QeSpec QeProofs QeProofs2.
Import ListNotations.
Local Open Scope R_scope.

Definition resting (d : vec) : bool := forallb (Z.eqb 0) d.
Definition letters (d : vec) : list letter := if resting d then [LA; LD] else [LA; LB; LC; LD].
Lemma resting_etu d u : resting d = true -> e_times_u d u = 0.
Proof.
  unfold resting, e_times_u. revert u. induction d as [|z d IH]; intros u H; [reflexivity|]. cbn [forallb] in H. apply andb_true_iff in H as [Hz H]. apply Z.eqb_eq in Hz. subst z. destruct u as [|x u]; [reflexivity|].
  cbn [combine map fst snd]. change (rsum (?a :: ?l)) with (a + rsum l). rewrite IH by exact H. ring.
Qed.
Lemma candidate_none D d p a k : length d = D -> solve_candidate D d p = (a, None, k) -> resting d = true.
Proof.
  intros Hd H. unfold solve_candidate in H. cbv zeta in H. destruct (find (fun i => negb (Z.eqb (nth i d 0%Z) 0)) (seq 0 D)) as [i|] eqn:Ei.
  - destruct (find (fun j => negb (Nat.eqb i j) && negb (Z.eqb (nth j d 0%Z) 0)) (seq 0 D)); discriminate H.
  - apply forallb_forall. intros z Hz. apply In_nth with (d := 0%Z) in Hz as (i & Hi & <-). pose proof (find_none _ _ Ei i ltac:(apply in_seq; lia)) as F. cbn in F. apply negb_false_iff, Z.eqb_eq in F. rewrite F. reflexivity.
Qed.
Lemma candidate_some D d p a bc k : length d = D -> solve_candidate D d p = (a, Some bc, k) -> resting d = false.
Proof.
  intros Hd H. unfold solve_candidate in H. cbv zeta in H. destruct (find (fun i => negb (Z.eqb (nth i d 0%Z) 0)) (seq 0 D)) as [i|] eqn:Ei; [|discriminate].
  apply find_some in Ei as [Hi Ei]. apply in_seq in Hi. apply negb_true_iff, Z.eqb_neq in Ei. destruct (resting d) eqn:F; [|reflexivity]. unfold resting in F. rewrite forallb_forall in F.
  assert (Hin : In (nth i d 0%Z) d) by (apply nth_In; lia). specialize (F _ Hin). apply Z.eqb_eq in F. congruence.
Qed.
Lemma solve_sound D d p l : length d = D -> in_variables D p -> solve_direction D d p = Ok l ->
  map fst l = map (fun x => (x, abs_sum d)) (letters d) /\ forall g, (forall x v, In (x, v) l -> g x = v) -> forall u, length u = D -> ueval p u = quadratic_form g d u.
Proof.
  intros Hd Hp H. unfold solve_direction in H. cbv zeta in H. destruct (solve_candidate D d p) as [[a [[b c]|]] k] eqn:EC.
  - destruct (solves D d p a b c k) eqn:ES; [|discriminate]. injection H as <-. split; [unfold letters; rewrite (candidate_some D d p a (b, c) k Hd EC); reflexivity|].
    intros g Hg u Hu. rewrite (proj1 (solves_spec D d p a b c k Hd Hp) ES u Hu). unfold quadratic_form. cbv zeta. rewrite (Hg (LA, abs_sum d) a), (Hg (LB, abs_sum d) b), (Hg (LC, abs_sum d) c), (Hg (LD, abs_sum d) k) by (cbn; auto). reflexivity.
  - destruct (solves D d p a 0 0 k) eqn:ES; [|discriminate]. injection H as <-. pose proof (candidate_none D d p a k Hd EC) as R0. split; [unfold letters; rewrite R0; reflexivity|].
    intros g Hg u Hu. rewrite (proj1 (solves_spec D d p a 0 0 k Hd Hp) ES u Hu). unfold quadratic_form. cbv zeta. rewrite (Hg (LA, abs_sum d) a), (Hg (LD, abs_sum d) k), resting_etu by (cbn; auto || exact R0). ring.
Qed.
Lemma solve_complete D d p g : (2 <= D)%nat -> length d = D -> in_variables D p -> (forall u, length u = D -> ueval p u = quadratic_form g d u) ->
  solve_direction D d p = Ok (map (fun x => ((x, abs_sum d), g (x, abs_sum d))) (letters d)).
Proof.
  intros HD Hd Hp H. unfold solve_direction. cbv zeta. unfold quadratic_form in H. cbv zeta in H. rewrite (candidate_found D d p _ _ _ _ HD Hd H). unfold letters. fold (resting d). destruct (resting d) eqn:ER.
  - rewrite (proj2 (solves_spec D d p (g (LA, abs_sum d)) 0 0 (g (LD, abs_sum d)) Hd Hp)); [reflexivity|]. intros u Hu. rewrite (H u Hu), resting_etu by exact ER. ring.
  - rewrite (proj2 (solves_spec D d p (g (LA, abs_sum d)) (g (LB, abs_sum d)) (g (LC, abs_sum d)) (g (LD, abs_sum d)) Hd Hp) H). reflexivity.
Qed.
Lemma solve_error D d p e : solve_direction D d p = Err e -> e = ValueError.
Proof. unfold solve_direction. cbv zeta. destruct (solve_candidate D d p) as [[a [[b c]|]] k]; [destruct (solves D d p a b c k)|destruct (solves D d p a 0 0 k)]; congruence. Qed.

Lemma merge_sound : forall l r r', merge r l = Ok r' -> (forall x v, lookup r x = Some v -> lookup r' x = Some v) /\ (forall x v, In (x, v) l -> lookup r' x = Some v) /\
  (forall x v, lookup r' x = Some v -> lookup r x = Some v \/ In (x, v) l).
Proof.
  induction l as [|[x v] l IH]; intros r r' H; cbn [merge] in H; [injection H as <-; split; [auto|split; [intros ? ? []|auto]]|].
  destruct (lookup r x) as [w|] eqn:EL.
  - destruct (Req_EM_T w v) as [->|]; [|discriminate]. destruct (IH r r' H) as (H1 & H2 & H3). split; [exact H1|split].
    + intros y z [E|Hin]; [injection E as <- <-; apply H1; exact EL|apply H2; exact Hin].
    + intros y z Hy. destruct (H3 y z Hy); auto. right. right. assumption.
  - destruct (IH _ r' H) as (H1 & H2 & H3). split; [|split].
    + intros y z Hy. apply H1. cbn [lookup]. destruct (dof_dec x y) as [->|]; [congruence|exact Hy].
    + intros y z [E|Hin]; [injection E as <- <-; apply H1; cbn [lookup]; destruct (dof_dec x x); [reflexivity|contradiction]|apply H2; exact Hin].
    + intros y z Hy. destruct (H3 y z Hy) as [Hl|Hl]; [|right; right; exact Hl]. cbn [lookup] in Hl. destruct (dof_dec x y) as [->|]; [injection Hl as ->; right; left; reflexivity|left; exact Hl].
Qed.
Lemma merge_complete g : forall l r, extends r g -> (forall x v, In (x, v) l -> g x = v) -> exists r', merge r l = Ok r' /\ extends r' g.
Proof.
  induction l as [|[x v] l IH]; intros r Hr Hl; cbn [merge]; [eauto|]. destruct (lookup r x) as [w|] eqn:EL.
  - destruct (Req_EM_T w v) as [->|Hn]; [apply IH; [exact Hr|intros; apply Hl; right; assumption]|]. exfalso. apply Hn. rewrite <- (Hr x w EL). apply Hl. left. reflexivity.
  - apply IH; [|intros; apply Hl; right; assumption]. intros y z Hy. cbn [lookup] in Hy. destruct (dof_dec x y) as [->|]; [injection Hy as ->; apply Hl; left; reflexivity|apply Hr; exact Hy].
Qed.
Lemma merge_error : forall l r e, merge r l = Err e -> e = ValueError.
Proof. induction l as [|[x v] l IH]; intros r e H; cbn [merge] in H; [discriminate|]. destruct (lookup r x) as [w|]; [destruct (Req_EM_T w v); [eauto|congruence]|eauto]. Qed.

Section Fold.
  Variable D : nat.
  Let step := fun (acc : res (list (dof * R))) (dp : vec * upoly) => rbind acc (fun r => rbind (solve_direction D (fst dp) (snd dp)) (merge r)).
  Lemma fold_err l e : fold_left step l (Err e) = Err e.
  Proof. induction l as [|a l IH]; [reflexivity|exact IH]. Qed.
  Lemma fold_sound : forall l r r', fold_left step l (Ok r) = Ok r' -> (forall x v, lookup r x = Some v -> lookup r' x = Some v) /\
    (forall d p, In (d, p) l -> exists s, solve_direction D d p = Ok s /\ forall x v, In (x, v) s -> lookup r' x = Some v) /\
    (forall x v, lookup r' x = Some v -> lookup r x = Some v \/ exists d p s, In (d, p) l /\ solve_direction D d p = Ok s /\ In (x, v) s).
  Proof.
    induction l as [|[d p] l IH]; intros r r' H; cbn [fold_left] in H; [injection H as <-; split; [auto|split; [intros ? ? []|auto]]|].
    unfold step at 2 in H. cbn [rbind fst snd] in H. destruct (solve_direction D d p) as [s|e] eqn:ES; cbn [rbind] in H; [|rewrite fold_err in H; discriminate].
    destruct (merge r s) as [r1|e] eqn:EM; [|rewrite fold_err in H; discriminate]. destruct (merge_sound s r r1 EM) as (M1 & M2 & M3). destruct (IH r1 r' H) as (H1 & H2 & H3). split; [|split].
    - intros x v Hx. apply H1, M1, Hx.
    - intros d' p' [E|Hin]; [injection E as <- <-; exists s; split; [exact ES|intros x v Hx; apply H1, M2, Hx]|apply H2; exact Hin].
    - intros x v Hx. destruct (H3 x v Hx) as [Hl|(d' & p' & s' & Hin & E & Hs)]; [|right; exists d', p', s'; split; [right; exact Hin|auto]].
      destruct (M3 x v Hl) as [Hr|Hs]; [left; exact Hr|]. right. exists d, p, s. split; [left; reflexivity|auto].
  Qed.
  Lemma fold_complete g : (2 <= D)%nat -> forall l, (forall d p, In (d, p) l -> length d = D /\ in_variables D p /\ forall u, length u = D -> ueval p u = quadratic_form g d u) ->
    forall r, extends r g -> exists r', fold_left step l (Ok r) = Ok r' /\ extends r' g.
  Proof.
    intros HD. induction l as [|[d p] l IH]; intros Hl r Hr; [exists r; auto|]. cbn [fold_left]. unfold step at 2. cbn [rbind fst snd].
    destruct (Hl d p (or_introl eq_refl)) as (H1 & H2 & H3). rewrite (solve_complete D d p g HD H1 H2 H3). cbn [rbind].
    destruct (merge_complete g (map (fun x => ((x, abs_sum d), g (x, abs_sum d))) (letters d)) r Hr) as (r1 & E1 & E2).
    { intros x v Hx. apply in_map_iff in Hx as (y & E & _). injection E as <- <-. reflexivity. }
    rewrite E1. apply IH; [intros; apply Hl; right; assumption|exact E2].
  Qed.
  Lemma fold_error : forall l r e, fold_left step l (Ok r) = Err e -> e = ValueError.
  Proof.
    induction l as [|[d p] l IH]; intros r e H; cbn [fold_left] in H; [discriminate|]. unfold step at 2 in H. cbn [rbind fst snd] in H. destruct (solve_direction D d p) as [s|e'] eqn:ES; cbn [rbind] in H.
    - destruct (merge r s) as [r1|e'] eqn:EM; [eauto|]. rewrite fold_err in H. injection H as <-. eapply merge_error; eauto.
    - rewrite fold_err in H. injection H as <-. eapply solve_error; eauto.
  Qed.
End Fold.

(* moments of polynomials *)
Lemma fsum_eval (g : vec -> R) u : forall S eqs, ueval (flat_map (fun dp => uscale (g (fst dp)) (snd dp)) (combine S eqs)) u = fsum (map (fun p => ueval p u) eqs) S g.
Proof.
  induction S as [|d S IH]; intros eqs; [destruct eqs; reflexivity|]. destruct eqs as [|p eqs]; [reflexivity|]. cbn [combine flat_map fst snd map]. rewrite ueval_app, IH, ueval_scale. unfold fsum. cbn [combine map fst snd].
  change (rsum (?a :: ?l)) with (a + rsum l). ring.
Qed.
Lemma difference_eval S eqs m v u : ueval (moment_difference S eqs m v) u = raw_moment (map (fun p => ueval p u) eqs) S m - ueval v u.
Proof. unfold moment_difference. rewrite ueval_app, ueval_neg, (fsum_eval (fun d => monomial d m)). unfold raw_moment. ring. Qed.
Lemma constraints_spec D S eqs values : (forall p, In p eqs -> in_variables D p) -> (forall mv, In mv values -> in_variables D (snd mv)) ->
  ((forall c, In c (moment_constraints S eqs values) -> c = 0) <-> forall m v, In (m, v) values -> forall u, length u = D -> raw_moment (map (fun p => ueval p u) eqs) S m = ueval v u).
Proof.
  intros He Hv. assert (V : forall m v, In (m, v) values -> in_variables D (moment_difference S eqs m v)).
  { intros m v Hin t Ht. unfold moment_difference in Ht. apply in_app_or in Ht as [Ht|Ht].
    - apply in_flat_map in Ht as ([d p] & Hdp & Ht). apply in_map_iff in Ht as (s & <- & Hs). exact (He p (in_combine_r _ _ _ _ Hdp) s Hs).
    - apply in_map_iff in Ht as (s & <- & Hs). exact (Hv _ Hin s Hs). }
  split.
  - intros H m v Hin u Hu. enough (ueval (moment_difference S eqs m v) u = 0) by (rewrite difference_eval in H0; lra).
    apply (coefficients_zero u (length (moment_difference S eqs m v))); [apply le_n|]. intros e Hec. apply H. unfold moment_constraints. apply in_flat_map. exists (m, v). split; [exact Hin|]. cbn [fst snd]. apply in_map. exact Hec.
  - intros H c Hc. unfold moment_constraints in Hc. apply in_flat_map in Hc as ([m v] & Hin & Hc). cbn [fst snd] in Hc. apply in_map_iff in Hc as (e & <- & Hec).
    apply (zero_polynomial D _ (V m v Hin)).
    + intros u Hu. rewrite difference_eval, (H m v Hin u Hu). ring.
    + apply in_map_iff in Hec as (t & <- & Ht). exact (V m v Hin t Ht).
Qed.

(* moments of the Maxwellian as polynomials *)
Lemma normal_terms_eval cs2 x : forall n, rsum (map (fun t => snd t * x ^ fst t) (normal_terms n cs2)) = normal_moment n x cs2 /\ rsum (map (fun t => snd t * x ^ fst t) (normal_terms (S n) cs2)) = normal_moment (S n) x cs2.
Proof.
  induction n as [|n [IH1 IH2]]; [split; unfold rsum; cbn; ring|]. split; [exact IH2|]. change (normal_terms (S (S n)) cs2) with (map (fun t : nat * R => (S (fst t), snd t)) (normal_terms (S n) cs2) ++ map (fun t : nat * R => (fst t, INR (S n) * cs2 * snd t)) (normal_terms n cs2)).
  rewrite map_app, rsum_app, !map_map. cbn [fst snd].
  rewrite (rsum_ext (fun t => snd t * x ^ S (fst t)) (fun t => x * (snd t * x ^ fst t))) by (intros; cbn [pow]; ring). rewrite (rsum_ext (fun t => INR (S n) * cs2 * snd t * x ^ fst t) (fun t => INR (S n) * cs2 * (snd t * x ^ fst t))) by (intros; ring).
  rewrite !rsum_scal, IH1, IH2. reflexivity.
Qed.
Lemma maxwellian_terms_eval cs2 : forall e u, length e = length u -> ueval (maxwellian_terms e cs2) u = fold_right Rmult 1 (map (fun en => normal_moment (fst en) (snd en) cs2) (combine e u)).
Proof.
  induction e as [|n e IH]; intros u Hu; destruct u as [|x u]; try discriminate; [unfold ueval, rsum; cbn; ring|]. injection Hu as Hu. cbn [maxwellian_terms combine map fold_right fst snd]. rewrite <- (IH u Hu), <- (proj1 (normal_terms_eval cs2 x n)).
  unfold ueval at 1. rewrite rsum_flat. set (M := ueval (maxwellian_terms e cs2) u). rewrite (rsum_ext _ (fun t => M * (snd t * x ^ fst t))); [rewrite rsum_scal; ring|].
  intros t _. rewrite map_map. cbn [fst snd umono]. rewrite (rsum_ext _ (fun s => snd t * x ^ fst t * (snd s * umono (fst s) u))) by (intros; ring). rewrite rsum_scal. unfold M, ueval. ring.
Qed.
Lemma maxwellian_variables cs2 : forall e, in_variables (length e) (maxwellian_terms e cs2).
Proof.
  induction e as [|n e IH]; intros t Ht; [destruct Ht as [<-|[]]; reflexivity|]. cbn [maxwellian_terms] in Ht. apply in_flat_map in Ht as (s & _ & Ht). apply in_map_iff in Ht as (r & <- & Hr). cbn [fst length]. rewrite (IH r Hr). reflexivity.
Qed.
