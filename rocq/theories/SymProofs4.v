(* The He force terms under turns; relaxation rates. *)
From Coq Require Import String List ZArith QArith Qreals Bool Arith Reals Lra Lia.
From Verif Require Import StencilModel StencilSpec StencilProofs AccessModel StreamSpec RealLib LinLib TransSpec TransModel TransProofs TransProofs2 MomModel EqModel EqSpec EqProofs CollModel CollSpec CollProofs CollProofs7 BoundProofs SymSpec SymProofs SymProofs2 SymProofs3.
Import ListNotations.
Local Open Scope R_scope.

Definition swap_index (b a : nat) : nat := if Nat.eqb a b then b + 1 else if Nat.eqb a (b + 1) then b else a.
Lemma swap_twice b a : swap_index b (swap_index b a) = a.
Proof. unfold swap_index. destruct (Nat.eqb_spec a b); [subst; destruct (Nat.eqb_spec (b + 1) b); [lia|]; destruct (Nat.eqb_spec (b + 1) (b + 1)); lia|]. destruct (Nat.eqb_spec a (b + 1)); [subst; destruct (Nat.eqb_spec b b); lia|]. destruct (Nat.eqb_spec a b); [lia|]. destruct (Nat.eqb_spec a (b + 1)); lia. Qed.
Lemma exchange_nth {T} (d : T) b l a : (b + 1 < length l)%nat -> nth a (exchange b l) d = nth (swap_index b a) l d.
Proof.
  unfold swap_index. revert a l; induction b as [|b IH]; intros a l H.
  - destruct l as [|x [|y l]]; cbn in H; try lia. destruct a as [|[|a]]; reflexivity.
  - destruct l as [|x l]; [cbn in H; lia|]. destruct a as [|a]; [reflexivity|]. cbn [exchange nth Nat.eqb plus]. rewrite IH by (cbn in H; lia). destruct (Nat.eqb a b); [reflexivity|]. destruct (Nat.eqb a (b + 1)); reflexivity.
Qed.
Lemma exchange_out {T} b (l : list T) : (length l <= b + 1)%nat -> exchange b l = l.
Proof. revert l; induction b as [|b IH]; intros [|x l] H; cbn in *; auto; [destruct l; [reflexivity|cbn in H; lia]|]. rewrite IH by lia. reflexivity. Qed.
Lemma nth_tuple_add a b k : length a = length b -> nth k (tuple_add a b) 0%nat = (nth k a 0 + nth k b 0)%nat.
Proof.
  intros E. unfold tuple_add. revert b k E; induction a as [|x a IH]; intros [|y b] k E; try discriminate; [now destruct k|]. destruct k; [reflexivity|]. cbn [combine map nth]. apply IH. cbn in E; lia.
Qed.
Lemma unit_nth D a k : (a < D)%nat -> nth k (unit_tuple D a) 0%nat = if Nat.eqb k a then 1%nat else 0%nat.
Proof.
  intros Ha. unfold unit_tuple. destruct (Nat.ltb_spec k D) as [H|H].
  - rewrite (nth_indep _ 0%nat ((fun j => if Nat.eqb j a then 1 else 0)%nat 0%nat)) by (rewrite map_length, seq_length; exact H). rewrite (map_nth (fun j => if Nat.eqb j a then 1 else 0)%nat), seq_nth by exact H. reflexivity.
  - rewrite nth_overflow by (rewrite map_length, seq_length; exact H). destruct (Nat.eqb_spec k a); [lia|reflexivity].
Qed.
Lemma unit_length D a : length (unit_tuple D a) = D.
Proof. unfold unit_tuple. now rewrite map_length, seq_length. Qed.
Lemma tuple_add_length a b : length (tuple_add a b) = Nat.min (length a) (length b).
Proof. unfold tuple_add. now rewrite map_length, combine_length. Qed.
Lemma list_nat_ext (a b : list nat) : length a = length b -> (forall k, nth k a 0%nat = nth k b 0%nat) -> a = b.
Proof. intros E H. apply (nth_ext a b 0%nat 0%nat E). intros; apply H. Qed.

Lemma he_act D g u F e : length u = D -> length F = D -> length e = D ->
  he_moment D (act Ropp g u) (act Ropp g F) e = act_sign g e * he_moment D u F (act_exp g e).
Proof.
  intros Hu HF He. unfold he_moment, he_moment_with. rewrite psi_act by congruence. unfold dot at 1. rewrite dot_sum_act by congruence. change (rsum (map (fun p => fst p * snd p) (combine F u))) with (dot F u).
  cut (rsum (map (fun a => nth a (act Ropp g F) 0 * psi_moment 1 (act Ropp g u) (1 / 3) (tuple_add e (unit_tuple D a))) (seq 0 D)) =
       act_sign g e * rsum (map (fun a => nth a F 0 * psi_moment 1 u (1 / 3) (tuple_add (act_exp g e) (unit_tuple D a))) (seq 0 D))); [intros ->; ring|].
  assert (L : forall a, length (tuple_add e (unit_tuple D a)) = D) by (intros; rewrite tuple_add_length, unit_length; lia).
  destruct g as [b|b]; cbn [act act_sign act_exp].
  - rewrite <- rsum_scal. apply rsum_ext. intros a Hin. apply in_seq in Hin. pose proof (psi_act (Reflect b) 1 u (1 / 3) (tuple_add e (unit_tuple D a)) ltac:(rewrite L; exact Hu)) as Hp. cbn [act act_sign act_exp] in Hp. rewrite Hp. rewrite nth_tuple_add by (rewrite unit_length; exact He). rewrite unit_nth by lia.
    assert (E : nth a (at_axis Ropp b F) 0 = if Nat.eqb b a then - nth a F 0 else nth a F 0).
    { clear. revert a F; induction b as [|b IH]; intros [|a] [|x F]; cbn [at_axis nth Nat.eqb]; try reflexivity; try ring. - destruct (Nat.eqb b a); ring. - apply IH. }
    rewrite E. destruct (Nat.eqb b a); rewrite pow_add; cbn [pow]; ring.
  - rewrite Rmult_1_l. destruct (Nat.ltb_spec (b + 1) D) as [H|H].
    + rewrite <- (rsum_reindex (swap_index b) (fun a => nth a F 0 * psi_moment 1 u (1 / 3) (tuple_add (exchange b e) (unit_tuple D a))) (seq 0 D) (seq 0 D)); try apply seq_NoDup.
      * apply rsum_ext. intros a Hin. apply in_seq in Hin. rewrite exchange_nth by lia. pose proof (psi_act (Exchange b) 1 u (1 / 3) (tuple_add e (unit_tuple D a)) ltac:(rewrite L; exact Hu)) as Hp. cbn [act act_sign act_exp] in Hp. rewrite Hp. rewrite Rmult_1_l. f_equal. f_equal.
        apply list_nat_ext; [rewrite exchange_length, L, tuple_add_length, exchange_length, unit_length; lia|]. intros k. rewrite exchange_nth by (rewrite L; exact H). rewrite !nth_tuple_add by (rewrite ?exchange_length, unit_length; exact He). rewrite exchange_nth by lia. f_equal.
        assert (Hs : (swap_index b a < D)%nat). { unfold swap_index. destruct (Nat.eqb a b); [lia|]. destruct (Nat.eqb_spec a (b + 1)); lia. }
        rewrite !unit_nth by lia. destruct (Nat.eqb_spec (swap_index b k) a) as [E|E]; destruct (Nat.eqb_spec k (swap_index b a)) as [E'|E']; auto; exfalso; [apply E'; rewrite <- E; symmetry; apply swap_twice|apply E; rewrite E'; apply swap_twice].
      * intros a Hin. apply in_seq in Hin. apply in_seq. unfold swap_index. destruct (Nat.eqb a b); [lia|]. destruct (Nat.eqb_spec a (b + 1)); lia.
      * intros a a' _ _ E. rewrite <- (swap_twice b a), <- (swap_twice b a'). now rewrite E.
      * intros a Hin. apply in_seq in Hin. exists (swap_index b a). split; [|apply swap_twice]. apply in_seq. unfold swap_index. destruct (Nat.eqb a b); [lia|]. destruct (Nat.eqb_spec a (b + 1)); lia.
    + rewrite !exchange_out by lia. reflexivity.
Qed.
Lemma he_turn w D u F e : length u = D -> length F = D -> length e = D -> he_moment D (turnR w u) (turnR w F) e = turn_sign w e * he_moment D u F (turn_exp w e).
Proof.
  intros Hu HF. revert e; induction w as [|g w IH]; intros e He; [cbn; ring|]. rewrite !turnR_cons, he_act by (auto; now rewrite turnR_length). rewrite IH by (rewrite act_exp_length; exact He). cbn [turn_sign turn_exp]. ring.
Qed.

(* ---- rates ---- *)
Lemma poly_value_ext phi phi' (p : poly) : (forall t, In t p -> phi (snd t) = phi' (snd t)) -> poly_value phi p = poly_value phi' p.
Proof. intros H. unfold poly_value. apply rsum_ext. intros t Ht. now rewrite H. Qed.
Lemma mono_to_poly_terms exps ps P : mono_to_poly exps ps = Ok P -> forall p t, In p ps -> In t p -> In (snd t) exps.
Proof.
  unfold mono_to_poly. revert P; induction ps as [|q ps IH]; intros P H p t Hp Ht; [contradiction|]. cbn [mapM] in H. destruct (mono_to_poly_row exps q) as [row|] eqn:Er; [|discriminate]. cbn [rbind] in H. destruct (mapM (mono_to_poly_row exps) ps) as [P'|] eqn:EP; [|discriminate].
  destruct Hp as [<-|Hp]; [|eapply IH; eauto]. clear -Er Ht. unfold mono_to_poly_row in Er. revert Er. generalize (rzero (length exps)) as r0. induction q as [|[c e] q IH]; intros r0 Er; [contradiction|]. cbn [fold_left rbind fst snd] in Er.
  destruct (tuple_index e exps) as [i|] eqn:Ei.
  - destruct Ht as [<-|Ht]; [cbn; apply tuple_index_nth in Ei; eapply nth_error_In; eauto|]. eapply IH; eauto.
  - exfalso. clear -Er. induction q as [|t q IH]; cbn in Er; [discriminate|auto].
Qed.
Section Span.
  Context (w : list axis_op) (exps : list (list nat)) (ps : list poly) (P Pinv : mat).
  Hypothesis Hnd : NoDup exps.
  Hypothesis Hpn : Forall (fun p : poly => NoDup (map snd p)) ps.
  Hypothesis HP : mono_to_poly exps ps = Ok P.
  Notation n := (length ps).
  Hypothesis HI : is_inverse n P Pinv.
  Hypothesis Le : length exps = n.
  Hypothesis Hcl : forall e, In e exps -> In (turn_exp w e) exps.
  Definition target (j : nat) : nat := match tuple_index (turn_exp w (nth j exps [])) exps with Some i => i | None => 0%nat end.
  Definition span_entry (k l : nat) : R := rsum (map (fun j => nth j (nth k P []) 0 * turn_sign w (nth j exps []) * nth l (nth (target j) Pinv []) 0) (seq 0 n)).
  Lemma row_length (A : mat) k : mat_wf n n A -> (k < n)%nat -> length (nth k A []) = n.
  Proof. intros [L F] Hk. rewrite Forall_forall in F. apply F. apply nth_In. lia. Qed.
  Lemma nth_mv_sum (A : mat) x k : mat_wf n n A -> length x = n -> (k < n)%nat -> nth k (mv A x) 0 = rsum (map (fun j => nth j (nth k A []) 0 * nth j x 0) (seq 0 n)).
  Proof.
    intros W Hx Hk. unfold mv. rewrite (nth_indep _ 0 (dot [] x)) by (rewrite map_length; destruct W; lia). rewrite (map_nth (fun r => dot r x)). rewrite dot_seq by (rewrite (row_length A k W Hk); lia). now rewrite Hx.
  Qed.
  Lemma values_P phi : mv P (map phi exps) = map (poly_value phi) ps.
  Proof. destruct (mono_to_poly_spec exps ps P phi Hnd Hpn HP) as [_ H]. exact H. Qed.
  Lemma monomial_values phi j : (j < n)%nat -> phi (nth j exps []) = rsum (map (fun l => nth l (nth j Pinv []) 0 * poly_value phi (nth l ps [])) (seq 0 n)).
  Proof.
    intros Hj. destruct HI as (W & W' & _ & H2). transitivity (nth j (mv Pinv (mv P (map phi exps))) 0).
    - rewrite H2 by (now rewrite map_length). rewrite (nth_indep _ 0 (phi [])) by (rewrite map_length; lia). now rewrite map_nth.
    - rewrite values_P, nth_mv_sum; [|exact W'|now rewrite map_length|exact Hj]. apply rsum_ext. intros l Hl. apply in_seq in Hl. f_equal. rewrite (nth_indep _ 0 (poly_value phi [])) by (rewrite map_length; lia). now rewrite map_nth.
  Qed.
  Lemma span_turn k q phi : nth_error ps k = Some q -> poly_value phi (turn_poly w q) = rsum (map (fun l => span_entry k l * poly_value phi (nth l ps [])) (seq 0 n)).
  Proof.
    intros Ek. assert (Hk : (k < n)%nat) by (apply nth_error_Some; congruence). pose proof HI as (W & _).
    transitivity (poly_value (fun e => turn_sign w e * phi (turn_exp w e)) q). { unfold poly_value, turn_poly. rewrite map_map. apply rsum_ext. intros t _. cbn [fst snd]. ring. }
    transitivity (nth k (mv P (map (fun e => turn_sign w e * phi (turn_exp w e)) exps)) 0). { rewrite values_P. rewrite (nth_error_nth _ _ _ (map_nth_error (poly_value _) _ _ Ek)). reflexivity. }
    rewrite nth_mv_sum; [|exact W|rewrite map_length; exact Le|exact Hk].
    transitivity (rsum (map (fun j => rsum (map (fun l => nth j (nth k P []) 0 * turn_sign w (nth j exps []) * nth l (nth (target j) Pinv []) 0 * poly_value phi (nth l ps [])) (seq 0 n))) (seq 0 n))).
    - apply rsum_ext. intros j Hj. apply in_seq in Hj. rewrite (nth_error_nth (map (fun e => turn_sign w e * phi (turn_exp w e)) exps) j 0 (map_nth_error (fun e => turn_sign w e * phi (turn_exp w e)) j exps (nth_error_nth' exps [] (n := j) ltac:(lia)))).
      assert (In (turn_exp w (nth j exps [])) exps) as Hin by (apply Hcl, nth_In; lia). destruct (tuple_index_In _ _ Hin) as [i Ei]. pose proof (tuple_index_lt _ _ _ Ei) as Hi. pose proof (tuple_index_nth _ _ _ Ei) as En. apply (nth_error_nth _ _ []) in En.
      unfold target. rewrite Ei. rewrite <- En at 1. rewrite (monomial_values phi i) by lia. rewrite <- !rsum_scal. apply rsum_ext. intros l _. ring.
    - rewrite rsum_swap. apply rsum_ext. intros l _. unfold span_entry. rewrite <- rsum_scal_r. apply rsum_ext. intros j _. ring.
  Qed.
  (* rates which depend only on a class of the monomials that turns keep *)
  Lemma class_rates (cls : list nat -> nat) (r : nat -> R) (d : list R) : (forall e, In e exps -> cls (turn_exp w e) = cls e) ->
    length d = n -> (forall k p t, nth_error ps k = Some p -> In t p -> nth k d 0 = r (cls (snd t)) /\ forall t', In t' p -> cls (snd t') = cls (snd t)) -> (forall p, In p ps -> p <> []) ->
    symmetric_rates w ps d.
  Proof.
    intros Hc Ld Hr Hne. split; [exact Ld|]. set (pc := fun k => match nth k ps [] with t :: _ => cls (snd t) | [] => 0%nat end).
    assert (Hpc : forall k p t, nth_error ps k = Some p -> In t p -> cls (snd t) = pc k).
    { intros k p t Ek Ht. unfold pc. rewrite (nth_error_nth _ _ [] Ek). destruct p as [|t0 p]; [contradiction|]. destruct (Hr k (t0 :: p) t Ek Ht) as [_ H]. symmetry. apply H. now left. }
    exists (fun k l => if Nat.eqb (pc k) (pc l) then span_entry k l else 0). intros k q Ek. assert (Hk : (k < n)%nat) by (apply nth_error_Some; congruence). split.
    - intros phi. set (phi' := fun e => if Nat.eqb (cls e) (pc k) then phi e else 0). transitivity (poly_value phi' (turn_poly w q)).
      + apply poly_value_ext. intros t Ht. unfold turn_poly in Ht. apply in_map_iff in Ht as (t0 & <- & Ht). cbn [snd]. unfold phi'. rewrite Hc by (eapply mono_to_poly_terms; eauto using nth_error_In). rewrite (Hpc k q t0 Ek Ht), Nat.eqb_refl. reflexivity.
      + rewrite (span_turn k q phi' Ek). apply rsum_ext. intros l Hl. apply in_seq in Hl. destruct (nth_error ps l) as [p|] eqn:El; [|apply nth_error_None in El; lia]. rewrite (nth_error_nth _ _ [] El).
        destruct (Nat.eqb_spec (pc k) (pc l)) as [E|E].
        * f_equal. apply poly_value_ext. intros t Ht. unfold phi'. rewrite (Hpc l p t El Ht), E, Nat.eqb_refl. reflexivity.
        * rewrite Rmult_0_l. replace (poly_value phi' p) with 0; [ring|]. symmetry. unfold poly_value. rewrite (rsum_ext _ (fun _ => 0)), rsum_zero; [reflexivity|]. intros t Ht. unfold phi'. rewrite (Hpc l p t El Ht). destruct (Nat.eqb_spec (pc l) (pc k)); [congruence|ring].
    - intros l Hl Ha. destruct (Nat.eqb_spec (pc k) (pc l)) as [E|E]; [|contradiction]. destruct (nth_error ps l) as [p|] eqn:El; [|apply nth_error_None in El; lia].
      assert (Rk : forall k q, nth_error ps k = Some q -> nth k d 0 = r (pc k)).
      { intros k' q' E'. pose proof (Hne q' (nth_error_In _ _ E')). destruct q' as [|t q']; [contradiction|]. destruct (Hr k' (t :: q') t E') as [H1 _]; [now left|]. rewrite H1. f_equal. apply (Hpc k' (t :: q')); [exact E'|now left]. }
      rewrite (Rk l p El), (Rk k q Ek), E. reflexivity.
  Qed.
End Span.
