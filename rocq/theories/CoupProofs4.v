From Coq Require Import String List ZArith Bool Arith QArith Reals Qreals Lra Lia Permutation.
From Verif Require Import RealLib LinLib StencilModel StencilSpec StencilProofs StencilProofs2 EqModel EqSpec EqProofs CollModel CollSpec CollProofs StreamModel GridModel GridProofs AccessModel AccessProofs StreamProofs ChModel ChSpec ChProofs ChProofs2 CoupModel CoupSpec CoupProofs CoupProofs2 CoupProofs3.
Import ListNotations.
Local Open Scope R_scope.

Section Sum.
  Variables (name ord : string) (S : stencil).
  Hypothesis HS : predefined_stencils name ord = Ok S.
  Hypothesis HW : has_weights S = true.
  Variables (M Minv : mat).
  Hypothesis HM : is_inverse (sizeQ S) M Minv.
  Notation n := (sizeQ S).
  Definition sum_pops (l : list (list R)) : list R := map (fun q => rsum (map (fun f => nth q f 0) l)) (seq 0 n).
  Lemma sum_pops_length l : length (sum_pops l) = n.
  Proof. unfold sum_pops. now rewrite map_length, seq_length. Qed.
  Lemma nth_sum_pops l q : (q < n)%nat -> nth q (sum_pops l) 0 = rsum (map (fun f => nth q f 0) l).
  Proof.
    intros Hq. set (F := fun q => rsum (map (fun f => nth q f 0) l)). change (nth q (map F (seq 0 n)) 0 = F q).
    rewrite (nth_indep _ 0 (F 0%nat)) by (rewrite map_length, seq_length; exact Hq). rewrite map_nth, seq_nth by exact Hq. reflexivity.
  Qed.
  Lemma sum_pops_cons f l : length f = n -> sum_pops (f :: l) = radd f (sum_pops l).
  Proof.
    intros Hf. assert (La : length (radd f (sum_pops l)) = n) by (rewrite radd_length, sum_pops_length; lia).
    apply (nth_ext _ _ 0 0); [rewrite La; apply sum_pops_length|]. intros q Hq. rewrite sum_pops_length in Hq. rewrite nth_radd by (rewrite sum_pops_length; congruence).
    rewrite !nth_sum_pops by exact Hq. cbn [map]. apply rsum_cons.
  Qed.
  Lemma zero_pops : sum_pops [] = map (fun _ => 0) (seq 0 n).
  Proof. reflexivity. Qed.
  Lemma collision_zero omega v : ch_collision S M Minv omega 1 0 v (sum_pops []) = Ok (sum_pops []).
  Proof.
    assert (Z : forall q, nth q (sum_pops []) 0 = 0) by (intros q; rewrite zero_pops; generalize (seq 0 n); intros l; revert q; induction l as [|a l IH]; intros [|q]; cbn; auto).
    assert (R0 : rsum (sum_pops []) = 0) by (rewrite (rsum_index (sum_pops [])), (rsum_ext _ (fun q => 0 * 0)) by (intros; rewrite Z; ring); rewrite rsum_scal; ring).
    destruct (collision_ok name ord S HS HW M Minv HM omega 1 0 v (sum_pops []) (sum_pops_length [])) as (g & E & L & H). rewrite E. f_equal.
    apply (nth_ext _ _ 0 0); [rewrite L, sum_pops_length; reflexivity|]. intros q Hq. rewrite L in Hq. rewrite H by exact Hq. rewrite Z, R0.
    assert (EQ : eq_pop S 1 0 0 v q = 0); [|rewrite EQ; ring]. unfold eq_pop, ch_equilibrium. destruct (get_weights S) as [ws|e]; [|reflexivity]. cbn [rbind].
    destruct (combine ws S) as [|wd l]; [reflexivity|]. cbn [map].
    assert (T : map (fun wd => ch_term (dimD S) 0 1 0 v (Q2R (fst wd)) (snd wd)) l = map (fun _ => 0) l) by (apply map_ext; intros; apply term_zero). rewrite T.
    assert (Z2 : forall k, nth k (map (fun _ : Q * vec => 0) l) 0 = 0) by (intros k; revert k; clear; induction l as [|a l IH]; intros [|k]; cbn; auto).
    assert (Z3 : rsum (map (fun _ : Q * vec => 0) l) = 0) by (clear; induction l as [|a l IH]; [reflexivity|]; cbn [map]; rewrite rsum_cons, IH; ring).
    destruct q as [|q]; cbn [nth]; [rewrite Z3; ring|apply Z2].
  Qed.
  Lemma collision_sum omega v (l : list (R * R * list R * list R)) :
    (forall g m f h, In (g, m, f, h) l -> length f = n /\ ch_collision S M Minv omega g m v f = Ok h) ->
    ch_collision S M Minv omega 1 (rsum (map (fun p => fst (fst (fst p)) * snd (fst (fst p))) l)) v (sum_pops (map (fun p => snd (fst p)) l)) = Ok (sum_pops (map snd l)).
  Proof.
    induction l as [|[[[g m] f] h] l IH]; intros H; [apply collision_zero|]. cbn [map fst snd]. destruct (H g m f h (or_introl eq_refl)) as [Lf E].
    destruct (collision_mass name ord S HS HW M Minv HM omega g m v f h Lf E) as [Lh _]. rewrite rsum_cons, !sum_pops_cons by assumption.
    rewrite <- (Rmult_1_l (rsum (map _ l))). apply (collision_linear name ord S HS HW M Minv HM); [exact Lf|apply sum_pops_length|exact E|]. apply IH. intros. apply H. right. assumption.
  Qed.
End Sum.
