From Coq Require Import String List ZArith Bool Arith QArith Reals Qreals Lra Lia Permutation.
From Verif Require Import RealLib LinLib StencilModel StencilSpec StencilProofs StencilProofs2 EqModel EqSpec EqProofs CollModel CollSpec CollProofs StreamModel GridModel GridProofs AccessModel AccessProofs StreamProofs ChModel ChSpec ChProofs ChProofs2 CoupModel CoupSpec.
Import ListNotations.
Local Open Scope R_scope.

Lemma entry_ok {A} (l : list A) i d : (i < length l)%nat -> entry l i = Ok (nth i l d).
Proof. intros H. unfold entry. rewrite (nth_error_nth' l d H). reflexivity. Qed.
Lemma entry_inv {A} (l : list A) i a : entry l i = Ok a -> (i < length l)%nat /\ forall d, nth i l d = a.
Proof.
  unfold entry. destruct (nth_error l i) eqn:E; [|discriminate]. intros [= <-]. split; [apply nth_error_Some; congruence|]. intros d. apply nth_error_nth. exact E.
Qed.
Lemma rbind_inv {A B} (r : res A) (k : A -> res B) b : rbind r k = Ok b -> exists a, r = Ok a /\ k a = Ok b.
Proof. destruct r as [a|e]; [|discriminate]. cbn. eauto. Qed.
Lemma mapM_seq_nth {B} (f : nat -> res B) n l d : mapM f (seq 0 n) = Ok l -> length l = n /\ forall i, (i < n)%nat -> f i = Ok (nth i l d).
Proof.
  intros H. pose proof (mapM_Ok_length f _ _ H) as HL. rewrite seq_length in HL. split; [exact HL|]. intros i Hi.
  assert (E : nth_error (seq 0 n) i = Some i) by (rewrite (nth_error_nth' _ 0%nat) by (rewrite seq_length; exact Hi); rewrite seq_nth by exact Hi; reflexivity).
  destruct (mapM_nth f _ _ i i H E) as (b & Hb & E'). rewrite Hb. f_equal. symmetry. apply nth_error_nth. exact E'.
Qed.
Lemma density_sum f : pdf_density false f = rsum f.
Proof. unfold pdf_density. ring. Qed.

Section Pull.
  Context (N : list positive) (S : stencil).
  Notation D := (length N).
  Notation n := (sizeQ S).
  Hypothesis HD : forall q, (q < n)%nat -> length (nth q S []) = D.
  Lemma cell_sum_shift (d : vec) (f : cell (torus N) -> R) : length d = D -> rsum (map (fun x => f (shift x d)) (torus_cells N)) = rsum (map f (torus_cells N)).
  Proof.
    intros Hd. rewrite <- (map_map (fun x => shift x d) f). apply rsum_perm, Permutation_map, NoDup_Permutation_bis.
    - apply FinFun.Injective_map_NoDup; [|apply torus_cells_NoDup]. intros x y E. eapply shift_cancel; [|exact E]. rewrite Hd. unfold torus, grid. cbn [ldim]. unfold torus_shape. now rewrite map_length.
    - rewrite map_length. lia.
    - intros x _. apply torus_cells_all.
  Qed.
  Definition streamed (g : cell (torus N) -> list R) (x : cell (torus N)) : list R := map (fun q => nth q (g (shift x (vneg (nth q S [])))) 0) (seq 0 n).
  Lemma streamed_length g x : length (streamed g x) = n.
  Proof. unfold streamed. now rewrite map_length, seq_length. Qed.
  Lemma pulled_ok f g x : (forall y, f y = Ok (g y)) -> (forall y, length (g y) = n) -> pulled S f x = Ok (streamed g x).
  Proof.
    intros Hf Hg. unfold pulled, streamed. apply mapM_seq_ok. intros q Hq. rewrite Hf. cbn [rbind]. apply entry_ok. rewrite Hg. exact Hq.
  Qed.
  Lemma nth_streamed g x q : (q < n)%nat -> nth q (streamed g x) 0 = nth q (g (shift x (vneg (nth q S [])))) 0.
  Proof.
    intros Hq. set (F := fun q => nth q (g (shift x (vneg (nth q S [])))) 0). change (nth q (map F (seq 0 n)) 0 = F q).
    rewrite (nth_indep _ 0 (F 0%nat)) by (rewrite map_length, seq_length; exact Hq). rewrite map_nth, seq_nth by exact Hq. reflexivity.
  Qed.
  Lemma streamed_sum g h : (forall y, length (g y) = n) -> rsum (map (fun x => fsum (streamed g x) S h) (torus_cells N)) = rsum (map (fun x => fsum (g x) S h) (torus_cells N)).
  Proof.
    intros Hg. rewrite (rsum_ext (fun x => fsum (streamed g x) S h) (fun x => rsum (map (fun q => nth q (g (shift x (vneg (nth q S [])))) 0 * h (nth q S [])) (seq 0 n)))).
    - rewrite (rsum_ext (fun x => fsum (g x) S h) (fun x => rsum (map (fun q => nth q (g x) 0 * h (nth q S [])) (seq 0 n)))) by (intros x _; apply fsum_index, Hg).
      rewrite (rsum_swap (fun x q => nth q (g (shift x (vneg (nth q S [])))) 0 * h (nth q S []))), (rsum_swap (fun x q => nth q (g x) 0 * h (nth q S []))). apply rsum_ext. intros q Hq. apply in_seq in Hq.
      apply (cell_sum_shift (vneg (nth q S [])) (fun y => nth q (g y) 0 * h (nth q S []))). rewrite vneg_length. apply HD. unfold sizeQ in *. lia.
    - intros x _. rewrite fsum_index by apply streamed_length. apply rsum_ext. intros q Hq. apply in_seq in Hq. rewrite nth_streamed by (unfold sizeQ in *; lia). reflexivity.
  Qed.
  Lemma fsum_rsum f : length f = n -> fsum f S (fun _ => 1) = rsum f.
  Proof. intros Hf. rewrite fsum_index by exact Hf. rewrite (rsum_index f), Hf. apply rsum_ext. intros; ring. Qed.
  Lemma streamed_mass g : (forall y, length (g y) = n) -> rsum (map (fun x => rsum (streamed g x)) (torus_cells N)) = rsum (map (fun x => rsum (g x)) (torus_cells N)).
  Proof.
    intros Hg. rewrite (rsum_ext (fun x => rsum (streamed g x)) (fun x => fsum (streamed g x) S (fun _ => 1))) by (intros; symmetry; apply fsum_rsum, streamed_length).
    rewrite streamed_sum by exact Hg. apply rsum_ext. intros x _. apply fsum_rsum, Hg.
  Qed.
  Lemma derivative_total fd a g : derivative_stencil D fd -> (a < D)%nat -> rsum (map (fun x => derivative fd a g x) (torus_cells N)) = 0.
  Proof.
    intros Hfd Ha. destruct (Hfd a Ha) as [H1 H2]. unfold derivative. rewrite (rsum_swap (fun x ow => snd ow * g (shift x (fst ow)))).
    rewrite (rsum_ext _ (fun ow => rsum (map g (torus_cells N)) * snd ow)).
    - rewrite rsum_scal, H2. ring.
    - intros ow Ho. rewrite rsum_scal, (cell_sum_shift (fst ow) g) by (apply H1; exact Ho). ring.
  Qed.
  Lemma derivative_uniform fd a g x : derivative_stencil D fd -> (a < D)%nat -> (forall x y, g x = g y) -> derivative (L := torus N) fd a g x = 0.
  Proof.
    intros Hfd Ha Hg. destruct (Hfd a Ha) as [H1 H2]. unfold derivative. rewrite (rsum_ext _ (fun ow => g x * snd ow)) by (intros ow _; rewrite (Hg (shift x (fst ow)) x); ring).
    rewrite rsum_scal, H2. ring.
  Qed.
End Pull.
