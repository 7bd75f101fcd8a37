From Coq Require Import String List ZArith Bool Arith QArith Reals Qreals Lra Lia Permutation.
From Verif Require Import RealLib LinLib StencilModel StencilSpec StencilProofs StencilProofs2 EqModel EqSpec EqProofs CollModel CollSpec CollProofs StreamModel GridModel GridProofs AccessModel AccessProofs StreamProofs ChModel ChSpec ChProofs ChProofs2 CoupModel CoupSpec CoupProofs CoupProofs2.
Import ListNotations.
Local Open Scope R_scope.

(* interfacial chemical potentials cancel pairwise *)
Lemma antisymmetric_total n (t : nat -> nat -> R) : (forall i k, t i k = - t k i) -> rsum (map (fun i => rsum (map (t i) (seq 0 n))) (seq 0 n)) = 0.
Proof.
  intros H. assert (E : rsum (map (fun i => rsum (map (t i) (seq 0 n))) (seq 0 n)) = - rsum (map (fun i => rsum (map (t i) (seq 0 n))) (seq 0 n))); [|lra].
  rewrite (rsum_swap t) at 1. rewrite <- (Rmult_1_l (rsum (map (fun i => rsum (map (t i) (seq 0 n))) (seq 0 n)))), Ropp_mult_distr_l, <- rsum_scal. apply rsum_ext. intros k _. rewrite <- rsum_scal. apply rsum_ext. intros i _. rewrite (H i k). ring.
Qed.
Lemma interfacial_total n alpha eps c lap : rsum (map (interfacial_potential n alpha eps c lap) (seq 0 n)) = 0.
Proof.
  unfold interfacial_potential. set (t := fun i k : nat => if Nat.eqb i k then 0 else alpha ^ 2 * (if (i <? k)%nat then eps k i else eps i k) ^ 2 * (nth k c 0 * nth i lap 0 - nth i c 0 * nth k lap 0)).
  rewrite (rsum_ext _ (fun i => -1 * rsum (map (t i) (seq 0 n)))) by (intros; unfold t; ring). rewrite rsum_scal, antisymmetric_total; [ring|].
  intros i k. unfold t. destruct (Nat.eqb_spec i k) as [->|Hn]; [rewrite Nat.eqb_refl; ring|]. destruct (Nat.eqb_spec k i); [congruence|].
  destruct (Nat.ltb_spec i k), (Nat.ltb_spec k i); try lia; ring.
Qed.

Section Given.
  Variables (name ord : string) (S : stencil).
  Hypothesis HS : predefined_stencils name ord = Ok S.
  Hypothesis HW : has_weights S = true.
  Variables (M Minv : mat).
  Hypothesis HM : is_inverse (sizeQ S) M Minv.
  Notation n := (sizeQ S).
  Lemma given_ok omega gamma mu rho v f : length f = n -> exists g, ch_collision_given S M Minv omega gamma mu rho v f = Ok g /\ length g = n /\ rsum g = rsum f + omega * (rho - rsum f).
  Proof.
    intros Hf. unfold ch_collision_given. destruct (eq_ok name ord S HS HW gamma mu rho v) as (e & He & Hl). rewrite He. cbn [rbind]. rewrite (relaxed S M Minv HM) by assumption. eexists. split; [reflexivity|].
    assert (Hr : length (rscal omega (rsub e f)) = n) by (rewrite rscal_length, rsub_length; lia). split; [rewrite radd_length; lia|].
    rewrite (rsum_index (radd _ _)), radd_length by congruence. rewrite Hf, (rsum_ext _ (fun q => nth q f 0 + omega * (eq_pop S gamma mu rho v q - nth q f 0))).
    - rewrite rsum_plus, rsum_scal, rsum_minus. rewrite Hr, Nat.min_id, (eq_pop_sum name ord S HS HW). rewrite (rsum_index f), Hf. ring.
    - intros q Hq. rewrite nth_radd, nth_rscal, nth_rsub by congruence. unfold eq_pop. rewrite He. reflexivity.
  Qed.
  (* the collision is linear in populations and chemical potential together *)
  Lemma term_linear D mu1 mu2 g1 g2 r1 r2 v w d : ch_term D (g1 * mu1 + g2 * mu2) 1 (r1 + r2) v w d = ch_term D mu1 g1 r1 v w d + ch_term D mu2 g2 r2 v w d.
  Proof. unfold ch_term. field. Qed.
  Lemma term_zero D v w d : ch_term D 0 1 0 v w d = 0.
  Proof. unfold ch_term. field. Qed.
  Lemma equilibrium_linear mu1 mu2 g1 g2 r1 r2 v e1 e2 : ch_equilibrium S mu1 g1 r1 v = Ok e1 -> ch_equilibrium S mu2 g2 r2 v = Ok e2 ->
    ch_equilibrium S (g1 * mu1 + g2 * mu2) 1 (r1 + r2) v = Ok (radd e1 e2).
  Proof.
    unfold ch_equilibrium. destruct (get_weights S) as [ws|e]; [|discriminate]. cbn [rbind]. destruct (combine ws S) as [|wd l]; [discriminate|]. cbn [map].
    intros [= <-] [= <-]. unfold radd. cbn [combine map fst snd].
    assert (E : map (fun wd => ch_term (dimD S) (g1 * mu1 + g2 * mu2) 1 (r1 + r2) v (Q2R (fst wd)) (snd wd)) l =
       map (fun p => fst p + snd p) (combine (map (fun wd => ch_term (dimD S) mu1 g1 r1 v (Q2R (fst wd)) (snd wd)) l) (map (fun wd => ch_term (dimD S) mu2 g2 r2 v (Q2R (fst wd)) (snd wd)) l))).
    { clear wd. induction l as [|wd l IH]; [reflexivity|]. cbn [map combine fst snd]. rewrite term_linear, IH. reflexivity. }
    do 2 f_equal.
    - rewrite (rsum_ext (fun wd => ch_term (dimD S) (g1 * mu1 + g2 * mu2) 1 (r1 + r2) v (Q2R (fst wd)) (snd wd)) (fun wd => ch_term (dimD S) mu1 g1 r1 v (Q2R (fst wd)) (snd wd) + ch_term (dimD S) mu2 g2 r2 v (Q2R (fst wd)) (snd wd))) by (intros; apply term_linear).
      rewrite rsum_plus. ring.
    - exact E.
  Qed.
  Lemma collision_linear omega mu1 mu2 g1 g2 v f1 f2 h1 h2 : length f1 = n -> length f2 = n -> ch_collision S M Minv omega g1 mu1 v f1 = Ok h1 -> ch_collision S M Minv omega g2 mu2 v f2 = Ok h2 ->
    ch_collision S M Minv omega 1 (g1 * mu1 + g2 * mu2) v (radd f1 f2) = Ok (radd h1 h2).
  Proof.
    intros H1 H2 E1 E2. unfold ch_collision in *. apply rbind_inv in E1 as (e1 & E1 & F1). apply rbind_inv in E2 as (e2 & E2 & F2).
    assert (L12 : length (radd f1 f2) = n) by (rewrite radd_length; lia).
    assert (D12 : pdf_density false (radd f1 f2) = pdf_density false f1 + pdf_density false f2).
    { rewrite !density_sum, (rsum_index (radd f1 f2)), (rsum_index f1), (rsum_index f2), L12, H1, H2, <- rsum_plus. apply rsum_ext. intros q Hq. apply nth_radd. congruence. }
    rewrite D12, (equilibrium_linear _ _ _ _ _ _ _ _ _ E1 E2). cbn [rbind]. injection F1 as <-. injection F2 as <-.
    destruct (eq_ok name ord S HS HW g1 mu1 (pdf_density false f1) v) as (x1 & X1 & L1). rewrite E1 in X1. injection X1 as <-.
    destruct (eq_ok name ord S HS HW g2 mu2 (pdf_density false f2) v) as (x2 & X2 & L2). rewrite E2 in X2. injection X2 as <-.
    f_equal. rewrite !(relaxed S M Minv HM) by (assumption || (rewrite radd_length; lia)).
    assert (La : forall a b : list R, length a = n -> length b = n -> length (radd a b) = n) by (intros; rewrite radd_length; lia).
    assert (Ls : forall a b : list R, length a = n -> length b = n -> length (rscal omega (rsub a b)) = n) by (intros; rewrite rscal_length, rsub_length; lia).
    apply (nth_ext _ _ 0 0); [rewrite !La; auto|]. intros q _.
    assert (NR : forall a b : list R, length a = n -> length b = n -> nth q (radd a b) 0 = nth q a 0 + nth q b 0) by (intros; apply nth_radd; congruence).
    assert (NS : forall a b : list R, length a = n -> length b = n -> nth q (rscal omega (rsub a b)) 0 = omega * (nth q a 0 - nth q b 0)) by (intros; rewrite nth_rscal, nth_rsub by congruence; reflexivity).
    rewrite !NR, !NS, !NR by auto. ring.
  Qed.
End Given.

Section Nestler.
  Context (N : list positive).
  Variables (name ord : string) (S : stencil).
  Hypothesis HS : predefined_stencils name ord = Ok S.
  Hypothesis HW : has_weights S = true.
  Hypothesis HN : length N = dimD S.
  Variables (M Minv : mat).
  Hypothesis HM : is_inverse (sizeQ S) M Minv.
  Variable K : nat.
  Notation n := (sizeQ S).
  Notation cells := (cell (torus N)).
  Variables (mu_kernel : (cells -> list R) -> cells -> list R) (hydro : list R -> list R -> res (list R)) (velocity : list R -> list R -> list R).
  Hypothesis Hmu : forall phi x, length (mu_kernel phi x) = K.
  Variable ok : list R -> Prop.
  Hypothesis Hhy : hydro_method S ok hydro.
  Variable fd : nat -> list (vec * R).
  Lemma nestler_spec (st : cells -> ph_cell) : (forall x, sized S K (st x)) -> (forall x, ok (c_hyd (st x))) -> exists g ch,
    (forall y, length (g y) = n) /\ (forall y, adds_impulse (dimD S) S (force_mu S K fd (fun y => c_phi (st y)) (mu_kernel (fun y => c_phi (st y))) y) (c_hyd (st y)) (g y)) /\
    (forall i y, (i < K)%nat -> length (ch i y) = n /\ rsum (ch i y) = nth i (c_phi (st y)) 0) /\
    forall x, exists c, nestler_step S M Minv K mu_kernel hydro velocity fd st x = Ok c /\ sized S K c /\
      (forall i, (i < K)%nat -> nth i (c_ch c) [] = streamed N S (ch i) x /\ nth i (c_phi c) 0 = rsum (nth i (c_ch c) [])) /\
      c_force c = force_mu S K fd (fun y => c_phi (st y)) (mu_kernel (fun y => c_phi (st y))) x /\ c_mu c = mu_kernel (fun y => c_phi (st y)) x /\ c_hyd c = streamed N S g x /\ c_vel c = velocity (repeat 0 (dimD S)) (c_hyd c).
  Proof.
    intros Hs Hk. destruct (hydro_choice N S hydro ok Hhy (force_mu S K fd (fun y => c_phi (st y)) (mu_kernel (fun y => c_phi (st y)))) (fun y => c_hyd (st y))) as (g & G1 & G2 & G3).
    { intros y. unfold force_mu. now rewrite map_length, seq_length. } { intros y. apply Hs. } { exact Hk. }
    assert (EH : forall x, nestler_hydro S K mu_kernel hydro fd st x = Ok (streamed N S g x)) by (intros x; unfold nestler_hydro; apply pulled_ok; assumption).
    set (ch := fun i y => match nestler_collided S M Minv K mu_kernel hydro velocity fd st i y with Ok f => f | Err _ => [] end).
    assert (EC : forall i y, (i < K)%nat -> nestler_collided S M Minv K mu_kernel hydro velocity fd st i y = Ok (ch i y) /\ length (ch i y) = n /\ rsum (ch i y) = nth i (c_phi (st y)) 0).
    { intros i y Hi. destruct (Hs y) as (S1 & S2 & S3 & _). unfold ch, nestler_collided. rewrite EH. cbn [rbind]. rewrite (entry_ok _ i []) by lia. cbn [rbind]. rewrite (entry_ok (c_phi (st y)) i 0) by lia. cbn [rbind].
      rewrite (entry_ok (mu_kernel _ y) i 0) by (rewrite Hmu; exact Hi). cbn [rbind].
      destruct (given_ok name ord S HS HW M Minv HM 1 1 (nth i (mu_kernel (fun y => c_phi (st y)) y) 0) (nth i (c_phi (st y)) 0) (velocity (repeat 0 (dimD S)) (streamed N S g y)) (nth i (c_ch (st y)) []) ltac:(apply S3, nth_In; lia)) as (h & E & L1 & L2).
      rewrite E. split; [reflexivity|]. split; [exact L1|]. rewrite L2. ring. }
    exists g, ch. split; [exact G2|]. split; [exact G3|]. split; [intros i y Hi; apply EC; exact Hi|]. intros x. unfold nestler_step. rewrite EH. cbn [rbind].
    assert (EM : mapM (fun i => pulled S (nestler_collided S M Minv K mu_kernel hydro velocity fd st i) x) (seq 0 K) = Ok (map (fun i => streamed N S (ch i) x) (seq 0 K))).
    { rewrite <- (mapM_map_Ok (fun i => streamed N S (ch i) x)). apply mapM_ext. intros i Hi. apply in_seq in Hi. apply pulled_ok; intros y; apply EC; lia. }
    rewrite EM. cbn [rbind]. eexists. split; [reflexivity|]. cbn [c_phi c_mu c_vel c_force c_ch c_hyd].
    assert (EN : forall i, (i < K)%nat -> nth i (map (fun i => streamed N S (ch i) x) (seq 0 K)) [] = streamed N S (ch i) x).
    { intros i Hi. rewrite (nth_indep _ [] ((fun i => streamed N S (ch i) x) 0%nat)) by (rewrite map_length, seq_length; exact Hi). rewrite (map_nth (fun i => streamed N S (ch i) x)), seq_nth by exact Hi. reflexivity. }
    split; [|split; [|auto]].
    - split; cbn [c_phi c_mu c_vel c_force c_ch c_hyd]; [rewrite !map_length; apply seq_length|]. split; [rewrite map_length; apply seq_length|]. split; [|apply streamed_length].
      intros f Hf. apply in_map_iff in Hf as (i & <- & _). apply streamed_length.
    - intros i Hi. split; [apply EN; exact Hi|]. rewrite EN by exact Hi.
      rewrite (nth_indep _ 0 (pdf_density false [])) by (rewrite !map_length, seq_length; exact Hi). rewrite (map_nth (pdf_density false)), EN by exact Hi. apply density_sum.
  Qed.
End Nestler.
