(* Flows and the equations reported for them; methods with one rate. *)
From Coq Require Import List ZArith Bool Arith Reals Lra Lia.
From Verif Require Import StencilModel RealLib LinLib EqSpec SteadyModel SteadySpec SteadyProofs SteadyProofs2 SteadyProofs3.
Import ListNotations.
Local Open Scope R_scope.

Lemma dot_delta w i : forall k s x, length x = k -> dot (map (fun j => w * delta i j) (seq s k)) x = if (s <=? i)%nat && (i <? s + k)%nat then w * nth (i - s) x 0 else 0.
Proof.
  induction k as [|k IH]; intros s [|a x] L; try discriminate L.
  - cbn [seq map]. replace (i <? s + 0)%nat with (negb (s <=? i)%nat); [destruct (s <=? i)%nat; reflexivity|].
    destruct (Nat.leb_spec s i), (Nat.ltb_spec i (s + 0)); try reflexivity; lia.
  - cbn [seq map]. rewrite dot_cons, (IH (Datatypes.S s) x) by (injection L; auto). unfold delta.
    destruct (Nat.eqb_spec i s) as [E|E].
    + subst i. rewrite Nat.sub_diag. cbn [nth]. destruct (Nat.leb_spec (Datatypes.S s) s); [lia|]. destruct (Nat.leb_spec s s); [|lia]. destruct (Nat.ltb_spec s (s + Datatypes.S k)); [|lia]. cbn [andb]. ring.
    + destruct (Nat.leb_spec (Datatypes.S s) i) as [H1|H1], (Nat.leb_spec s i) as [H2|H2]; try lia; cbn [andb]; [|ring].
      replace (i <? s + Datatypes.S k)%nat with (i <? Datatypes.S s + k)%nat by (f_equal; lia). destruct (i <? Datatypes.S s + k)%nat; [|ring]. replace (i - s)%nat with (Datatypes.S (i - Datatypes.S s)) by lia. cbn [nth]. ring.
Qed.
Lemma nth_map_seq_d {A} (f : nat -> A) d n i : (i < n)%nat -> nth i (map f (seq 0 n)) d = f i.
Proof. intros H. rewrite (nth_indep _ d (f 0%nat)) by (rewrite map_length, seq_length; exact H). rewrite map_nth, seq_nth by exact H. reflexivity. Qed.
Lemma srt_row n w i : (i < n)%nat -> nth i (srt_matrix n w) [] = map (fun j => w * delta i j) (seq 0 n).
Proof. intros H. unfold srt_matrix. rewrite nth_map_seq_d by exact H. reflexivity. Qed.
Lemma srt_mv n w x : length x = n -> mv (srt_matrix n w) x = map (fun a => w * a) x.
Proof.
  intros L. unfold mv, srt_matrix. rewrite map_map. apply list_ext; [rewrite !map_length, seq_length; lia|]. intros i Hi. rewrite map_length, seq_length in Hi.
  rewrite nth_map_seq_d by exact Hi. rewrite (dot_delta w i n 0 x L). cbn [Nat.leb]. destruct (Nat.ltb_spec i (0 + n)); [|lia]. cbn [andb]. rewrite Nat.sub_0_r.
  symmetry. rewrite (nth_indep (map (fun a => w * a) x) 0 (w * 0)) by (rewrite map_length; lia). rewrite (map_nth (fun a => w * a)). reflexivity.
Qed.
Lemma srt_inverse n w : w <> 0 -> is_inverse n (srt_matrix n w) (srt_matrix n (1 / w)).
Proof.
  intros Hw. assert (W : forall v, mat_wf n n (srt_matrix n v)).
  { intros v. unfold mat_wf, srt_matrix. rewrite map_length, seq_length. split; [reflexivity|]. try rewrite Forall_forall. intros r Hr. apply in_map_iff in Hr. destruct Hr as (i & <- & _). rewrite map_length, seq_length. reflexivity. }
  assert (M : forall a b x, a * b = 1 -> length x = n -> mv (srt_matrix n a) (mv (srt_matrix n b) x) = x).
  { intros a b x Hab L. rewrite (srt_mv n b) by exact L. rewrite srt_mv by (rewrite map_length; exact L). rewrite map_map. rewrite (map_ext _ (fun t => t)); [apply map_id|]. intros t. rewrite <- Rmult_assoc, Hab. ring. }
  split; [apply W|]. split; [apply W|]. split; intros x L; apply M; try exact L; field; exact Hw.
Qed.
Lemma srt_app S w f q idx x : (q < length S)%nat -> apply_matrix S (srt_matrix (length S) w) f q idx x = w * f q idx x.
Proof.
  intros Hq. unfold apply_matrix. rewrite srt_row by exact Hq. rewrite dot_delta by (rewrite map_length, seq_length; reflexivity). cbn [Nat.leb]. destruct (Nat.ltb_spec q (0 + length S)); [|lia]. cbn [andb]. rewrite Nat.sub_0_r. rewrite nth_map_seq_d by exact Hq. reflexivity.
Qed.
Lemma srt_first S v f0 force q idx x : (q < length S)%nat -> pdf_order S (srt_matrix (length S) v) f0 force 1 q idx x = - v * (advect S f0 q idx x - force q idx x).
Proof.
  intros Hq. rewrite pdf_next, srt_app by exact Hq. unfold sources, jsub, jsum. cbn [seq map rsum fold_right Nat.sub Nat.eqb]. unfold taylor_term, jscal. cbn [advect_n fact]. rewrite pdf_zero. change (INR (1 * 1)) with 1. field.
Qed.
Lemma advect_scal S a f q idx x : advect S (fun q idx x => a * f q idx x) q idx x = a * advect S f q idx x.
Proof. unfold advect, dirder. rewrite <- rsum_scal. apply rsum_ext. intros. ring. Qed.
Lemma srt_second S v f0 q idx x : (q < length S)%nat -> pdf_order S (srt_matrix (length S) v) f0 jzero 2 q idx x = (v ^ 2 - v / 2) * advect S (advect S f0) q idx x.
Proof.
  intros Hq. rewrite pdf_next, srt_app by exact Hq. unfold sources, jsub, jsum. cbn [seq map rsum fold_right Nat.sub Nat.eqb]. unfold taylor_term, jscal. cbn [advect_n].
  rewrite (advect_ext S (pdf_order S (srt_matrix (length S) v) f0 jzero 1) (fun q idx x => - v * advect S f0 q idx x)); [|intros r idx' x' Hr; rewrite srt_first by exact Hr; unfold jzero; ring|exact Hq].
  rewrite advect_scal, pdf_zero. unfold jzero. change (INR (fact 1)) with 1. change (INR (fact 2)) with 2. field.
Qed.

Section Flow.
  Variables (S : stencil) (A Ainv : mat) (f0 force : jets) (N : nat).
  Let n := length S.
  Let D := dimD S.
  Hypothesis HS : Forall (fun c => length c = D) S.
  Hypothesis HI : is_inverse n A Ainv.
  Hypothesis HN : (1 <= N)%nat.
  Hypothesis P0 : polynomial_fields n f0.
  Hypothesis PF : polynomial_fields n force.
  Hypothesis D0 : degree_at_most n N f0.
  Hypothesis DF : degree_at_most n (N - 1) force.
  Variables (rho : pos -> R) (u F : nat -> pos -> R) (carrier : pos -> R).
  Hypothesis HR : forall x, pop_density n f0 x = rho x.
  Hypothesis HM : forall a x, (a < D)%nat -> pop_momentum S f0 a x = carrier x * u a x.
  Notation sol := (series S Ainv f0 force N 1).

  Lemma same_density f : same_fields n f sol -> forall x, pop_density n f x = pop_density n sol x.
  Proof. intros H x. unfold pop_density, populations. apply rsum_ext. intros q Hq. apply in_seq in Hq. apply H. lia. Qed.
  Lemma same_momentum f : same_fields n f sol -> forall a x, pop_momentum S f a x = pop_momentum S sol a x.
  Proof. intros H a x. unfold pop_momentum. apply rsum_ext. intros q Hq. apply in_seq in Hq. f_equal. apply H. fold n. unfold n. lia. Qed.
  Lemma deg_van m f : degree_at_most n m f <-> van S (m + 1) f.
  Proof. unfold degree_at_most, van. fold n. split; intros H q idx x Hq Hl; apply H; try exact Hq; lia. Qed.
  Lemma flow_equations shift f : steady_flow S A N f0 force rho u F carrier f ->
    (forall x, continuity_equation S Ainv f0 force N 1 x = 0) /\ (forall a x, (a < D)%nat -> momentum_equation S Ainv f0 force shift N 1 a x = shift a x - F a x / 2).
  Proof.
    intros (H1 & H2 & H3 & H4 & H5). fold n in H1, H2, H4. fold D in H5.
    assert (E : same_fields n f sol) by (apply (steady_unique S A Ainv f0 force N HS HI HN P0 PF D0 DF f H1 (proj1 (deg_van N f) H2) H3)).
    split.
    - intros x. rewrite continuity_sol. fold n. rewrite <- (same_density f E), H4, HR. ring.
    - intros a x Ha. rewrite momentum_sol. rewrite <- (same_momentum f E), HM by exact Ha. rewrite <- (H5 a x Ha). lra.
  Qed.
  Lemma equations_flow : (forall x, continuity_equation S Ainv f0 force N 1 x = 0) -> (forall a x, (a < D)%nat -> momentum_equation S Ainv f0 force (fun a x => F a x / 2) N 1 a x = 0) ->
    steady_flow S A N f0 force rho u F carrier sol.
  Proof.
    intros H1 H2. split; [exact (polys_sol S Ainv f0 force N HN P0 PF)|]. split; [apply deg_van; exact (van_sol S Ainv f0 force N HN D0 DF)|]. split; [exact (sol_steady S A Ainv f0 force N HS HI HN P0 PF D0 DF)|]. split.
    - intros x. specialize (H1 x). rewrite continuity_sol in H1. fold n in H1. fold n. rewrite HR in H1. lra.
    - intros a x Ha. specialize (H2 a x Ha). rewrite momentum_sol, HM in H2 by exact Ha. lra.
  Qed.
  (* the leading order: balance of the momentum flux of the equilibrium and the force *)
  Lemma leading_order shift h v : (forall g : nat -> R, rsum (map (fun q => comp (nth q S []) h * dot (nth q Ainv []) (map g (seq 0 n))) (seq 0 n)) = v * rsum (map (fun q => comp (nth q S []) h * g q) (seq 0 n))) ->
    forall x, momentum_of_order S Ainv f0 force shift 0 h x =
      - v * (rsum (map (fun a => rsum (map (fun q => comp (nth q S []) h * comp (nth q S []) a * f0 q [a] x) (seq 0 n))) (seq 0 D)) - rsum (map (fun q => comp (nth q S []) h * force q [] x) (seq 0 n))) + shift h x.
  Proof.
    intros H x. unfold momentum_of_order. cbn [Nat.eqb Nat.add]. f_equal. fold n.
    specialize (H (fun q => sources S force 1 (pdf_order S Ainv f0 force) q [] x)).
    rewrite (rsum_ext _ (fun q => - (comp (nth q S []) h * apply_matrix S Ainv (sources S force 1 (pdf_order S Ainv f0 force)) q [] x))) by (intros q _; rewrite pdf_next; ring).
    rewrite (rsum_ext _ (fun q => (-1) * (comp (nth q S []) h * apply_matrix S Ainv (sources S force 1 (pdf_order S Ainv f0 force)) q [] x))) by (intros q _; ring). rewrite rsum_scal. unfold apply_matrix. fold n. rewrite H.
    transitivity (- v * rsum (map (fun q => rsum (map (fun a => comp (nth q S []) h * comp (nth q S []) a * f0 q [a] x) (seq 0 D)) - comp (nth q S []) h * force q [] x) (seq 0 n))).
    - rewrite (rsum_ext (fun q => comp (nth q S []) h * sources S force 1 (pdf_order S Ainv f0 force) q [] x) (fun q => rsum (map (fun a => comp (nth q S []) h * comp (nth q S []) a * f0 q [a] x) (seq 0 D)) - comp (nth q S []) h * force q [] x)); [ring|].
      intros q _. unfold sources, jsub, jsum. cbn [seq map rsum fold_right Nat.sub Nat.eqb]. unfold taylor_term, jscal. cbn [advect_n]. rewrite pdf_zero. change (INR (fact 1)) with 1. unfold advect, dirder. fold D.
      rewrite (rsum_ext (fun a => comp (nth q S []) h * comp (nth q S []) a * f0 q [a] x) (fun a => comp (nth q S []) h * (comp (nth q S []) a * f0 q [a] x))) by (intros; ring). rewrite rsum_scal. field.
    - rewrite rsum_minus. rewrite rsum_swap. reflexivity.
  Qed.
End Flow.
