From Coq Require Import List Bool Arith Reals Lra Lia Permutation.
From Verif Require Import StencilModel RealLib PtModel PtSpec PtProofs.
Import ListNotations.
Local Open Scope R_scope.

Section Bulk.
  Context (jet : nat -> list nat -> point -> R) (x : point).
  Notation v := (v jet x).
  Notation d := (d jet x).
  Definition power_expr (l : list (nat * nat)) : expr := fold_right (fun p e => Mul (Pow (par (fst p)) (snd p)) e) (Const 1) l.
  Definition field_value (i : nat) : R := jet i [] x.
  Lemma v_power_expr : forall pows s, v (power_expr (combine (seq s (length pows)) pows)) = prod_pow field_value s pows.
  Proof. induction pows as [|p r IH]; intros s; [reflexivity|]. cbn [length seq combine power_expr fold_right fst snd prod_pow]. rewrite v_mul. unfold power_expr in IH. rewrite IH. reflexivity. Qed.
  Definition lower_from (s i : nat) (pows : list nat) : list nat := map (fun p => if Nat.eqb (fst p) i then (snd p - 1)%nat else snd p) (combine (seq s (length pows)) pows).
  Lemma lower_from_out : forall pows s i, (i < s)%nat -> lower_from s i pows = pows.
  Proof. induction pows as [|p r IH]; intros s i H; [reflexivity|]. unfold lower_from in *. cbn [length seq combine map fst snd]. rewrite IH by lia. destruct (Nat.eqb_spec s i); [lia|reflexivity]. Qed.
  Lemma d_power_expr : forall b pows s, d b (power_expr (combine (seq s (length pows)) pows))
    = rsum (map (fun i => INR (nth (i - s) pows 0%nat) * prod_pow field_value s (lower_from s i pows) * jet i [b] x) (seq s (length pows))).
  Proof.
    intros b. induction pows as [|p r IH]; intros s; [reflexivity|]. cbn [length seq combine power_expr fold_right fst snd map]. rewrite d_mul, rsum_cons. unfold power_expr in IH at 1. rewrite IH.
    change (fold_right _ _ (combine (seq (Datatypes.S s) (length r)) r)) with (power_expr (combine (seq (Datatypes.S s) (length r)) r)). rewrite v_power_expr. f_equal.
    - rewrite Nat.sub_diag. cbn [nth]. change (lower_from s s (p :: r)) with ((if Nat.eqb s s then (p - 1)%nat else p) :: lower_from (Datatypes.S s) s r).
      rewrite Nat.eqb_refl, lower_from_out by lia. cbn [prod_pow]. unfold PtProofs.d. cbn. unfold field_value. ring.
    - rewrite <- rsum_scal. apply rsum_ext. intros i Hi. apply in_seq in Hi. replace (i - s)%nat with (Datatypes.S (i - Datatypes.S s)) by lia. cbn [nth].
      change (lower_from s i (p :: r)) with ((if Nat.eqb s i then (p - 1)%nat else p) :: lower_from (Datatypes.S s) i r). destruct (Nat.eqb_spec s i); [lia|]. cbn [prod_pow].
      change (v (Pow (par s) p)) with (field_value s ^ p). ring.
  Qed.
  Lemma v_monomial : forall k pows, v (monomial k pows) = k * prod_pow field_value 0 pows.
  Proof. intros. unfold monomial. rewrite v_mul. change (fold_right _ _ _) with (power_expr (combine (seq 0 (length pows)) pows)). rewrite v_power_expr. reflexivity. Qed.
  Lemma v_bulk_derivative : forall i t, v (bulk_derivative i t) = factor t * (INR (nth i (powers t) 0%nat) * prod_pow field_value 0 (lower_from 0 i (powers t))).
  Proof. intros. unfold bulk_derivative. rewrite v_monomial. unfold lower_power, lower_from. ring. Qed.
  Lemma d_monomial : forall n b t, length (powers t) = n -> d b (monomial (factor t) (powers t)) = rsum (map (fun i => v (bulk_derivative i t) * jet i [b] x) (seq 0 n)).
  Proof.
    intros n b t <-. unfold monomial. rewrite d_mul, d_const, v_const, Rmult_0_l, Rplus_0_l. change (fold_right _ _ _) with (power_expr (combine (seq 0 (length (powers t))) (powers t))).
    rewrite d_power_expr, <- rsum_scal. apply rsum_ext. intros i Hi. rewrite v_bulk_derivative, Nat.sub_0_r. ring.
  Qed.
  Definition mu_bulk (energy : list term) (i : nat) : expr := sum_of (map (bulk_derivative i) (filter is_bulk energy)).
  Lemma d_bulk_part : forall n b energy, Forall (well_formed n) energy -> d b (bulk_part energy) = rsum (map (fun i => v (mu_bulk energy i) * jet i [b] x) (seq 0 n)).
  Proof.
    intros n b energy H. unfold bulk_part. rewrite d_sum, map_map.
    rewrite (rsum_ext _ (fun t => rsum (map (fun i => v (bulk_derivative i t) * jet i [b] x) (seq 0 n)))).
    2:{ intros t Ht. apply filter_In in Ht. destruct Ht as [Ht Hb]. apply d_monomial. rewrite Forall_forall in H. destruct (H t Ht) as [[_ Hl]|(i & j & E & _)]; [exact Hl|unfold is_bulk in Hb; rewrite E in Hb; discriminate]. }
    rewrite rsum_swap. apply rsum_ext. intros i Hi. rewrite rsum_scal_r. f_equal. unfold mu_bulk. rewrite v_sum, map_map. reflexivity.
  Qed.
  Lemma d_pressure_bulk : forall n b energy, Forall (well_formed n) energy ->
    d b (pressure_tensor_bulk_component n energy) = rsum (map (fun i => field_value i * d b (mu_bulk energy i)) (seq 0 n)).
  Proof.
    intros n b energy H. unfold pressure_tensor_bulk_component. rewrite d_sub, d_sum, map_map, (d_bulk_part n) by exact H. rewrite <- rsum_minus. apply rsum_ext. intros i Hi.
    rewrite d_mul. change (sum_of (map (bulk_derivative i) (filter is_bulk energy))) with (mu_bulk energy i). change (d b (par i)) with (jet i [b] x). change (v (par i)) with (field_value i). ring.
  Qed.
  Lemma v_bulk_part : forall energy, v (bulk_part energy) = bulk_energy energy field_value.
  Proof. intros energy. unfold bulk_part, bulk_energy. rewrite v_sum, map_map. apply rsum_ext. intros t Ht. apply v_monomial. Qed.
End Bulk.

Section Interface.
  Context (jet : nat -> list nat -> point -> R) (x : point) (Hs : smooth jet).
  Notation v := (v jet x).
  Notation d := (d jet x).
  Notation field_value := (field_value jet x).
  Definition third (b dim j : nat) : R := rsum (map (fun g => jet j [b; g; g] x) (seq 0 dim)).
  Lemma d_laplacian : forall b dim j, d b (laplacian_of dim j) = third b dim j.
  Proof. intros. unfold laplacian_of, third. rewrite d_sum, map_map. reflexivity. Qed.
  Lemma sym2 : forall i a b, jet i [a; b] x = jet i [b; a] x.
  Proof. intros. apply (smooth_symmetric _ Hs). apply perm_swap. Qed.
  (* the divergence of the entry of a pair of order parameters *)
  Lemma divergence_entry : forall dim b i j, (b < dim)%nat ->
    rsum (map (fun a => d a (interface_entry dim a b i j)) (seq 0 dim)) = - (field_value i * third b dim j + field_value j * third b dim i).
  Proof.
    intros dim b i j Hb.
    rewrite (rsum_ext _ (fun a => (jet i [a; a] x * jet j [b] x + jet i [b] x * jet j [a; a] x + jet i [a] x * jet j [b; a] x + jet i [b; a] x * jet j [a] x)
      + (if Nat.eqb a b then - (d a (gradient_product dim i j) + d a (times_laplacian dim i j) + d a (times_laplacian dim j i)) else 0))).
    2:{ intros a Ha. unfold interface_entry.
        assert (E : d a (Add (Mul (Diff (par i) a) (Diff (par j) b)) (Mul (Diff (par i) b) (Diff (par j) a))) =
          jet i [a; a] x * jet j [b] x + jet i [b] x * jet j [a; a] x + jet i [a] x * jet j [b; a] x + jet i [b; a] x * jet j [a] x).
        { rewrite d_add, !d_mul. unfold PtProofs.d, PtProofs.v, value. cbn. rewrite (sym2 j a b), (sym2 i a b). ring. }
        destruct (Nat.eqb a b); [rewrite !d_sub, E; ring|rewrite E; ring]. }
    rewrite rsum_plus, rsum_single by exact Hb.
    unfold gradient_product, times_laplacian. rewrite !d_sum, !map_map.
    rewrite (rsum_ext (fun g => d b (Mul (Diff (par i) g) (Diff (par j) g))) (fun g => jet i [b; g] x * jet j [g] x + jet i [g] x * jet j [b; g] x)) by reflexivity.
    rewrite (rsum_ext (fun g => d b (Mul (par i) (Diff (Diff (par j) g) g))) (fun g => jet i [b] x * jet j [g; g] x + field_value i * jet j [b; g; g] x)) by reflexivity.
    rewrite (rsum_ext (fun g => d b (Mul (par j) (Diff (Diff (par i) g) g))) (fun g => jet j [b] x * jet i [g; g] x + field_value j * jet i [b; g; g] x)) by reflexivity.
    rewrite !rsum_plus, !rsum_scal, !rsum_scal_r. unfold third. ring.
  Qed.
  Lemma gamma_of_symmetric : forall g i j, gamma_of g i j = gamma_of g j i.
  Proof. intros. unfold gamma_of. destruct (Nat.ltb_spec i j), (Nat.ltb_spec j i); try reflexivity; try lia. replace j with i by lia. reflexivity. Qed.
  Lemma divergence_interface : forall n dim g b, (b < dim)%nat ->
    rsum (map (fun a => d a (interface_component n dim g a b)) (seq 0 dim)) =
    - rsum (map (fun i => rsum (map (fun j => gamma_of g i j * (field_value i * third b dim j)) (seq 0 n))) (seq 0 n)).
  Proof.
    intros n dim g b Hb. unfold interface_component.
    rewrite (rsum_ext _ (fun a => rsum (map (fun i => rsum (map (fun j => gamma_of g i j / 2 * d a (interface_entry dim a b i j)) (seq 0 n))) (seq 0 n)))).
    2:{ intros a Ha. rewrite d_sum, map_map. apply rsum_ext. intros i Hi. rewrite d_sum, map_map. apply rsum_ext. intros j Hj. apply d_scale. }
    rewrite rsum_swap.
    rewrite (rsum_ext _ (fun i => rsum (map (fun j => gamma_of g i j / 2 * - (field_value i * third b dim j + field_value j * third b dim i)) (seq 0 n)))).
    2:{ intros i Hi. rewrite rsum_swap. apply rsum_ext. intros j Hj. rewrite rsum_scal, divergence_entry by exact Hb. reflexivity. }
    rewrite (rsum_ext _ (fun i => (-1 / 2) * rsum (map (fun j => gamma_of g i j * (field_value i * third b dim j)) (seq 0 n)) + (-1 / 2) * rsum (map (fun j => gamma_of g j i * (field_value j * third b dim i)) (seq 0 n)))).
    2:{ intros i Hi. rewrite <- !rsum_scal, <- rsum_plus. apply rsum_ext. intros j Hj. rewrite (gamma_of_symmetric g j i). field. }
    rewrite rsum_plus, !rsum_scal. rewrite (rsum_swap (fun i j => gamma_of g j i * (field_value j * third b dim i))). field.
  Qed.
  Lemma mu_interface : forall n dim b energy, Forall (well_formed n) energy ->
    rsum (map (fun i => field_value i * d b (sum_of (map (interface_derivative dim i) (filter (fun t => negb (is_bulk t)) energy)))) (seq 0 n))
    = - rsum (map (interface_value (fun i j => field_value i * third b dim j)) energy).
  Proof.
    intros n dim b energy H.
    rewrite (rsum_ext _ (fun i => rsum (map (fun t => field_value i * d b (interface_derivative dim i t)) energy))).
    2:{ intros i Hi. rewrite d_sum, map_map, <- rsum_scal. clear. induction energy as [|t r IH]; [reflexivity|]. cbn [filter map]. rewrite rsum_cons.
        destruct (negb (is_bulk t)) eqn:E; cbn [map]; [rewrite rsum_cons, IH; reflexivity|]. rewrite IH. unfold interface_derivative. unfold is_bulk in E. destruct (diffs t); [|discriminate E]. rewrite d_const. ring. }
    rewrite rsum_swap. rewrite <- (Rmult_1_l (rsum (map (interface_value _) energy))), Ropp_mult_distr_l, <- rsum_scal. apply rsum_ext. intros t Ht.
    rewrite Forall_forall in H. unfold interface_value. destruct (H t Ht) as [[E _]|(i & j & E & Hi & Hj)]; rewrite E.
    - rewrite (rsum_all0 _ (seq 0 n)); [ring|]. intros i Hi. unfold interface_derivative. rewrite E, d_const. ring.
    - rewrite (rsum_ext _ (fun k => (if Nat.eqb k i then - factor t * (field_value k * third b dim j) else 0) + (if Nat.eqb k j then - factor t * (field_value k * third b dim i) else 0))).
      + rewrite rsum_plus, !rsum_single by assumption. ring.
      + intros k Hk. unfold interface_derivative. rewrite E, d_scale, d_add, (Nat.eqb_sym i k), (Nat.eqb_sym j k). destruct (Nat.eqb k i), (Nat.eqb k j); rewrite ?d_laplacian, ?d_const; ring.
  Qed.
  (* Gibbs-Duhem *)
  Theorem gibbs_duhem : forall n dim energy p b, Forall (well_formed n) energy -> (b < dim)%nat -> pressure_tensor n dim true true energy = Ok p ->
    value jet (force_from_pressure_tensor dim p b) x = value jet (force_from_phi_and_mu n (PtModel.chemical_potential dim energy) b) x.
  Proof.
    intros n dim energy p b Hw Hb Hp. unfold pressure_tensor in Hp. unfold extract_gamma in Hp. destruct (length energy <? 2)%nat; [discriminate Hp|].
    destruct (extract_gamma_terms n energy) as [g|e] eqn:Eg; [|discriminate Hp]. cbn [rbind] in Hp. injection Hp as <-. fold (entry_sum g).
    unfold force_from_pressure_tensor, value. rewrite (expand_id (expand _)) by apply expand_free.
    match goal with |- value_expanded jet (expand ?e) x = value_expanded jet (expand ?e') x => change (v e = v e') end.
    rewrite v_scale, v_sum, map_map. unfold force_from_phi_and_mu. rewrite v_sum, map_map.
    rewrite (rsum_ext (fun i => v (scale (-1) (Mul (par i) (Diff (PtModel.chemical_potential dim energy i) b)))) (fun i => -1 * (field_value i * d b (mu_bulk energy i) + field_value i * d b (sum_of (map (interface_derivative dim i) (filter (fun t => negb (is_bulk t)) energy)))))).
    2:{ intros i Hi. rewrite v_scale, v_mul, v_diff. unfold PtModel.chemical_potential. rewrite d_add. change (v (par i)) with (field_value i). unfold mu_bulk. ring. }
    rewrite rsum_scal, rsum_plus, (mu_interface n) by exact Hw. f_equal.
    rewrite (rsum_ext _ (fun a => d a (interface_component n dim (fun i j => entry_sum g (i, j)) a b) + (if Nat.eqb a b then d a (pressure_tensor_bulk_component n energy) else 0))).
    2:{ intros a Ha. rewrite v_diff, d_add. cbn [andb]. destruct (Nat.eqb a b); [reflexivity|]. rewrite d_const. reflexivity. }
    rewrite rsum_plus, rsum_single, divergence_interface, d_pressure_bulk by assumption. rewrite Rplus_comm. f_equal. f_equal.
    rewrite <- (gamma_bilinear n energy g _ Eg). apply rsum_ext. intros i Hi. apply rsum_ext. intros j Hj. rewrite gamma_of_sorted. reflexivity.
  Qed.
  Lemma v_interface_sum : forall n g (entry : nat -> nat -> expr),
    v (sum_of (map (fun i => sum_of (map (fun j => scale (gamma_of g i j / 2) (entry i j)) (seq 0 n))) (seq 0 n)))
    = rsum (map (fun i => rsum (map (fun j => gamma_of g i j / 2 * v (entry i j)) (seq 0 n))) (seq 0 n)).
  Proof. intros. rewrite v_sum, map_map. apply rsum_ext. intros i Hi. rewrite v_sum, map_map. apply rsum_ext. intros j Hj. apply v_scale. Qed.
  (* both forms of the interface part agree *)
  Lemma interface_forms : forall n dim g a b, v (interface_component_new n dim g a b) = v (interface_component n dim g a b).
  Proof.
    intros n dim g a b. unfold interface_component_new, interface_component.
    rewrite !v_interface_sum.
    assert (Sym : forall f : nat -> nat -> R, rsum (map (fun i => rsum (map (fun j => gamma_of g i j / 2 * f i j) (seq 0 n))) (seq 0 n)) = rsum (map (fun i => rsum (map (fun j => gamma_of g i j / 2 * ((f i j + f j i) / 2)) (seq 0 n))) (seq 0 n))).
    { intros f. rewrite (rsum_ext (fun i => rsum (map (fun j => gamma_of g i j / 2 * ((f i j + f j i) / 2)) (seq 0 n))) (fun i => 1 / 2 * rsum (map (fun j => gamma_of g i j / 2 * f i j) (seq 0 n)) + 1 / 2 * rsum (map (fun j => gamma_of g j i / 2 * f j i) (seq 0 n)))).
      2:{ intros i Hi. rewrite <- !rsum_scal, <- rsum_plus. apply rsum_ext. intros j Hj. rewrite (gamma_of_symmetric g j i). field. }
      rewrite rsum_plus, !rsum_scal, (rsum_swap (fun i j => gamma_of g j i / 2 * f j i)). field. }
    rewrite (Sym (fun i j => v (interface_entry_new dim a b i j))), (Sym (fun i j => v (interface_entry dim a b i j))). apply rsum_ext. intros i Hi. apply rsum_ext. intros j Hj. f_equal.
    assert (G : v (gradient_product dim i j) = v (gradient_product dim j i)).
    { unfold gradient_product. rewrite !v_sum, !map_map. apply rsum_ext. intros k Hk. rewrite !v_mul. ring. }
    unfold interface_entry_new, interface_entry. destruct (Nat.eqb_spec a b) as [->|]; rewrite ?v_sub, ?v_scale, ?v_add, ?v_mul, ?G; field.
  Qed.
End Interface.
