(* C50: pressure tensor and chemical potentials *)
From Coq Require Import List Bool Arith Reals Lra Lia Permutation.
From Verif Require Import StencilModel RealLib PtModel PtSpec PtProofs PtProofs2 PtProofs3.
Import ListNotations.
Local Open Scope R_scope.

(* expanding derivatives gives the derivative *)
Theorem C50_expand : forall jet e a x, smooth jet -> partial_derivative (value jet e) a x (value jet (Diff e a) x).
Proof. intros jet e a x Hs. exact (value_derivative jet Hs (expand e) a x (expand_free e)). Qed.
(* the bulk chemical potential is the derivative of the bulk energy *)
Theorem C50_bulk_potential : forall n energy c i, Forall (well_formed n) energy -> (i < n)%nat ->
  derivable_pt_lim (fun t => bulk_energy energy (move c i t)) (c i) (value coordinate_jet (sum_of (map (bulk_derivative i) (filter is_bulk energy))) c).
Proof. exact bulk_potential. Qed.
(* the chemical potential is the bulk one minus the divergence of the derivative with respect to the gradient (Euler-Lagrange) *)
Theorem C50_potential : forall jet n dim energy i x, smooth jet -> Forall (well_formed n) energy -> exists div,
  value jet (chemical_potential dim energy i) x = value jet (sum_of (map (bulk_derivative i) (filter is_bulk energy))) x - rsum (map div (seq 0 dim)) /\
  (forall g, partial_derivative (fun y => flux energy i (fun j => jet j [g] y)) g x (div g)) /\
  (forall dc, derivable_pt_lim (fun t => gradient_energy energy (move dc i t)) (dc i) (flux energy i dc)).
Proof.
  intros jet n dim energy i x Hs Hw. exists (fun g => rsum (map (fun t => match diffs t with [j; k] => factor t * ((if Nat.eqb j i then jet k [g; g] x else 0) + (if Nat.eqb k i then jet j [g; g] x else 0)) | _ => 0 end) energy)).
  split; [exact (mu_euler_lagrange jet n dim energy i x Hw)|]. split; [intros g; apply (flux_divergence jet Hs)|intros dc; apply flux_derivative].
Qed.
(* the extracted coefficients are those of the gradient energy as a symmetric form *)
Theorem C50_gamma : forall n energy gamma dc, extract_gamma n energy = Ok gamma ->
  rsum (map (fun i => rsum (map (fun j => gamma_of gamma i j / 2 * (dc i * dc j)) (seq 0 n))) (seq 0 n)) = gradient_energy energy dc.
Proof.
  intros n energy gamma dc H. unfold extract_gamma in H. destruct (length energy <? 2)%nat; [discriminate H|]. destruct (extract_gamma_terms n energy) as [g|e] eqn:Eg; [|discriminate H]. injection H as <-.
  rewrite (rsum_ext _ (fun i => rsum (map (fun j => entry_sum g (sorted_pair i j) * (dc i * dc j / 2)) (seq 0 n)))).
  2:{ intros i Hi. apply rsum_ext. intros j Hj. change (gamma_of (fun a b => entry_sum g (a, b)) i j / 2 * (dc i * dc j) = entry_sum g (sorted_pair i j) * (dc i * dc j / 2)). rewrite gamma_of_sorted. field. }
  rewrite (gamma_bilinear n energy g (fun i j => dc i * dc j / 2) Eg). apply rsum_ext. intros t Ht. unfold interface_value. destruct (diffs t) as [|i [|j [|k l]]]; try reflexivity. field.
Qed.
(* Gibbs-Duhem: the force computed from the pressure tensor is the one computed from the chemical potentials *)
Theorem C50_force : forall jet n dim energy p b x, smooth jet -> Forall (well_formed n) energy -> (b < dim)%nat -> pressure_tensor n dim true true energy = Ok p ->
  value jet (force_from_pressure_tensor dim p b) x = value jet (force_from_phi_and_mu n (chemical_potential dim energy) b) x.
Proof. intros jet n dim energy p b x Hs. apply (gibbs_duhem jet x Hs). Qed.
(* constant chemical potentials: no force *)
Theorem C50_equilibrium : forall jet n dim energy p b x, smooth jet -> Forall (well_formed n) energy -> (b < dim)%nat -> pressure_tensor n dim true true energy = Ok p ->
  (forall i, (i < n)%nat -> exists k, forall y, value jet (chemical_potential dim energy i) y = k) -> value jet (force_from_pressure_tensor dim p b) x = 0.
Proof. intros jet n dim energy p b x Hs. apply (force_at_equilibrium jet Hs). Qed.
Theorem C50_symmetric : forall jet n dim energy p a b x, smooth jet -> pressure_tensor n dim true true energy = Ok p -> value jet (p a b) x = value jet (p b a) x.
Proof. intros jet n dim energy p a b x Hs. apply pressure_symmetric. Qed.
(* the shorter form of the interface part has the same values *)
Theorem C50_forms : forall jet n dim gamma a b x, smooth jet -> value jet (interface_component_new n dim gamma a b) x = value jet (interface_component n dim gamma a b) x.
Proof. intros jet n dim gamma a b x Hs. apply (interface_forms jet x). Qed.
(* in constant fields the tensor is the bulk pressure: the Legendre transform of the bulk energy *)
Theorem C50_bulk_pressure : forall jet n energy x, value jet (pressure_tensor_bulk_component n energy) x =
  rsum (map (fun i => jet i [] x * value jet (sum_of (map (bulk_derivative i) (filter is_bulk energy))) x) (seq 0 n)) - bulk_energy energy (fun i => jet i [] x).
Proof.
  intros jet n energy x. change (v jet x (pressure_tensor_bulk_component n energy) = rsum (map (fun i => jet i [] x * v jet x (mu_bulk energy i)) (seq 0 n)) - bulk_energy energy (fun i => jet i [] x)).
  unfold pressure_tensor_bulk_component. rewrite v_sub, v_sum, map_map, v_bulk_part. reflexivity.
Qed.
(* which energies are accepted *)
Theorem C50_accepted : forall n dim energy, Forall (well_formed n) energy -> ((2 <= length energy)%nat <-> exists p, pressure_tensor n dim true true energy = Ok p).
Proof.
  intros n dim energy Hw. unfold pressure_tensor, extract_gamma. destruct (Nat.ltb_spec (length energy) 2) as [Hl|Hl].
  - split; [lia|intros [p E]; discriminate E].
  - assert (G : exists g, extract_gamma_terms n energy = Ok g).
    { clear Hl. induction Hw as [|t r Ht Hr [g IH]]; [eexists; reflexivity|]. cbn [extract_gamma_terms]. destruct Ht as [[E _]|(i & j & E & Hi & Hj)]; rewrite E; [eauto|].
      apply Nat.ltb_lt in Hi, Hj. rewrite Hi, Hj, IH. cbn. eauto. }
    destruct G as [g Eg]. rewrite Eg. cbn. split; [eauto|lia].
Qed.
Theorem C50_single_term_refuted : forall n dim t, pressure_tensor n dim true true [t] = Err AssertionError.
Proof. reflexivity. Qed.
Theorem C50_rejected : forall n dim energy t, (2 <= length energy)%nat -> In t energy -> (length (diffs t) = 1 \/ 3 <= length (diffs t))%nat -> pressure_tensor n dim true true energy = Err ValueError.
Proof.
  intros n dim energy t Hl Ht Hd. unfold pressure_tensor, extract_gamma. destruct (Nat.ltb_spec (length energy) 2); [lia|].
  assert (G : extract_gamma_terms n energy = Err ValueError).
  { clear - Ht Hd. induction energy as [|t' r IH]; [destruct Ht|]. cbn [extract_gamma_terms]. destruct Ht as [E|Ht].
    - subst t'. destruct (diffs t) as [|i [|j [|k l]]]; cbn in Hd; try lia; reflexivity.
    - rewrite (IH Ht). destruct (diffs t') as [|i [|j [|k l]]]; try reflexivity. cbn [rbind]. destruct ((i <? n)%nat && (j <? n)%nat); reflexivity. }
  rewrite G. reflexivity.
Qed.
(* square root form of the bulk part: the right force where the ideal gas pressure exceeds the bulk pressure, the opposite force where it is smaller *)
Theorem C50_sqrt_form : forall rho p t l s, derivable_pt_lim (fun y => rho y * (1 / 3) - p y) t l -> 0 < rho t * (1 / 3) - p t ->
  derivable_pt_lim (fun y => bulk_sqrt_term (rho y) (p y)) t s -> pbs_force (bulk_sqrt_term (rho t) (p t)) s = l.
Proof. exact pbs_positive. Qed.
Theorem C50_sqrt_form_refuted : forall rho p t l s, derivable_pt_lim (fun y => rho y * (1 / 3) - p y) t l -> rho t * (1 / 3) - p t < 0 ->
  derivable_pt_lim (fun y => bulk_sqrt_term (rho y) (p y)) t s -> pbs_force (bulk_sqrt_term (rho t) (p t)) s = - l.
Proof. exact pbs_negative. Qed.
(* storage of the symmetric tensor: dim (dim + 1) / 2 slots, one per unordered pair *)
Theorem C50_slots : forall dim i j, (i < dim)%nat -> (j < dim)%nat -> exists k, tensor_slot dim i j = Ok k /\ tensor_slot dim j i = Ok k /\ (2 * k < dim * (dim + 1))%nat /\
  forall i' j', tensor_slot dim i' j' = Ok k -> (i' = i /\ j' = j) \/ (i' = j /\ j' = i).
Proof.
  intros dim i j Hi Hj. assert (S1 : forall a b, tensor_slot dim a b = position (sorted_pair a b) (symmetric_pairs dim)).
  { intros a b. unfold tensor_slot, sorted_pair. destruct (Nat.ltb_spec a b), (Nat.leb_spec a b); try reflexivity; try lia. replace b with a by lia. reflexivity. }
  assert (S2 : sorted_pair j i = sorted_pair i j) by (unfold sorted_pair; destruct (Nat.leb_spec i j), (Nat.leb_spec j i); try reflexivity; try lia; replace j with i by lia; reflexivity).
  destruct (position_in (symmetric_pairs dim) (sorted_pair i j)) as [k Ek]. { unfold sorted_pair. destruct (Nat.leb_spec i j); apply symmetric_pairs_in; lia. }
  exists k. rewrite !S1, S2. split; [exact Ek|]. split; [exact Ek|]. pose proof (position_spec _ _ _ Ek) as Hn. split.
  - rewrite <- symmetric_pairs_length. assert (k < length (symmetric_pairs dim))%nat by (apply nth_error_Some; congruence). lia.
  - intros i' j' H. rewrite S1 in H. apply position_spec in H. rewrite Hn in H. injection H as H. unfold sorted_pair in H. destruct (Nat.leb_spec i j), (Nat.leb_spec i' j'); injection H as -> ->; auto.
Qed.
Theorem C50_slots_used : forall dim k, (2 * k < dim * (dim + 1))%nat -> exists i j, (i <= j < dim)%nat /\ tensor_slot dim i j = Ok k.
Proof.
  intros dim k Hk. rewrite <- symmetric_pairs_length in Hk. destruct (nth_error (symmetric_pairs dim) k) as [[i j]|] eqn:E; [|apply nth_error_None in E; lia].
  exists i, j. pose proof (nth_error_In _ _ E) as Hin. apply symmetric_pairs_in in Hin. split; [exact Hin|]. unfold tensor_slot. destruct (Nat.ltb_spec i j); [|replace j with i in * by lia]; apply position_nodup; auto using symmetric_pairs_nodup.
Qed.

Print Assumptions C50_expand.
Print Assumptions C50_bulk_potential.
Print Assumptions C50_potential.
Print Assumptions C50_gamma.
Print Assumptions C50_force.
Print Assumptions C50_equilibrium.
Print Assumptions C50_symmetric.
Print Assumptions C50_forms.
Print Assumptions C50_bulk_pressure.
Print Assumptions C50_accepted.
Print Assumptions C50_single_term_refuted.
Print Assumptions C50_rejected.
Print Assumptions C50_sqrt_form.
Print Assumptions C50_sqrt_form_refuted.
Print Assumptions C50_slots.
Print Assumptions C50_slots_used.

(* ---- examples: double well with gradient energy, two coupled order parameters ---- *)
Definition ex_energy : list term :=
  [{| factor := 1; powers := [2; 0]%nat; diffs := [] |}; {| factor := -2; powers := [3; 0]%nat; diffs := [] |}; {| factor := 1; powers := [4; 0]%nat; diffs := [] |};
   {| factor := 3; powers := [1; 2]%nat; diffs := [] |}; {| factor := 1 / 2; powers := []; diffs := [0; 0]%nat |}; {| factor := 1 / 5; powers := []; diffs := [1; 0]%nat |}].
Example C50_example_energy : Forall (well_formed 2) ex_energy.
Proof.
  unfold ex_energy. apply Forall_forall. intros t Ht. unfold well_formed. cbn [In] in Ht.
  repeat (destruct Ht as [Ht|Ht]; [subst t; cbn; first [left; split; reflexivity | right; do 2 eexists; split; [reflexivity|lia]]|]). destruct Ht.
Qed.
(* fields exp x and x *)
Definition ex_jet (i : nat) (ds : list nat) (y : point) : R := if Nat.eqb i 0 then (if forallb (Nat.eqb 0) ds then exp (y 0%nat) else 0) else coordinate_jet 0 ds y.
Example C50_example_smooth : smooth ex_jet.
Proof.
  split.
  - intros i ds a x. unfold ex_jet. destruct (Nat.eqb i 0); [|apply (smooth_derivative _ coordinate_smooth)]. unfold partial_derivative. cbn [forallb]. destruct (forallb (Nat.eqb 0) ds); [|rewrite andb_false_r; apply derivable_pt_lim_const].
    rewrite andb_true_r. unfold move. destruct (Nat.eqb 0 a) eqn:E; [|apply derivable_pt_lim_const]. apply Nat.eqb_eq in E. subst a. apply derivable_pt_lim_exp.
  - intros i ds ds' x Hp. unfold ex_jet. destruct (Nat.eqb i 0); [|now apply (smooth_symmetric _ coordinate_smooth)].
    assert (E : forallb (Nat.eqb 0) ds = forallb (Nat.eqb 0) ds') by (induction Hp; cbn [forallb]; try congruence; rewrite !andb_assoc, (andb_comm (Nat.eqb 0 y)); reflexivity). rewrite E. reflexivity.
Qed.
Example C50_example_tensor : exists p, pressure_tensor 2 2 true true ex_energy = Ok p /\ value ex_jet (p 0%nat 1%nat) (fun _ => 0) = 0 /\ value ex_jet (p 0%nat 0%nat) (fun _ => 0) <> value ex_jet (p 1%nat 1%nat) (fun _ => 0).
Proof.
  eexists. split; [reflexivity|]. split; unfold value; cbn; rewrite ?exp_0; [field|]. intros H. apply (f_equal (fun y => y * 1000)) in H. ring_simplify in H. lra.
Qed.
(* density 1 and a bulk pressure growing through 1/3: before, the force is minus the pressure gradient, after, plus *)
Example C50_example_sqrt : derivable_pt_lim (fun y => 1 * (1 / 3) - y) 1 (-1) /\ 1 * (1 / 3) - 1 < 0.
Proof.
  split; [|lra]. pose proof (derivable_pt_lim_minus (fct_cte (1 * (1 / 3))) id 1 0 1 (derivable_pt_lim_const _ _) (derivable_pt_lim_id _)) as H. replace (-1) with (0 - 1) by ring. exact H.
Qed.
Example C50_example_slots : map (fun p => tensor_slot 3 (fst p) (snd p)) [(0, 0); (0, 1); (1, 0); (0, 2); (1, 1); (2, 1); (2, 2)]%nat = [Ok 0; Ok 1; Ok 1; Ok 2; Ok 3; Ok 4; Ok 5]%nat.
Proof. reflexivity. Qed.
