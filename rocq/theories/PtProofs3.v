From Coq Require Import List Bool Arith Reals Lra Lia Permutation.
From Verif Require Import StencilModel RealLib PtModel PtSpec PtProofs PtProofs2.
Import ListNotations.
Local Open Scope R_scope.

Lemma dlim_rsum : forall A (l : list A) (f : A -> R -> R) (f' : A -> R) t, (forall a, In a l -> derivable_pt_lim (f a) t (f' a)) ->
  derivable_pt_lim (fun y => rsum (map (fun a => f a y) l)) t (rsum (map f' l)).
Proof.
  intros A l f f' t H. induction l as [|a l IH]; [apply derivable_pt_lim_const|]. cbn [map]. rewrite rsum_cons.
  apply (derivable_pt_lim_plus (f a) (fun y => rsum (map (fun b => f b y) l))); [apply H; now left|apply IH; intros; apply H; now right].
Qed.
(* coordinates as fields *)
Definition coordinate_jet (i : nat) (ds : list nat) (y : point) : R :=
  match ds with [] => y i | [a] => if Nat.eqb i a then 1 else 0 | _ => 0 end.
Lemma coordinate_smooth : smooth coordinate_jet.
Proof.
  split.
  - intros i ds a x. unfold partial_derivative. destruct ds as [|b [|c ds]]; cbn [coordinate_jet].
    + unfold move. destruct (Nat.eqb i a); [apply derivable_pt_lim_id|apply derivable_pt_lim_const].
    + apply derivable_pt_lim_const.
    + apply derivable_pt_lim_const.
  - intros i ds ds' x Hp. destruct ds as [|b [|c ds]]; [apply Permutation_nil in Hp; now subst|apply Permutation_length_1_inv in Hp; now subst|].
    apply Permutation_length in Hp. destruct ds' as [|? [|? ?]]; cbn in Hp; try lia. reflexivity.
Qed.
Lemma bulk_potential : forall n energy c i, Forall (well_formed n) energy -> (i < n)%nat ->
  derivable_pt_lim (fun t => bulk_energy energy (move c i t)) (c i) (value coordinate_jet (mu_bulk energy i) c).
Proof.
  intros n energy c i Hw Hi.
  pose proof (value_derivative coordinate_jet coordinate_smooth (expand (bulk_part energy)) i c (expand_free _)) as H. unfold partial_derivative in H.
  change (value_expanded coordinate_jet (derive i (expand (bulk_part energy))) c) with (d coordinate_jet c i (bulk_part energy)) in H. rewrite (d_bulk_part _ _ n) in H by exact Hw.
  rewrite (rsum_ext _ (fun j => if Nat.eqb j i then v coordinate_jet c (mu_bulk energy j) else 0)), rsum_single in H by (first [exact Hi | intros j _; cbn [coordinate_jet]; destruct (Nat.eqb j i); ring]).
  intros eps He. destruct (H eps He) as [delta Hd]. exists delta. intros h Hh Hl. specialize (Hd h Hh Hl).
  assert (E : forall y, value_expanded coordinate_jet (expand (bulk_part energy)) y = bulk_energy energy y) by (intros y; apply (v_bulk_part coordinate_jet y)).
  rewrite !E in Hd. exact Hd.
Qed.
Lemma flux_derivative : forall energy dc i, derivable_pt_lim (fun t => gradient_energy energy (move dc i t)) (dc i) (flux energy i dc).
Proof.
  intros energy dc i. apply dlim_rsum. intros t Ht. destruct (diffs t) as [|j [|k [|l r]]]; try apply derivable_pt_lim_const.
  assert (M : forall j, derivable_pt_lim (fun y => move dc i y j) (dc i) (if Nat.eqb j i then 1 else 0)) by (intros m; unfold move; destruct (Nat.eqb m i); [apply derivable_pt_lim_id|apply derivable_pt_lim_const]).
  assert (Mv : forall j, move dc i (dc i) j = dc j) by (intros m; unfold move; destruct (Nat.eqb_spec m i) as [->|]; reflexivity).
  pose proof (derivable_pt_lim_scal (fun y => move dc i y j * move dc i y k) (factor t) (dc i) _ (derivable_pt_lim_mult (fun y => move dc i y j) (fun y => move dc i y k) (dc i) _ _ (M j) (M k))) as H.
  cbv beta in H. rewrite !Mv in H. replace (factor t * ((if Nat.eqb j i then dc k else 0) + (if Nat.eqb k i then dc j else 0))) with (factor t * ((if Nat.eqb j i then 1 else 0) * dc k + dc j * (if Nat.eqb k i then 1 else 0))) by (destruct (Nat.eqb j i), (Nat.eqb k i); ring).
  exact H.
Qed.
Section Potential.
  Context (jet : nat -> list nat -> point -> R) (Hs : smooth jet).
  Lemma flux_divergence : forall energy i g x, partial_derivative (fun y => flux energy i (fun j => jet j [g] y)) g x
    (rsum (map (fun t => match diffs t with [j; k] => factor t * ((if Nat.eqb j i then jet k [g; g] x else 0) + (if Nat.eqb k i then jet j [g; g] x else 0)) | _ => 0 end) energy)).
  Proof.
    intros energy i g x. unfold partial_derivative, flux. apply (dlim_rsum _ energy (fun t y => match diffs t with [j; k] => factor t * ((if Nat.eqb j i then jet k [g] (move x g y) else 0) + (if Nat.eqb k i then jet j [g] (move x g y) else 0)) | _ => 0 end)).
    intros t Ht. destruct (diffs t) as [|j [|k [|l r]]]; try apply derivable_pt_lim_const.
    apply (derivable_pt_lim_scal (fun y => (if Nat.eqb j i then jet k [g] (move x g y) else 0) + (if Nat.eqb k i then jet j [g] (move x g y) else 0))).
    apply (derivable_pt_lim_plus (fun y => if Nat.eqb j i then jet k [g] (move x g y) else 0) (fun y => if Nat.eqb k i then jet j [g] (move x g y) else 0));
      [destruct (Nat.eqb j i)|destruct (Nat.eqb k i)]; try apply derivable_pt_lim_const; apply (smooth_derivative _ Hs).
  Qed.
  Lemma mu_euler_lagrange : forall n dim energy i x, Forall (well_formed n) energy ->
    value jet (PtModel.chemical_potential dim energy i) x = value jet (mu_bulk energy i) x
      - rsum (map (fun g => rsum (map (fun t => match diffs t with [j; k] => factor t * ((if Nat.eqb j i then jet k [g; g] x else 0) + (if Nat.eqb k i then jet j [g; g] x else 0)) | _ => 0 end) energy)) (seq 0 dim)).
  Proof.
    intros n dim energy i x Hw. change (v jet x (PtModel.chemical_potential dim energy i) = v jet x (mu_bulk energy i) - rsum (map (fun g => rsum (map (fun t => match diffs t with [j; k] => factor t * ((if Nat.eqb j i then jet k [g; g] x else 0) + (if Nat.eqb k i then jet j [g; g] x else 0)) | _ => 0 end) energy)) (seq 0 dim))).
    unfold PtModel.chemical_potential. rewrite v_add. fold (mu_bulk energy i). unfold Rminus. f_equal. rewrite rsum_swap, v_sum, map_map.
    rewrite <- (Rmult_1_l (rsum (map _ energy))), Ropp_mult_distr_l, <- rsum_scal. clear Hw. induction energy as [|t r IH]; [reflexivity|]. cbn [filter map]. rewrite rsum_cons, <- IH. clear IH.
    assert (L : forall j, v jet x (laplacian_of dim j) = rsum (map (fun g => jet j [g; g] x) (seq 0 dim))) by (intros j; unfold laplacian_of; rewrite v_sum, map_map; reflexivity).
    unfold is_bulk at 1. destruct (diffs t) as [|j [|k [|l q]]] eqn:Ed; cbn [negb map].
    - rewrite (rsum_all0 _ (seq 0 dim)) by auto. ring.
    - rewrite rsum_cons. unfold interface_derivative at 1. rewrite Ed, v_const, (rsum_all0 _ (seq 0 dim)) by auto. ring.
    - rewrite rsum_cons. f_equal. unfold interface_derivative. rewrite Ed, v_scale, v_add. rewrite rsum_scal, rsum_plus.
      destruct (Nat.eqb j i), (Nat.eqb k i); rewrite ?L, ?v_const, ?rsum_zero; ring.
    - rewrite rsum_cons. unfold interface_derivative at 1. rewrite Ed, v_const, (rsum_all0 _ (seq 0 dim)) by auto. ring.
  Qed.
  Lemma pressure_symmetric : forall n dim energy p a b x, pressure_tensor n dim true true energy = Ok p -> value jet (p a b) x = value jet (p b a) x.
  Proof.
    intros n dim energy p a b x Hp. unfold pressure_tensor in Hp. destruct (extract_gamma n energy) as [g|e]; [|discriminate Hp]. cbn [rbind] in Hp. injection Hp as <-.
    change (v jet x (Add (interface_component n dim g a b) (if (true && Nat.eqb a b)%bool then pressure_tensor_bulk_component n energy else Const 0)) = v jet x (Add (interface_component n dim g b a) (if (true && Nat.eqb b a)%bool then pressure_tensor_bulk_component n energy else Const 0))).
    rewrite !v_add, (Nat.eqb_sym b a). f_equal. unfold interface_component. rewrite !v_sum, !map_map. apply rsum_ext. intros i Hi. rewrite !v_sum, !map_map. apply rsum_ext. intros j Hj. rewrite !v_scale. f_equal.
    unfold interface_entry. rewrite (Nat.eqb_sym b a). destruct (Nat.eqb_spec a b) as [->|]; [reflexivity|]. rewrite !v_add, !v_mul. ring.
  Qed.
  Lemma force_at_equilibrium : forall n dim energy p b x, Forall (well_formed n) energy -> (b < dim)%nat -> pressure_tensor n dim true true energy = Ok p ->
    (forall i, (i < n)%nat -> exists k, forall y, value jet (PtModel.chemical_potential dim energy i) y = k) -> value jet (force_from_pressure_tensor dim p b) x = 0.
  Proof.
    intros n dim energy p b x Hw Hb Hp Hk. rewrite (gibbs_duhem jet x Hs n dim energy p b Hw Hb Hp). change (v jet x (force_from_phi_and_mu n (PtModel.chemical_potential dim energy) b) = 0).
    unfold force_from_phi_and_mu. rewrite v_sum, map_map. apply rsum_all0. intros i Hi. apply in_seq in Hi. rewrite v_scale, v_mul, v_diff. destruct (Hk i) as [k Ek]; [lia|].
    pose proof (value_derivative jet Hs (expand (PtModel.chemical_potential dim energy i)) b x (expand_free _)) as H. unfold partial_derivative in H.
    replace (d jet x b (PtModel.chemical_potential dim energy i)) with 0; [ring|]. apply (uniqueness_limite (fun _ => k) (x b)); [apply derivable_pt_lim_const|].
    intros eps He. destruct (H eps He) as [delta Hd]. exists delta. intros h Hh Hl. specialize (Hd h Hh Hl). unfold value in Ek. rewrite !Ek in Hd. exact Hd.
  Qed.
End Potential.

(* ---- the square root term ---- *)
Lemma pbs_positive : forall rho p t l s, derivable_pt_lim (fun y => rho y * (1 / 3) - p y) t l -> 0 < rho t * (1 / 3) - p t ->
  derivable_pt_lim (fun y => bulk_sqrt_term (rho y) (p y)) t s -> pbs_force (bulk_sqrt_term (rho t) (p t)) s = l.
Proof.
  intros rho p t l s Hl Hpos Hs. unfold pbs_force.
  set (g := fun y => rho y * (1 / 3) - p y) in *. assert (Hq : derivable_pt_lim (fun y => bulk_sqrt_term (rho y) (p y) * bulk_sqrt_term (rho y) (p y)) t (s * bulk_sqrt_term (rho t) (p t) + bulk_sqrt_term (rho t) (p t) * s)) by exact (derivable_pt_lim_mult (fun y => bulk_sqrt_term (rho y) (p y)) (fun y => bulk_sqrt_term (rho y) (p y)) t s s Hs Hs).
  assert (Hc : continuity_pt g t) by (apply derivable_continuous_pt; exists l; exact Hl).
  assert (E : derivable_pt_lim (fun y => bulk_sqrt_term (rho y) (p y) * bulk_sqrt_term (rho y) (p y)) t l).
  { destruct (Hc (g t / 2)) as (dl & Hdl & Hn); [unfold g; lra|]. intros eps He. destruct (Hl eps He) as [de Hde]. assert (Hm : 0 < Rmin dl de) by (apply Rmin_pos; [exact Hdl|apply cond_pos]). exists (mkposreal _ Hm). intros h Hh Hh'. cbn in Hh'.
    assert (Hg : forall y, 0 < g y -> bulk_sqrt_term (rho y) (p y) * bulk_sqrt_term (rho y) (p y) = g y) by (intros y Hy; unfold bulk_sqrt_term; rewrite sqrt_sqrt by apply Rabs_pos; rewrite Rabs_right; [reflexivity|unfold g in Hy; lra]).
    rewrite !Hg; [apply Hde; [exact Hh|eapply Rlt_le_trans; [exact Hh'|apply Rmin_r]]|exact Hpos|].
    assert (Hd : Rabs (g (t + h) - g t) < g t / 2).
    { apply Hn. split; [split; [exact I|lra]|]. cbn. unfold R_dist. replace (t + h - t) with h by ring. eapply Rlt_le_trans; [exact Hh'|apply Rmin_l]. }
    apply Rabs_def2 in Hd. assert (0 < g t) by exact Hpos. lra. }
  rewrite <- (uniqueness_limite _ _ _ _ Hq E). ring.
Qed.
Lemma pbs_negative : forall rho p t l s, derivable_pt_lim (fun y => rho y * (1 / 3) - p y) t l -> rho t * (1 / 3) - p t < 0 ->
  derivable_pt_lim (fun y => bulk_sqrt_term (rho y) (p y)) t s -> pbs_force (bulk_sqrt_term (rho t) (p t)) s = - l.
Proof.
  intros rho p t l s Hl Hneg Hs.
  assert (E : forall y, bulk_sqrt_term (rho y) (p y) = bulk_sqrt_term (- rho y) (- p y)) by (intros y; unfold bulk_sqrt_term; f_equal; rewrite <- Rabs_Ropp; f_equal; ring).
  rewrite (E t). apply (pbs_positive (fun y => - rho y) (fun y => - p y)).
  - pose proof (derivable_pt_lim_opp _ _ _ Hl) as H. intros eps He. destruct (H eps He) as [de Hd]. exists de. intros h Hh Hh'. specialize (Hd h Hh Hh'). unfold opp_fct in Hd.
    replace (- rho (t + h) * (1 / 3) - - p (t + h) - (- rho t * (1 / 3) - - p t)) with (- (rho (t + h) * (1 / 3) - p (t + h)) - - (rho t * (1 / 3) - p t)) by ring. exact Hd.
  - lra.
  - intros eps He. destruct (Hs eps He) as [de Hd]. exists de. intros h Hh Hh'. specialize (Hd h Hh Hh'). rewrite <- !E. exact Hd.
Qed.

(* ---- slots of the symmetric tensor ---- *)
Lemma pair_eqb_eq : forall p q, pair_eqb p q = true <-> p = q.
Proof. intros [a b] [c e]. unfold pair_eqb. cbn. rewrite andb_true_iff, !Nat.eqb_eq. split; [intros [-> ->]; reflexivity|intros [= -> ->]; auto]. Qed.
Lemma position_spec : forall l p k, position p l = Ok k -> nth_error l k = Some p.
Proof.
  induction l as [|q l IH]; intros p k H; [discriminate H|]. cbn [position] in H. destruct (pair_eqb q p) eqn:E; [apply pair_eqb_eq in E; injection H as <-; now subst|].
  destruct (position p l) as [m|e] eqn:Em; [|discriminate H]. cbn in H. injection H as <-. cbn. now apply IH.
Qed.
Lemma position_in : forall l p, In p l -> exists k, position p l = Ok k.
Proof.
  induction l as [|q l IH]; intros p H; [destruct H|]. cbn [position]. destruct (pair_eqb q p) eqn:E; [eauto|]. destruct H as [H0|H]; [subst q; exfalso; assert (Ht : pair_eqb p p = true) by (apply pair_eqb_eq; reflexivity); congruence|].
  destruct (IH p H) as [k Ek]. rewrite Ek. cbn. eauto.
Qed.
Lemma position_nodup : forall l k p, NoDup l -> nth_error l k = Some p -> position p l = Ok k.
Proof.
  induction l as [|q l IH]; intros k p Hn H; [destruct k; discriminate H|]. inversion Hn as [|? ? Hq Hl]; subst. cbn [position]. destruct k as [|k]; cbn in H.
  - injection H as ->. assert (Ht : pair_eqb p p = true) by now apply pair_eqb_eq. rewrite Ht. reflexivity.
  - destruct (pair_eqb q p) eqn:E; [apply pair_eqb_eq in E; subst; exfalso; apply Hq; eapply nth_error_In; eauto|]. rewrite (IH k p Hl H). reflexivity.
Qed.
Lemma symmetric_pairs_in : forall dim i j, In (i, j) (symmetric_pairs dim) <-> (i <= j < dim)%nat.
Proof. intros. unfold symmetric_pairs. rewrite filter_In, in_prod_iff, !in_seq. cbn [fst snd]. rewrite Nat.leb_le. lia. Qed.
Lemma NoDup_list_prod : forall (A B : Type) (l : list A) (l' : list B), NoDup l -> NoDup l' -> NoDup (list_prod l l').
Proof.
  intros A B l l' H H'. induction H as [|a l Ha Hl IH]; [constructor|]. cbn [list_prod]. 
  assert (Hm : NoDup (map (fun y => (a, y)) l')) by (apply FinFun.Injective_map_NoDup; [intros x y E; congruence|exact H']).
  assert (Hd : forall p, In p (map (fun y => (a, y)) l') -> ~ In p (list_prod l l')).
  { intros p Hp Hq. apply in_map_iff in Hp. destruct Hp as (y & <- & Hy). apply in_prod_iff in Hq. tauto. }
  clear - Hm Hd IH. induction Hm as [|p m Hp Hm IHm]; [exact IH|]. cbn. constructor; [rewrite in_app_iff; intros [X|X]; [tauto|apply (Hd p); [now left|exact X]]|]. apply IHm. intros q Hq. apply Hd. now right.
Qed.
Lemma symmetric_pairs_nodup : forall dim, NoDup (symmetric_pairs dim).
Proof. intros. unfold symmetric_pairs. apply NoDup_filter, NoDup_list_prod; apply seq_NoDup. Qed.
Lemma symmetric_pairs_length : forall dim, (2 * length (symmetric_pairs dim) = dim * (dim + 1))%nat.
Proof.
  intros dim. unfold symmetric_pairs.
  assert (F : forall i m s, (s <= i <= s + m)%nat -> length (filter (fun j => Nat.leb i j) (seq s m)) = (s + m - i)%nat).
  { intros i. induction m as [|m IH]; intros s Hi; cbn [seq filter]; [cbn; lia|]. destruct (Nat.leb_spec i s).
    - cbn [length]. assert (Hs' : s = i) by lia. subst s. assert (G : forall k t, (i <= t)%nat -> length (filter (fun j => Nat.leb i j) (seq t k)) = k).
      { induction k as [|k IHk]; intros t Ht; [reflexivity|]. cbn [seq filter]. destruct (Nat.leb_spec i t); [|lia]. cbn [length]. rewrite IHk by lia. reflexivity. }
      rewrite G by lia. lia.
    - rewrite IH by lia. lia. }
  assert (G : forall m s, (s + m = dim)%nat -> (2 * length (filter (fun p => Nat.leb (fst p) (snd p)) (list_prod (seq s m) (seq 0 dim))) = m * (m + 1))%nat).
  { induction m as [|m IH]; intros s Hm; [reflexivity|]. cbn [seq list_prod]. rewrite filter_app, app_length.
    assert (E : length (filter (fun p => Nat.leb (fst p) (snd p)) (map (fun y => (s, y)) (seq 0 dim))) = Datatypes.S m).
    { replace (Datatypes.S m) with (0 + dim - s)%nat by lia. rewrite <- (F s dim 0%nat) by lia. generalize (seq 0 dim). clear. induction l as [|a l IH]; [reflexivity|]. cbn [map filter fst snd]. destruct (Nat.leb s a); cbn [length]; rewrite IH; reflexivity. }
    rewrite E. specialize (IH (Datatypes.S s)). rewrite Nat.mul_add_distr_l, IH by lia. lia. }
  apply (G dim 0%nat). reflexivity.
Qed.
