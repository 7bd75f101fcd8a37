(* Derivatives of polynomials, independence of the reported stress from its representation, the exact stress. *)
From Coq Require Import List ZArith Bool Arith Reals Lra Lia.
From Verif Require Import StencilModel RealLib LinLib EqSpec CeModel CeSpec.
Import ListNotations.
Local Open Scope R_scope.

(* ---- values --------------------------------------------------------------------------------------------------------- *)
Lemma dexp_app E p q : dexp_value E (p ++ q) = dexp_value E p + dexp_value E q.
Proof. unfold dexp_value. rewrite map_app. apply rsum_app. Qed.
Lemma dexp_cons E t p : dexp_value E (t :: p) = dterm_value E t + dexp_value E p.
Proof. reflexivity. Qed.
Lemma dexp_flat {A} E (f : A -> dexp) l : dexp_value E (flat_map f l) = rsum (map (fun a => dexp_value E (f a)) l).
Proof. induction l as [|a l IH]; [reflexivity|]. cbn [flat_map map]. rewrite dexp_app, IH. reflexivity. Qed.
Lemma dterm_scale_value E x t : dterm_value E (dterm_scale x t) = x * dterm_value E t.
Proof. destruct t as [[c k] l]. cbn. ring. Qed.
Lemma dscale_value E x p : dexp_value E (dscale x p) = x * dexp_value E p.
Proof. unfold dexp_value, dscale. rewrite map_map. rewrite <- rsum_scal. apply rsum_ext. intros t _. apply dterm_scale_value. Qed.
Lemma dneg_value E p : dexp_value E (dneg p) = - dexp_value E p.
Proof. unfold dneg. rewrite dscale_value. ring. Qed.
Lemma prod_app (l l' : list R) : fold_right Rmult 1 (l ++ l') = fold_right Rmult 1 l * fold_right Rmult 1 l'.
Proof. induction l as [|x l IH]; cbn; [ring|]. rewrite IH. ring. Qed.
Lemma dterm_mul_value E t t' : env_rho E <> 0 -> dterm_value E (dterm_mul t t') = dterm_value E t * dterm_value E t'.
Proof.
  intros H. destruct t as [[c k] l], t' as [[c' k'] l']. cbn. rewrite map_app, prod_app, powerRZ_add by exact H. ring.
Qed.
Lemma dmul_value E p q : env_rho E <> 0 -> dexp_value E (dmul p q) = dexp_value E p * dexp_value E q.
Proof.
  intros H. unfold dmul. induction p as [|t p IH]; [cbn; ring|]. cbn [flat_map]. rewrite dexp_app, IH, dexp_cons.
  replace (dexp_value E (map (dterm_mul t) q)) with (dterm_value E t * dexp_value E q); [ring|].
  unfold dexp_value. rewrite map_map, <- rsum_scal. apply rsum_ext. intros t' _. symmetry. apply dterm_mul_value. exact H.
Qed.

Lemma epoly_app rho u p q : epoly_value rho u (p ++ q) = epoly_value rho u p + epoly_value rho u q.
Proof. unfold epoly_value. rewrite map_app. apply rsum_app. Qed.
Lemma epoly_flat {A} rho u (f : A -> epoly) l : epoly_value rho u (flat_map f l) = rsum (map (fun a => epoly_value rho u (f a)) l).
Proof. induction l as [|a l IH]; [reflexivity|]. cbn [flat_map map]. rewrite epoly_app, IH. reflexivity. Qed.

Lemma lim_eq f a b x0 : a = b -> derivable_pt_lim f x0 a -> derivable_pt_lim f x0 b. Proof. intros ->. auto. Qed.

(* ---- product rule --------------------------------------------------------------------------------------------------- *)
Section Rule.
  Variables (E : env) (x : target).
  Definition uprod (l : list nat) : R := fold_right Rmult 1 (map (env_u E) l).
  (* derivative of a product of velocities *)
  Fixpoint dprod (l : list nat) : R :=
    match l with [] => 0 | a :: l => sym_value E (diff_u x a) * uprod l + env_u E a * dprod l end.
  Lemma uprod_syms l : fold_right Rmult 1 (map (sym_value E) (map SU l)) = uprod l.
  Proof. rewrite map_map. reflexivity. Qed.
  Lemma picks_value l : rsum (map (fun p => sym_value E (diff_u x (fst p)) * uprod (snd p)) (picks l)) = dprod l.
  Proof.
    induction l as [|a l IH]; [reflexivity|]. cbn [picks map dprod fst snd]. rewrite rsum_cons. f_equal. rewrite map_map. cbn [fst snd].
    rewrite <- IH, <- rsum_scal. apply rsum_ext. intros p _. unfold uprod. cbn. ring.
  Qed.
  Definition dterm_lim (t : eterm) : R :=
    let '(c, k, l) := t in
    match k with O => 0 | Datatypes.S k' => c * INR k * env_rho E ^ k' * sym_value E (diff_rho x) * uprod l end + c * env_rho E ^ k * dprod l.
  Lemma diff_term_value t : dexp_value E (diff_term x t) = dterm_lim t.
  Proof.
    destruct t as [[c k] l]. unfold diff_term, dterm_lim. rewrite dexp_app. f_equal.
    - destruct k as [|k]; [reflexivity|]. unfold dexp_value. cbn [map dterm_value fold_right rsum]. rewrite uprod_syms.
      rewrite <- pow_powerRZ. ring.
    - unfold dexp_value. rewrite map_map, <- picks_value, <- rsum_scal. apply rsum_ext. intros p _. cbn [dterm_value map fold_right].
      rewrite uprod_syms, <- pow_powerRZ. ring.
  Qed.
  Lemma diff_poly_value p : dexp_value E (diff_poly x p) = rsum (map dterm_lim p).
  Proof. unfold diff_poly. rewrite dexp_flat. apply rsum_ext. intros t _. apply diff_term_value. Qed.

  Definition rho_at (h : R) : R := env_rho E + h * sym_value E (diff_rho x).
  Definition u_at (h : R) (a : nat) : R := env_u E a + h * sym_value E (diff_u x a).
  Lemma line_lim a b : derivable_pt_lim (fun h => a + h * b) 0 b.
  Proof.
    apply (lim_eq _ (0 + (1 * b + 0 * 0))); [ring|].
    apply (derivable_pt_lim_plus (fun _ => a) (fun h => h * b) 0 0 (1 * b + 0 * 0)); [apply derivable_pt_lim_const|].
    apply (derivable_pt_lim_mult id (fun _ => b) 0 1 0); [apply derivable_pt_lim_id|apply derivable_pt_lim_const].
  Qed.
  Lemma at0 a : env_u E a + 0 * sym_value E (diff_u x a) = env_u E a. Proof. ring. Qed.
  Lemma uprod_lim l : derivable_pt_lim (fun h => fold_right Rmult 1 (map (u_at h) l)) 0 (dprod l).
  Proof.
    induction l as [|a l IH]; [apply derivable_pt_lim_const|]. cbn [map fold_right dprod].
    eapply lim_eq; [|apply (derivable_pt_lim_mult (fun h => u_at h a) (fun h => fold_right Rmult 1 (map (u_at h) l)) 0 (sym_value E (diff_u x a)) (dprod l)); [apply line_lim|exact IH]].
    cbn beta. unfold u_at at 2. rewrite at0. f_equal. unfold uprod. f_equal. f_equal. apply map_ext. intros b. unfold u_at. apply at0.
  Qed.
  Lemma pow_lim k : derivable_pt_lim (fun h => rho_at h ^ k) 0 (INR k * env_rho E ^ pred k * sym_value E (diff_rho x)).
  Proof.
    eapply lim_eq; [|apply (derivable_pt_lim_comp rho_at (fun y => y ^ k) 0 (sym_value E (diff_rho x)) (INR k * rho_at 0 ^ pred k)); [apply line_lim|apply derivable_pt_lim_pow]].
    unfold rho_at. replace (env_rho E + 0 * sym_value E (diff_rho x)) with (env_rho E) by ring. reflexivity.
  Qed.
  Lemma eterm_lim t : derivable_pt_lim (fun h => eterm_value (rho_at h) (u_at h) t) 0 (dterm_lim t).
  Proof.
    destruct t as [[c k] l]. unfold eterm_value, dterm_lim.
    eapply lim_eq; [|apply (derivable_pt_lim_mult (fun h => c * rho_at h ^ k) (fun h => fold_right Rmult 1 (map (u_at h) l)) 0
      (c * (INR k * env_rho E ^ pred k * sym_value E (diff_rho x))) (dprod l)); [|apply uprod_lim]].
    - cbn beta. replace (rho_at 0) with (env_rho E) by (unfold rho_at; ring).
      replace (fold_right Rmult 1 (map (u_at 0) l)) with (uprod l) by (unfold uprod; f_equal; apply map_ext; intros b; unfold u_at; symmetry; apply at0).
      destruct k as [|k]; [cbn; ring|]. cbn [pred]. ring.
    - apply (derivable_pt_lim_scal (fun h => rho_at h ^ k) c 0). apply pow_lim.
  Qed.
  Lemma epoly_lim p : derivable_pt_lim (fun h => epoly_value (rho_at h) (u_at h) p) 0 (dexp_value E (diff_poly x p)).
  Proof.
    rewrite diff_poly_value. induction p as [|t p IH]; [apply derivable_pt_lim_const|].
    apply (derivable_pt_lim_plus (fun h => eterm_value (rho_at h) (u_at h) t) (fun h => epoly_value (rho_at h) (u_at h) p)); [apply eterm_lim|exact IH].
  Qed.
  (* equal polynomials have equal derivatives *)
  Lemma diff_ext p q : (forall rho u, epoly_value rho u p = epoly_value rho u q) -> dexp_value E (diff_poly x p) = dexp_value E (diff_poly x q).
  Proof.
    intros H. eapply uniqueness_limite; [apply epoly_lim|].
    intros eps Heps. destruct (epoly_lim q eps Heps) as (d & Hd). exists d. intros h H1 H2. rewrite !H. apply Hd; assumption.
  Qed.
End Rule.

(* ---- what is kept after dropping error terms ---------------------------------------------------------------------------- *)
Definition scaled (e : R) (E : env) : env :=
  {| env_rho := env_rho E; env_u := fun a => e * env_u E a; env_gu := fun a b => e * env_gu E a b; env_gr := fun _ => 0;
     env_tu := fun a => e * env_tu E a; env_tr := env_tr E |}.
Lemma scaled_syms e E l : fold_right Rmult 1 (map (sym_value (scaled e E)) l) =
  if has_rho_gradient l then 0 else e ^ count_u l * fold_right Rmult 1 (map (sym_value E) l).
Proof.
  induction l as [|s l IH]; [cbn; ring|]. cbn [map fold_right]. rewrite IH. unfold has_rho_gradient, count_u. cbn [existsb map fold_right].
  fold (has_rho_gradient l). fold (count_u l). destruct s; cbn [orb sym_value scaled env_u env_gu env_gr env_tu env_tr counts_u];
    try (destruct (has_rho_gradient l); [ring|]; cbn [Nat.add]; cbn [pow]; ring).
Qed.
Definition low (t : dterm) (E : env) : R := if keep t then dterm_value E t else 0.
Lemma keep_value E p : dexp_value E (remove_error_terms p) = rsum (map (fun t => low t E) p).
Proof.
  unfold remove_error_terms, low. induction p as [|t p IH]; [reflexivity|]. cbn [filter map]. rewrite rsum_cons, <- IH.
  destruct (keep t); [apply dexp_cons|lra].
Qed.
Lemma pow_lim0 n : derivable_pt_lim (fun e => e ^ n) 0 (if Nat.eqb n 1 then 1 else 0).
Proof.
  eapply lim_eq; [|apply derivable_pt_lim_pow]. destruct n as [|[|n]]; cbn [pred Nat.eqb].
  - cbn. ring.
  - cbn. ring.
  - rewrite pow_i by lia. ring.
Qed.
(* the kept part is the part of degree at most one *)
Lemma scaled_lim E t : derivable_pt_lim (fun e => dterm_value (scaled e E) t) 0 (low t E - dterm_value (scaled 0 E) t).
Proof.
  destruct t as [[c k] l]. unfold low, keep, dterm_value. cbn [env_rho scaled]. 
  assert (EQ : forall e, c * powerRZ (env_rho E) k * fold_right Rmult 1 (map (sym_value (scaled e E)) l) =
    if has_rho_gradient l then 0 else (c * powerRZ (env_rho E) k * fold_right Rmult 1 (map (sym_value E) l)) * e ^ count_u l).
  { intros e. rewrite scaled_syms. destruct (has_rho_gradient l); ring. }
  intros eps Heps.
  destruct (has_rho_gradient l) eqn:HG; cbn [negb andb].
  - destruct (derivable_pt_lim_const 0 0 eps Heps) as (d & Hd). exists d. intros h H1 H2. rewrite !EQ.
    match goal with |- Rabs ?v < _ => replace v with 0 by (field; exact H1) end. rewrite Rabs_R0. exact Heps.
  - set (K := c * powerRZ (env_rho E) k * fold_right Rmult 1 (map (sym_value E) l)) in *.
    destruct (derivable_pt_lim_scal (fun e => e ^ count_u l) K 0 _ (pow_lim0 (count_u l)) eps Heps) as (d & Hd). exists d. intros h H1 H2. rewrite !EQ.
    specialize (Hd h H1 H2). unfold mult_real_fct in Hd.
    replace ((if (count_u l <=? 1)%nat then K else 0) - K * 0 ^ count_u l) with (K * (if (count_u l =? 1)%nat then 1 else 0)); [exact Hd|].
    destruct (count_u l) as [|[|n]]; cbn [Nat.leb Nat.eqb]; [cbn; ring|cbn; ring|]. rewrite pow_i by lia. ring.
Qed.
Lemma scaled_lims E p : derivable_pt_lim (fun e => dexp_value (scaled e E) p) 0 (dexp_value E (remove_error_terms p) - dexp_value (scaled 0 E) p).
Proof.
  rewrite keep_value. induction p as [|t p IH]; [eapply lim_eq; [|apply derivable_pt_lim_const]; cbn; ring|].
  eapply lim_eq; [|apply (derivable_pt_lim_plus (fun e => dterm_value (scaled e E) t) (fun e => dexp_value (scaled e E) p)); [apply scaled_lim|exact IH]].
  rewrite dexp_cons. cbn [map]. rewrite rsum_cons. ring.
Qed.
Definition same (p q : dexp) : Prop := forall E, env_rho E <> 0 -> dexp_value E p = dexp_value E q.
(* expressions with the same values have the same value after dropping error terms *)
Lemma kept_ext E p q : same p q -> env_rho E <> 0 -> dexp_value E (remove_error_terms p) = dexp_value E (remove_error_terms q).
Proof.
  intros H HE. assert (H0 : dexp_value (scaled 0 E) p = dexp_value (scaled 0 E) q) by (apply H; exact HE).
  assert (HL : dexp_value E (remove_error_terms p) - dexp_value (scaled 0 E) p = dexp_value E (remove_error_terms q) - dexp_value (scaled 0 E) q).
  { eapply uniqueness_limite; [apply scaled_lims|]. intros eps Heps. destruct (scaled_lims E q eps Heps) as (d & Hd). exists d. intros h H1 H2.
    rewrite !H by exact HE. rewrite <- (H (scaled 0 E)) by exact HE. rewrite (H (scaled 0 E)) by exact HE. apply Hd; assumption. }
  lra.
Qed.

(* ---- coefficients -------------------------------------------------------------------------------------------------------- *)
Definition only (rho : R) (v : R) (a b : nat) : env :=
  {| env_rho := rho; env_u := fun _ => 0; env_gu := fun i j => if (i =? a)%nat && (j =? b)%nat then v else 0; env_gr := fun _ => 0;
     env_tu := fun _ => 0; env_tr := 0 |}.
Lemma only_ge1 rho v a b s : sym_value (only rho v a b) s = if sym_eq_dec s (GU a b) then v else 0.
Proof.
  destruct s; cbn [sym_value only env_u env_gu env_gr env_tu env_tr]; destruct (sym_eq_dec _ _) as [e|e]; try discriminate; try reflexivity.
  - injection e as -> ->. now rewrite !Nat.eqb_refl.
  - destruct (Nat.eqb_spec a0 a); [subst|reflexivity]. destruct (Nat.eqb_spec b0 b); [subst; contradiction|reflexivity].
Qed.
Ltac dl := match goal with |- context [list_eq_dec ?A ?B ?C] => destruct (list_eq_dec A B C) as [e|e] end.
Lemma coeff_term rho a b c k l : (count_u l <= 1)%nat ->
  dterm_value (only rho 1 a b) (c, k, l) - dterm_value (only rho 0 a b) (c, k, l) = if list_eq_dec sym_eq_dec l [GU a b] then c * powerRZ rho k else 0.
Proof.
  intros H. cbn [dterm_value]. replace (env_rho (only rho 1 a b)) with rho by reflexivity. replace (env_rho (only rho 0 a b)) with rho by reflexivity.
  destruct l as [|s l]. { cbn [map fold_right]. dl; [discriminate|]. ring. }
  cbn [map fold_right]. rewrite !only_ge1. destruct (sym_eq_dec s (GU a b)) as [->|N].
  - destruct l as [|s' l].
    + cbn [map fold_right]. dl; [ring|congruence].
    + cbn [map fold_right]. rewrite !only_ge1. destruct (sym_eq_dec s' (GU a b)) as [->|N'].
      * unfold count_u in H. cbn in H. lia.
      * dl; [discriminate|]. ring.
  - dl; [injection e as -> _; contradiction|]. ring.
Qed.
Lemma coeff_value rho a b p : coeff (GU a b) (remove_error_terms p) rho =
  dexp_value (only rho 1 a b) (remove_error_terms p) - dexp_value (only rho 0 a b) (remove_error_terms p).
Proof.
  unfold coeff, dexp_value. rewrite <- rsum_minus. apply rsum_ext. intros [[c k] l] H. symmetry. apply coeff_term.
  unfold remove_error_terms in H. apply filter_In in H. destruct H as [_ H]. unfold keep in H. apply andb_true_iff in H. destruct H as [_ H]. now apply Nat.leb_le.
Qed.
Lemma coeff_ext rho a b p q : same p q -> rho <> 0 -> coeff (GU a b) (remove_error_terms p) rho = coeff (GU a b) (remove_error_terms q) rho.
Proof. intros H HR. rewrite !coeff_value. rewrite !(kept_ext _ p q H) by exact HR. reflexivity. Qed.
