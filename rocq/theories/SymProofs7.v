(* Cumulant collisions of turned populations. *)
From Coq Require Import String List ZArith QArith Qreals Bool Arith Reals Lra Lia.
From Verif Require Import StencilModel StencilSpec StencilProofs AccessModel StreamSpec RealLib LinLib TransSpec TransModel TransProofs TransProofs2 MomModel EqModel EqSpec EqProofs CumModel CumProofs CumProofs2 CumProofs4 CollModel CollSpec CollProofs CollProofs5 CollProofs6 CollProofs7 BoundProofs SymSpec SymProofs SymProofs2 SymProofs3 SymProofs4 SymProofs6.
From Verif Require SimpProofs2.
Import ListNotations.
Local Open Scope R_scope.

Lemma turn_exp_injective w : forall e e', turn_exp w e = turn_exp w e' -> e = e'.
Proof.
  induction w as [|g w IH]; intros e e' H; [exact H|]. cbn [turn_exp] in H. apply IH in H. destruct g as [a|a]; cbn [act_exp] in H; [exact H|]. rewrite <- (exchange_twice a e), <- (exchange_twice a e'). now rewrite H.
Qed.
Lemma closed_back w E e : NoDup E -> (forall x, In x E -> In (turn_exp w x) E) -> In (turn_exp w e) E -> In e E.
Proof.
  intros HN Hc Hin. assert (I : incl E (map (turn_exp w) E)).
  { apply NoDup_length_incl; [|now rewrite map_length|]; [|intros x Hx; apply in_map_iff in Hx as (y & <- & Hy); auto]. apply FinFun.Injective_map_NoDup; [|exact HN]. intros x y. apply turn_exp_injective. }
  apply I in Hin. apply in_map_iff in Hin as (x & Ex & Hx). now rewrite <- (turn_exp_injective w _ _ Ex).
Qed.
Lemma lookup_out E vals e : ~ In e E -> lookup E vals e = 0.
Proof.
  intros H. unfold lookup. destruct (find _ _) as [[x v]|] eqn:F; [|reflexivity]. exfalso. apply find_some in F as [F1 F2]. cbn [fst] in F2. apply tuple_eqb_eq in F2. subst x. apply H. eapply in_combine_l; eauto.
Qed.
(* values for the exponents E, listed *)
Section Lists.
  Context (D : nat) (w : list axis_op) (E : list (list nat)).
  Hypothesis HN : NoDup E.
  Hypothesis HD : forall e, In e E -> length e = D.
  Hypothesis Hc : forall e, In e E -> In (turn_exp w e) E.
  Lemma lookup_covariant v v' : v' = map (fun e => turn_sign w e * lookup E v (turn_exp w e)) E -> covariant D w (lookup E v) (lookup E v').
  Proof.
    intros -> e He. destruct (in_dec (list_eq_dec Nat.eq_dec) e E) as [Hin|Hin].
    - now rewrite (lookup_map E (fun e => turn_sign w e * lookup E v (turn_exp w e)) e Hin).
    - rewrite lookup_out by exact Hin. rewrite lookup_out; [ring|]. intros H. apply Hin. now apply (closed_back w E).
  Qed.
  Lemma map_covariant phi phi' : covariant D w phi phi' -> map phi' E = map (fun e => turn_sign w e * lookup E (map phi E) (turn_exp w e)) E.
  Proof. intros H. apply map_ext_in. intros e He. rewrite H by auto. now rewrite lookup_map by auto. Qed.
  Lemma list_covariant v v' : length v' = length E -> covariant D w (lookup E v) (lookup E v') -> v' = map (fun e => turn_sign w e * lookup E v (turn_exp w e)) E.
  Proof. intros L H. rewrite <- (map_lookup E v' HN L) at 1. apply map_ext_in. intros e He. now apply H; auto. Qed.
End Lists.
Lemma values_mono E phi : equilibrium_values (map mono_poly E) phi = map phi E.
Proof. unfold equilibrium_values. rewrite map_map. apply map_ext. intros e. unfold poly_value, mono_poly. cbn. ring. Qed.

Section Cumulants.
  Context (D : nat) (S : stencil) (ps : list poly) (w : list axis_op) (cexps cms : list (list nat)) (P Pinv Minv Pcms Pcinv : mat).
  Hypothesis HS : symmetric_stencil D S.
  Hypothesis Hcl : forall d d', In d S -> signed_permutation d d' -> In d' S.
  Notation n := (length S).
  Notation MP := (map mono_poly cms).
  Hypothesis Lc : length cms = n.
  Hypothesis Nc : NoDup cms.
  Hypothesis Dc : forall e, In e cms -> length e = D.
  Hypothesis Cc : forall e, In e cms -> In (turn_exp w e) cms.
  Hypothesis HPc : mono_to_poly cms MP = Ok Pcms.
  Hypothesis HPci : is_inverse (length MP) Pcms Pcinv.
  Hypothesis HM : is_inverse n (monomial_matrix cms S (rzero D)) Minv.
  Hypothesis Le : length cexps = n.
  Hypothesis Ne : NoDup cexps.
  Hypothesis De : forall e, In e cexps -> length e = D.
  Hypothesis Ce : forall e, In e cexps -> In (turn_exp w e) cexps.
  Hypothesis Nps : Forall (fun p : poly => NoDup (map snd p)) ps.
  Hypothesis HP : mono_to_poly cexps ps = Ok P.
  Hypothesis HPi : is_inverse n P Pinv.
  Context (a : nat -> nat -> R).
  Hypothesis Ha : forall k q, nth_error ps k = Some q -> forall phi, poly_value phi (turn_poly w q) = rsum (map (fun l => a k l * poly_value phi (nth l ps [])) (seq 0 (length ps))).
  Context (d : list R).
  Hypothesis Hd : length d = n.
  Hypothesis Had : forall k l, (k < n)%nat -> (l < n)%nat -> a k l <> 0 -> nth l d 0 = nth k d 0.

  Let b := span_entry w cms MP Pcms Pcinv.
  Lemma b_spec : forall k q, nth_error MP k = Some q -> forall phi, poly_value phi (turn_poly w q) = rsum (map (fun l => b k l * poly_value phi (nth l MP [])) (seq 0 (length MP))).
  Proof.
    intros k q E phi. unfold b. apply span_turn; auto; [|now rewrite map_length]. rewrite Forall_forall. intros p Hp. apply in_map_iff in Hp as (e & <- & _). cbn. constructor; [intros []|constructor].
  Qed.
  Lemma LMP : length MP = n. Proof. now rewrite map_length. Qed.
  Lemma Lps : length ps = n.
  Proof. destruct (mono_to_poly_spec cexps ps P (fun _ => 0) Ne Nps HP) as [[L _] _]. destruct HPi as ([L' _] & _). congruence. Qed.
  Lemma terms_MP : forall p t, In p MP -> In t p -> length (snd t) = D.
  Proof. intros p t Hp Ht. apply in_map_iff in Hp as (e & <- & He). destruct Ht as [<-|[]]. cbn. auto. Qed.
  Lemma terms_ps : forall p t, In p ps -> In t p -> length (snd t) = D.
  Proof. intros p t Hp Ht. apply De. eapply mono_to_poly_terms; eauto. Qed.

  (* central moments *)
  Lemma mixed_cov v v' : mixed S b v v' -> covariant D w (lookup cms v) (lookup cms v').
  Proof.
    intros M. pose proof M as (L1 & L2 & _). apply lookup_covariant; auto.
    pose proof (mixed_values S MP w LMP b b_spec (lookup cms v)) as M'. rewrite !values_mono, map_lookup in M' by (auto; congruence). exact (mixed_unique S MP LMP b v _ _ M M').
  Qed.
  Lemma cov_mixed v v' : length v = n -> length v' = n -> covariant D w (lookup cms v) (lookup cms v') -> mixed S b v v'.
  Proof.
    intros L1 L2 H. pose proof (mixed_values S MP w LMP b b_spec (lookup cms v)) as M'. rewrite !values_mono, map_lookup in M' by (auto; congruence).
    now rewrite (list_covariant D w cms Nc Dc v v') by (auto; congruence).
  Qed.
  Lemma map_mixed phi phi' : covariant D w phi phi' -> mixed S b (map phi cms) (map phi' cms).
  Proof.
    intros H. apply cov_mixed; try (rewrite map_length; exact Lc). apply lookup_covariant; auto. now apply (map_covariant D).
  Qed.
  (* polynomial cumulants *)
  Lemma values_mixed phi phi' : covariant D w phi phi' -> mixed S a (equilibrium_values ps phi) (equilibrium_values ps phi').
  Proof.
    intros H. rewrite (values_ext D ps terms_ps phi' (fun e => turn_sign w e * phi (turn_exp w e))) by exact H. apply (mixed_values S ps w Lps a Ha).
  Qed.
  Lemma forward_cumulants u rho kap kap' : length u = D -> covariant D w kap kap' -> mixed S a (cumulant_forward D u rho cexps P kap) (cumulant_forward D (turnR w u) rho cexps P kap').
  Proof.
    intros Hu H. unfold cumulant_forward. rewrite !(values_P cexps ps P Ne Nps HP). apply values_mixed. now apply cfm_turn.
  Qed.
  Lemma backward_cumulants u rho C C' : length u = D -> mixed S a C C' -> mixed S b (cumulant_backward D u rho cexps Pinv C cms) (cumulant_backward D (turnR w u) rho cexps Pinv C' cms).
  Proof.
    intros Hu M. unfold cumulant_backward. apply map_mixed. apply mfc_turn; [exact Hu|]. pose proof M as (L1 & L2 & _). destruct HPi as ([W1 _] & [W2 _] & I1 & I2).
    set (c := mv Pinv C). assert (Lcc : length c = length cexps) by (unfold c; rewrite mv_length; congruence).
    assert (EC : C = equilibrium_values ps (lookup cexps c)). { unfold equilibrium_values. rewrite <- (values_P cexps ps P Ne Nps HP). rewrite map_lookup by auto. unfold c. symmetry. now apply I1. }
    assert (EC' : C' = mv P (map (fun e => turn_sign w e * lookup cexps c (turn_exp w e)) cexps)).
    { rewrite (values_P cexps ps P Ne Nps HP). apply (mixed_unique S ps Lps a C); [exact M|]. rewrite EC at 1. apply (mixed_values S ps w Lps a Ha). }
    apply lookup_covariant; auto. rewrite EC'. apply I2. now rewrite map_length.
  Qed.

  (* forces *)
  Context (ws : list R).
  Hypothesis Hws : turned w S ws ws.
  Lemma central_mixed phi phi' u : turned w S phi phi' -> length u = D -> mixed S b (mv (monomial_matrix cms S u) phi) (mv (monomial_matrix cms S (turnR w u)) phi').
  Proof. intros H Hu. rewrite !mv_monomial_matrix. apply map_mixed. intros e He. now apply (central_turn D S w HS Hcl). Qed.
  Lemma rscal_mixed c v v' : mixed S b v v' -> mixed S b (rscal c v) (rscal c v').
  Proof.
    intros (L1 & L2 & H). repeat split; try (rewrite rscal_length; assumption). intros k Hk. rewrite nth_rscal, H by exact Hk. rewrite <- rsum_scal. apply rsum_ext. intros l _. rewrite nth_rscal. ring.
  Qed.
  Lemma sum_one : forall e, nsum e = 1%nat -> exists i, (i < length e)%nat /\ e = unit_tuple (length e) i.
  Proof.
    induction e as [|x e IH]; intros H; [discriminate|]. change (nsum (x :: e)) with (x + nsum e)%nat in H. destruct x as [|x].
    - destruct (IH H) as (i & Hi & Ei). exists (Datatypes.S i). split; [cbn; lia|]. cbn [length]. rewrite unit_tuple_S. congruence.
    - exists 0%nat. split; [cbn; lia|]. cbn [length]. rewrite unit_tuple_0. assert (nsum e = 0%nat) by lia. assert (x = 0%nat) by lia. subst x. f_equal. clear - H0. induction e as [|y e IH]; [reflexivity|]. change (nsum (y :: e)) with (y + nsum e)%nat in H0.
      assert (y = 0%nat) by lia. subst y. unfold zero_tuple in *. cbn [length repeat]. f_equal. apply IH. lia.
  Qed.
  Definition first_order (F : list R) (e : list nat) : R := if Nat.eqb (nsum e) 1 then 1 / 2 * rmono F e else 0.
  Lemma first_order_turn F : length F = D -> covariant D w (first_order F) (first_order (turnR w F)).
  Proof. intros HF e He. unfold first_order. rewrite nsum_turn, rmono_turn by congruence. destruct (Nat.eqb (nsum e) 1); ring. Qed.
  Lemma nsum_zero D0 : nsum (zero_tuple D0) = 0%nat.
  Proof. unfold zero_tuple. induction D0 as [|m IH]; [reflexivity|]. cbn [repeat]. change (nsum (0%nat :: repeat 0%nat m)) with (0 + nsum (repeat 0%nat m))%nat. rewrite IH. reflexivity. Qed.
  Lemma nsum_unit D0 : forall i, (i < D0)%nat -> nsum (unit_tuple D0 i) = 1%nat.
  Proof.
    induction D0 as [|m IH]; intros i Hi; [lia|]. destruct i as [|i]; [rewrite unit_tuple_0|rewrite unit_tuple_S].
    - change (nsum (1%nat :: zero_tuple m)) with (1 + nsum (zero_tuple m))%nat. now rewrite nsum_zero.
    - change (nsum (0%nat :: unit_tuple m i)) with (0 + nsum (unit_tuple m i))%nat. rewrite IH by lia. reflexivity.
  Qed.
  Lemma central_moment_list F : length F = D -> (exists rest, cms = zero_tuple D :: map (unit_tuple D) (seq 0 D) ++ rest) ->
    (length F <? n)%nat = true /\ 0 :: map (fun x => 1 / 2 * x) F ++ rzero (n - 1 - length F) = map (first_order F) cms.
  Proof.
    intros HF (rest & E). assert (Ln : n = (1 + D + length rest)%nat) by (rewrite <- Lc, E; cbn; rewrite app_length, map_length, seq_length; lia). split; [apply Nat.ltb_lt; lia|].
    rewrite E. cbn [map]. f_equal; [unfold first_order; now rewrite nsum_zero|]. rewrite map_app. f_equal.
    - rewrite map_map. assert (G : forall (l : list R), map (fun x => 1 / 2 * x) l = map (fun i => 1 / 2 * nth i l 0) (seq 0 (length l))).
      { clear. induction l as [|x l IH]; [reflexivity|]. cbn [length seq map nth]. f_equal. rewrite IH, <- seq_shift, map_map. apply map_ext. reflexivity. }
      rewrite G, HF. apply map_ext_in. intros i Hi. apply in_seq in Hi. unfold first_order. rewrite nsum_unit by lia. cbn [Nat.eqb]. f_equal. symmetry. pose proof (rmono_unit F i) as Hr. rewrite HF in Hr. apply Hr. lia.
    - replace (n - 1 - length F)%nat with (length rest) by lia. assert (G : forall e, In e rest -> first_order F e = 0).
      { intros e He. unfold first_order. destruct (Nat.eqb_spec (nsum e) 1) as [E1|]; [|reflexivity]. exfalso. destruct (sum_one e E1) as (i & Hi & Ei). assert (Lee : length e = D) by (apply Dc; rewrite E; right; apply in_or_app; now right). rewrite Lee in *.
        pose proof Nc as N2. rewrite E in N2. apply NoDup_cons_iff in N2 as [_ N2]. apply (SimpProofs2.NoDup_app_disjoint _ _ N2 e); [|exact He]. rewrite Ei. apply in_map. apply in_seq. lia. }
      clear - G. unfold rzero. induction rest as [|e r IH]; [reflexivity|]. cbn [length repeat map]. rewrite G by (left; reflexivity). f_equal. apply IH. intros x Hx. apply G. now right.
  Qed.

  Lemma shift_spec v phi : length v = D -> length phi = n -> mv (shift_matrix n (monomial_matrix cms S v) Minv) (map (poly_moment phi S (rzero D)) MP) = map (poly_moment phi S v) MP.
  Proof.
    intros Hv Hphi. rewrite <- !mono_poly_matrix. unfold shift_matrix. rewrite <- !mv_moment_matrix, mv_mm by apply HM. f_equal. rewrite mono_poly_matrix. destruct HM as (_ & _ & _ & H1). now apply H1.
  Qed.
  Lemma symmetric_forcing_turned fm u F : In fm [Simple; Luo; Guo; He; CentralMoment] -> length u = D -> length F = D ->
    (fm = CentralMoment -> exists rest, cms = zero_tuple D :: map (unit_tuple D) (seq 0 D) ++ rest) ->
    exists g g' h h', symmetric_forcing fm D S cms (mv (shift_matrix n (monomial_matrix cms S u) Minv)) ws u F = Ok (g, h) /\
      symmetric_forcing fm D S cms (mv (shift_matrix n (monomial_matrix cms S (turnR w u)) Minv)) ws (turnR w u) (turnR w F) = Ok (g', h') /\ mixed S b g g' /\ mixed S b h h'.
  Proof.
    intros Hfm Hu HF Hcm. assert (EF : (length F =? D)%nat = true) by now apply Nat.eqb_eq. assert (EF' : (length (turnR w F) =? D)%nat = true) by (rewrite turnR_length; now apply Nat.eqb_eq).
    pose proof (luo_turned D S MP w HS Hcl LMP d Hd ws Hws u F Hu HF) as TL. pose proof (simple_turned D S MP w HS Hcl LMP d Hd ws Hws F HF) as TS.
    destruct fm; cbn [symmetric_forcing]; rewrite ?EF, ?EF'; try (exfalso; cbn in Hfm; decompose [or] Hfm; (discriminate || contradiction)).
    - eexists _, _, _, _. split; [reflexivity|]. split; [reflexivity|]. split; [apply mixed_rzero|now apply central_mixed].
    - destruct (central_moment_list F HF (Hcm eq_refl)) as [K1 K2]. assert (HF' : length (turnR w F) = D) by now rewrite turnR_length. destruct (central_moment_list (turnR w F) HF' (Hcm eq_refl)) as [K3 K4].
      rewrite K1, K3, K2, K4. eexists _, _, _, _. split; [reflexivity|]. split; [reflexivity|]. assert (M : mixed S b (map (first_order F) cms) (map (first_order (turnR w F)) cms)) by (apply map_mixed; now apply first_order_turn). auto.
    - eexists _, _, _, _. split; [reflexivity|]. split; [reflexivity|]. split; [apply mixed_rzero|now apply central_mixed].
    - eexists _, _, _, _. split; [reflexivity|]. split; [reflexivity|]. split; apply rscal_mixed; now apply central_mixed.
    - eexists _, _, _, _. split; [reflexivity|]. split; [reflexivity|].
      assert (M : mixed S b (mv (shift_matrix n (monomial_matrix cms S u) Minv) (map (he_moment D u F) cms)) (mv (shift_matrix n (monomial_matrix cms S (turnR w u)) Minv) (map (he_moment D (turnR w u) (turnR w F)) cms))).
      { apply (T_values_mixed D S MP w HS Hcl LMP terms_MP b b_spec Minv) with (u0 := u); auto.
        - rewrite mono_poly_matrix. exact HM.
        - intros phi Hp. now apply shift_spec.
        - intros phi Hp. apply shift_spec; [now rewrite turnR_length|exact Hp].
        - apply map_mixed. intros e He. now apply he_turn. }
      split; now apply rscal_mixed.
  Qed.

  Context (bg : list R) (zc dev compr : bool) (force : option (force_model * list R)) (fwd bwd : list R -> list R -> res (list R)).
  Hypothesis Hbg : turned w S bg bg.
  Hypothesis Hz : zc && dev = false.
  Hypothesis Hforce : forall fm F, force = Some (fm, F) -> In fm [Simple; Luo; Guo; He; CentralMoment] /\ length F = D /\
    (fm = CentralMoment -> exists rest, cms = zero_tuple D :: map (unit_tuple D) (seq 0 D) ++ rest).
  Hypothesis HT : forall u, length u = D -> moment_transform n S MP bg u (fwd u) (bwd u).
  Lemma cumulant_turned eqC f f' : symmetric_equilibrium w D eqC -> turned w S f f' ->
    exists h h', cumulant_collision D S ps zc dev compr ws cexps cms P Pinv Minv eqC fwd bwd d force f = Ok h /\
      cumulant_collision D S ps zc dev compr ws cexps cms P Pinv Minv eqC fwd bwd d (turn_force w force) f' = Ok h' /\ turned w S h h'.
  Proof.
    intros Heq Hf. assert (HF : forall fm F, force = Some (fm, F) -> length F = D) by (intros fm F E; now apply (Hforce fm F)).
    unfold cumulant_collision, cumulant_collision_with. rewrite Hz. rewrite (pdf_density_turned D S w HS Hcl zc f f' Hf), (velocity_turned D S w HS Hcl zc compr force f f' HF Hf).
    set (rho := pdf_density zc f). pose proof (SymProofs2.velocity_length D S MP LMP d Hd zc compr force f HF) as Lu. set (u := equilibrium_velocity D S zc compr force f) in *. clearbody u rho.
    assert (Lu' : length (turnR w u) = D) by now rewrite turnR_length.
    assert (G : exists g g' h h', match force with None => Ok (rzero n, rzero n) | Some (fm, F) => symmetric_forcing fm D S cms (mv (shift_matrix n (monomial_matrix cms S u) Minv)) ws u F end = Ok (g, h) /\
      match turn_force w force with None => Ok (rzero n, rzero n) | Some (fm, F) => symmetric_forcing fm D S cms (mv (shift_matrix n (monomial_matrix cms S (turnR w u)) Minv)) ws (turnR w u) F end = Ok (g', h') /\ mixed S b g g' /\ mixed S b h h').
    { destruct force as [[fm F]|]; cbn [turn_force].
      - destruct (Hforce fm F eq_refl) as (H1 & H2 & H3). now apply symmetric_forcing_turned.
      - exists (rzero n), (rzero n), (rzero n), (rzero n). split; [reflexivity|]. split; [reflexivity|]. split; apply mixed_rzero. }
    destruct G as (g & g' & h & h' & -> & -> & Mg & Mh). cbn [rbind fst snd].
    destruct (forward_mixed D S MP w HS Hcl LMP terms_MP b b_spec bg u (fwd u) (bwd u) (fwd (turnR w u)) (bwd (turnR w u)) Hbg Lu (HT u Lu) (HT _ Lu') f f' Hf) as (k & k' & -> & -> & Mk). cbn [rbind].
    apply (backward_turned D S MP w HS Hcl LMP terms_MP b b_spec bg u (fwd u) (bwd u) (fwd (turnR w u)) (bwd (turnR w u)) Hbg Lu (HT u Lu) (HT _ Lu')).
    apply (mixed_radd S MP LMP); [|exact Mh]. apply backward_cumulants; [exact Lu|]. apply (mixed_relax S ps Lps a d Hd Had).
    - apply values_mixed. intros e He. now apply Heq.
    - apply forward_cumulants; [exact Lu|]. apply mixed_cov. now apply (mixed_radd S MP LMP).
  Qed.
End Cumulants.

(* the cumulants of the Maxwellian *)
Lemma op_axis_twice D g i : op_axis D g (op_axis D g i) = i.
Proof. destruct g as [a|a]; cbn [op_axis]; [reflexivity|]. destruct (Nat.ltb (a + 1) D); [apply swap_twice|reflexivity]. Qed.
Lemma op_sign_square D g i : op_sign D g i * op_sign D g i = 1.
Proof. destruct g as [a|a]; cbn [op_sign]; [destruct (_ && _)|]; ring. Qed.
Lemma var_op D g env env' i w : J D (rzero D) env' (EVar i) w = op_sign D g i * jren (op_sign D g) (op_axis D g) (J D (rzero D) env (EVar (op_axis D g i))) w.
Proof.
  unfold jren. rewrite !J_var. destruct w as [|j [|k w]]; cbn [sgw map]; [rewrite !nth_rzero; ring| |ring].
  destruct (Nat.eqb_spec j i) as [->|Hn].
  - rewrite Nat.eqb_refl. pose proof (op_sign_square D g i) as E. nra.
  - destruct (Nat.eqb_spec (op_axis D g j) (op_axis D g i)) as [E|E]; [|ring]. exfalso. apply Hn. rewrite <- (op_axis_twice D g j), <- (op_axis_twice D g i). now rewrite E.
Qed.
Lemma square_op D g env env' i w : J D (rzero D) env' (EMul (EVar i) (EVar i)) w = jren (op_sign D g) (op_axis D g) (J D (rzero D) env (EMul (EVar (op_axis D g i)) (EVar (op_axis D g i)))) w.
Proof.
  rewrite J_mul. rewrite (jmul_ext w _ _ (fun v => op_sign D g i * jren (op_sign D g) (op_axis D g) (J D (rzero D) env (EVar (op_axis D g i))) v) (fun v => op_sign D g i * jren (op_sign D g) (op_axis D g) (J D (rzero D) env (EVar (op_axis D g i))) v)) by (intros; apply var_op).
  rewrite jmul_scal_l, jmul_scal_r, jmul_ren. rewrite <- Rmult_assoc, op_sign_square, Rmult_1_l. unfold jren. now rewrite J_mul.
Qed.
Lemma squares_op D g env env' : renamed (op_sign D g) (op_axis D g) D env env' (esum (map (fun i => EMul (EVar i) (EVar i)) (seq 0 D))) (esum (map (fun i => EMul (EVar i) (EVar i)) (seq 0 D))).
Proof.
  intros w. unfold jren. rewrite !J_esum, !map_map. rewrite (rsum_ext _ (fun i => jren (op_sign D g) (op_axis D g) (J D (rzero D) env (EMul (EVar (op_axis D g i)) (EVar (op_axis D g i)))) w)) by (intros; apply square_op).
  assert (HR : forall i, In i (seq 0 D) -> In (op_axis D g i) (seq 0 D)). { intros i Hi. apply in_seq in Hi. apply in_seq. destruct g as [a|a]; cbn [op_axis]; [lia|]. destruct (Nat.ltb_spec (a + 1) D); [|lia]. pose proof (swap_range a D i). lia. }
  rewrite (rsum_reindex (op_axis D g) (fun i => jren (op_sign D g) (op_axis D g) (J D (rzero D) env (EMul (EVar i) (EVar i))) w) (seq 0 D) (seq 0 D)); try apply seq_NoDup; auto.
  - unfold jren. rewrite <- rsum_scal. reflexivity.
  - intros i j _ _ E. rewrite <- (op_axis_twice D g i), <- (op_axis_twice D g j). now rewrite E.
  - intros i Hi. exists (op_axis D g i). split; [now apply HR|apply op_axis_twice].
Qed.
Lemma maxwellian_act D g rho u cs2 e : length u = D -> length e = D -> maxwellian_cumulant D rho (act Ropp g u) cs2 e = act_sign g e * maxwellian_cumulant D rho u cs2 (act_exp g e).
Proof.
  intros Hu He. unfold maxwellian_cumulant, continuous_cumulant, ev0. set (env := fun _ : list nat => 0).
  assert (R : renamed (op_sign D g) (op_axis D g) D env env (ELog (maxwellian_mgf rho (act Ropp g u) cs2)) (ELog (maxwellian_mgf rho u cs2))).
  { apply renamed_log. unfold maxwellian_mgf. rewrite act_length, Hu. apply renamed_mul; [apply renamed_const|]. apply renamed_exp. apply renamed_add; [now apply lin_op|]. apply renamed_mul; [apply renamed_const|apply squares_op]. }
  specialize (R (get_moment_indices e)). change (ev D (rzero D) env (diffs (get_moment_indices e) ?x)) with (J D (rzero D) env x (get_moment_indices e)). rewrite R. unfold jren. rewrite sgw_op, tally_indices by exact He.
  change (ev D (rzero D) env (diffs (get_moment_indices (act_exp g e)) ?x)) with (J D (rzero D) env x (get_moment_indices (act_exp g e))).
  rewrite (J_sym D (rzero D) env (ELog (maxwellian_mgf rho u cs2)) (get_moment_indices (act_exp g e)) (map (op_axis D g) (get_moment_indices e))); [ring|].
  rewrite <- (tally_indices D e He) at 1. rewrite <- tally_op. apply indices_tally. apply op_inD. now apply indices_inD.
Qed.
Lemma maxwellian_cumulant_symmetric w D cs2 : symmetric_equilibrium w D (fun rho u => maxwellian_cumulant D rho u cs2).
Proof. intros rho u e Hu He. apply (turn_lift D (fun u e => maxwellian_cumulant D rho u cs2 e)); auto. intros. now apply maxwellian_act. Qed.
