(* Quadratic bounce back; geometry on a torus; free slip simulations. *)
From Coq Require Import String List ZArith Bool Arith Reals Lra Lia Permutation QArith Qreals.
From Verif Require Import StencilModel StencilSpec StencilProofs StencilProofs2 AccessModel AccessProofs StreamModel StreamSpec StreamProofs StreamProofs2 GridModel GridProofs RealLib LinLib
  TransSpec EqModel EqSpec EqProofs CollModel CollSpec MacroModel BoundModel BoundSpec BoundProofs BoundProofs2 BoundProofs3 BoundProofs4 BoundProofs5 BoundProofs6 BoundProofs7 BoundProofs8 BoundProofs9.
Import ListNotations.
Local Open Scope R_scope.

Lemma u_times_u_zero n : u_times_u (repeat 0 n) = 0.
Proof. induction n as [|n IH]; [reflexivity|]. unfold u_times_u in *. cbn [repeat map]. rewrite rsum_cons, IH. ring. Qed.
Lemma quadratic_equilibrium_hydro (S : stencil) ws zc compr rho u g i : get_weights S = Ok ws -> length u = dimD S ->
  hydro_maxwellian S compr zc (Some 2%Z) rho u (1 / 3) = Ok g -> (i < length S)%nat ->
  quadratic_equilibrium zc compr (offset_of S i) u rho (nth i (map Q2R ws) 0) = nth i g 0.
Proof.
  intros Hw Hu Hg Hi. rewrite (hydro_nth S ws compr zc (Some 2%Z) rho u g i Hw Hg Hi), (firstn_self_len u _ Hu).
  unfold quadratic_equilibrium. change (offset_of S i) with (dir S i). destruct zc; [|ring]. f_equal.
  unfold discrete_equilibrium. unfold rzero. rewrite e_times_u_zero. change (0 <=? 1)%Z with true. cbv iota zeta. field.
Qed.

Section Quadratic.
  Context (L : lattice) (S : stencil) (ws : list Q) (inv : list nat) (zc compr : bool) (force : option (force_model * list R)).
  Context (f : cell L -> list R) (x : cell L) (i : nat).
  Hypothesis HS : symmetric_stencil (ldim L) S.
  Hypothesis HW : get_weights S = Ok ws.
  Hypothesis Hinv : inverse_dirs S = Ok inv.
  Hypothesis Hl : length (f x) = length S.
  Hypothesis Hi : (i < length S)%nat.
  Notation rho := (pdf_density zc (f x)).
  Notation u := (equilibrium_velocity (dimD S) S zc compr force (f x)).
  Lemma quadratic_rule q omega g s : omega <> 1 -> 1 + q <> 0 -> length u = dimD S ->
    hydro_maxwellian S compr zc (Some 2%Z) rho u (1 / 3) = Ok g ->
    nth i (f x) 0 + nth (opp S i) (f x) 0 = (1 - omega) * s + omega * (nth i g 0 + nth (opp S i) g 0) ->
    rule_value S f x (quadratic S inv (map Q2R ws) zc compr force omega q i) =
    ((1 - q) * ((s + nth i (f x) 0 - nth (opp S i) (f x) 0) / 2) + q * (nth i (f x) 0 + nth (opp S i) (f x) 0)) / (1 + q).
  Proof.
    intros Ho Hq Hu Hg Hs. unfold quadratic. rewrite (rule_all_out L S f x _ HS Hl). cbv zeta.
    pose proof (opp_lt _ S HS i Hi) as Hop.
    assert (E : tget inv i = opp S i). { rewrite (inverse_dirs_ok (ldim L) S HS) in Hinv. injection Hinv as <-. now apply tget_inverse. }
    rewrite E, !(quadratic_equilibrium_hydro S ws zc compr rho u g) by assumption.
    rewrite (quadratic_pre q omega _ _ _ Ho Hq ((s + nth i (f x) 0 - nth (opp S i) (f x) 0) / 2) ((s - nth i (f x) 0 + nth (opp S i) (f x) 0) / 2)).
    - f_equal. ring.
    - field.
    - rewrite Hs. field.
  Qed.
End Quadratic.
Lemma quadratic_at_equilibrium name ord (L : lattice) (S : stencil) ws inv zc compr f (x : cell L) i rho u g q omega :
  predefined_stencils name ord = Ok S -> dimD S = ldim L -> get_weights S = Ok ws -> inverse_dirs S = Ok inv ->
  length u = dimD S -> (compr = true -> rho <> 0) -> hydro_maxwellian S compr zc (Some 2%Z) rho u (1 / 3) = Ok g -> f x = g ->
  (i < length S)%nat -> omega <> 1 -> 1 + q <> 0 ->
  rule_value S f x (quadratic S inv (map Q2R ws) zc compr None omega q i) = (nth i g 0 + q * nth (opp S i) g 0) / (1 + q).
Proof.
  intros HS HD HW Hinv Hu Hr Hg Hf Hi Ho Hq. destruct (predefined_wf _ _ _ HS) as (HSym & _). rewrite HD in HSym.
  pose proof (hydro_length S ws _ _ _ _ _ _ HW Hg) as HL. assert (Hl : length (f x) = length S) by (rewrite Hf; exact HL).
  assert (Er : pdf_density zc (f x) = rho).
  { unfold pdf_density. rewrite Hf, <- (density_rsum g S HL), (hydro_density name ord S u rho _ compr zc g HS Hg). destruct zc; ring. }
  assert (Eu : equilibrium_velocity (dimD S) S zc compr None (f x) = u).
  { unfold equilibrium_velocity. cbv zeta. rewrite Er. symmetry. rewrite <- (map_nth_seq 0 u (dimD S) Hu) at 1. symmetry. apply map_ext_in. intros a Ha. apply in_seq in Ha.
    rewrite <- momentum_pdf_eq, Hf, (hydro_momentum name ord S u rho _ compr zc g HS Hg a) by (try lia; right; cbn; lia). unfold reference_density. destruct compr; [field; auto|field]. }
  rewrite (quadratic_rule L S ws inv zc compr None f x i HSym HW Hinv Hl Hi q omega g (nth i g 0 + nth (opp S i) g 0)); rewrite ?Er, ?Eu; try assumption.
  - rewrite Hf. field. exact Hq.
  - rewrite Hf. ring.
Qed.

(* ---------- geometry on a torus ---------- *)
Lemma torus_geometry N (S : stencil) fluid : lists_geometry S fluid (torus_fluid_cells N fluid) (torus_links N S fluid).
Proof.
  destruct (torus_fluid_cells_spec N fluid) as [H1 H2]. split; [exact H1|]. split; [exact H2|]. split.
  - apply NoDup_filter, NoDup_list_prod; [apply torus_cells_NoDup|apply seq_NoDup].
  - apply torus_links_spec.
Qed.

(* ---------- free slip on plane walls, normal from the geometry: the cells read are fluid ---------- *)
Lemma plane_smooth (L : lattice) (S : stencil) fluid a x i : symmetric_stencil (ldim L) S -> (a < ldim L)%nat -> plane_walls a fluid ->
  is_link S fluid (x, i) -> smooth_at L fluid x (dir S i).
Proof.
  intros HS Ha HF Hl. pose proof (plane_blocked L S fluid a x i HS Ha HF Hl) as EB. pose proof Hl as (Hx & Hi & Hn). cbn [fst snd] in *.
  pose proof (dir_length _ S HS i Hi) as Ld. unfold smooth_at. cbv zeta.
  assert (ER : refl_axes L fluid x (dir S i) = [a]) by (unfold refl_axes; now rewrite EB).
  assert (Lo : length (off_part L fluid x (dir S i)) = ldim L) by (now apply off_part_length).
  assert (N0 : nth a (off_part L fluid x (dir S i)) 0%Z = 0%Z) by (rewrite off_part_nth, ER; cbn [existsb]; rewrite Nat.eqb_refl; reflexivity).
  assert (Fy : fluid (shift x (off_part L fluid x (dir S i))) = true) by (rewrite (HF _ _ Lo N0); exact Hx).
  assert (Fb : fluid (shift x (only_component (dir S i) a)) = false).
  { assert (In a (blocked L fluid x (dir S i))) by (rewrite EB; left; reflexivity). unfold blocked in H. apply filter_In in H as [_ H]. now apply negb_true_iff. }
  split; [exact Fy|]. rewrite ER. split.
  - replace (keep_components [a] (dir S i)) with (only_component (dir S i) a); [exact Fb|].
    apply vec_ext; [rewrite only_component_length, keep_components_length; reflexivity|]. intros b. rewrite nth_only_component, nth_keep_components. cbn [existsb]. now rewrite orb_false_r.
  - right. split.
    + intros b [<-|[]]. rewrite shift_add by (rewrite ?only_component_length; assumption).
      replace (vadd (off_part L fluid x (dir S i)) (only_component (dir S i) a)) with (vadd (only_component (dir S i) a) (off_part L fluid x (dir S i))).
      * rewrite <- shift_add by (rewrite ?only_component_length; assumption). rewrite (HF _ _ Lo N0). exact Fb.
      * assert (E : length (off_part L fluid x (dir S i)) = length (only_component (dir S i) a)) by (rewrite only_component_length; congruence).
        apply vec_ext; [rewrite !vadd_length; congruence|]. intros b. rewrite !nth_vadd by congruence. lia.
    + intros b Hb. rewrite HF; [exact Fy|apply vneg_len; now rewrite only_component_length|]. rewrite nth_vneg, nth_only_component. destruct (Nat.eqb_spec a b) as [->|]; [exfalso; apply Hb; left; reflexivity|reflexivity].
Qed.

(* a whole simulation with free slip walls *)
Theorem free_slip_simulation (L : lattice) (S : stencil) p (fluid : cell L -> bool) cells links0 xs0 xs links C B f0 t m_src m_tmp n :
  supported p (ldim L) S t ->
  (forall d b, In d S -> In (negate_at b d) S) -> (forall d b, In d S -> In (only_component d b) S) ->
  lists_geometry S fluid cells links0 ->
  (forall x, fluid x = true -> In x xs0) ->
  (forall n, NoDup (xs n)) -> (forall n x, In x (xs n) <-> fluid x = true) ->
  (forall n l, In l (links n) <-> is_link S fluid l) ->
  (forall n x f, length f = length S -> length (C n x f) = length S /\ rsum (C n x f) = rsum f) ->
  (forall n x i, is_link S fluid (x, i) -> exists data, free_slip_init L S links0 (x, i) = Ok data /\ B n x i = free_slip_data S data i) ->
  (forall x i, is_link S fluid (x, i) -> smooth_at L fluid x (dir S i)) ->
  (forall x, length (f0 x) = length S) ->
  exists F, (forall x, fluid x = true -> simulate L R p t S xs0 xs links C B f0 m_src m_tmp n x = Ok (F x)) /\
    total_mass cells F = total_mass cells f0.
Proof.
  intros HP HM HA (G1 & G2 & G3 & G4) H0 Hnd Hxs Hl HC HB Hsm Hf.
  apply mass_conserved_gen with (fluid := fluid); try assumption.
  - intros n0 x i a Hlk Ha. apply (dyn_readable L S fluid links0 (proj1 HP) HM HA G4 (B n0) (HB n0) Hsm x i a Hlk Ha).
  - intros n0 f Hlen. apply (dyn_mass L S fluid links0 (proj1 HP) HM HA G4 cells f (B n0)); auto.
Qed.
