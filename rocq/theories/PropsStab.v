(* C59: unconditional stability with equilibria of first order, and where it ends *)
From Coq Require Import String List ZArith QArith Qreals Bool Arith Reals Lra Lia.
From Verif Require Import StencilModel StencilProofs StencilProofs2 AccessModel AccessProofs StreamModel StreamSpec StreamProofs StreamProofs2 GridModel GridProofs InbProofs RealLib LinLib TransSpec TransModel TransProofs EqModel EqSpec MomModel ModeModel ModeSpec CollModel CollSpec CollProofs CollProofs4 CollProofs5 PropsEq PropsTrans PropsColl PropsMode BoundModel BoundSpec BoundProofs2 BoundProofs4 PropsBound ChanSpec ChanProofs5 PropsChan StabSpec StabProofs StabProofs2 StabProofs3 StabProofs4.
Import ListNotations.
Local Open Scope string_scope.
Local Open Scope R_scope.

(* the collision: mass and momentum stay, the energy does not grow, and falls by the fraction c of the energy of the deviation *)
Theorem C59_collision : forall name ord S ws exps ps P Minv Pinv Mpinv zc dev compr fwd bwd d r c f,
  method_setup name ord S ws exps ps P Minv Pinv Mpinv -> sizeQ S <> 7%nat ->
  raw_transform S exps ps P Minv Pinv Mpinv (background S ws zc dev) fwd bwd -> (dev = true -> zc = true) ->
  separated_rates (dimD S) S (map Q2R ws) ps d r -> (forall k, (k < length ps)%nat -> c <= nth k r 0 * (2 - nth k r 0)) ->
  length f = length S -> (compr = true -> pdf_density zc f <> 0) ->
  exists f', moment_collision (dimD S) S ps zc compr (discrete_raw_moments S compr dev (Some 1%Z)) (map Q2R ws) (moment_matrix ps S (rzero (dimD S))) fwd bwd d None f = Ok f' /\
    length f' = length S /\ conserves (dimD S) S f f' /\
    energy (map Q2R ws) f' + c * energy (map Q2R ws) (deviation (dimD S) S (map Q2R ws) f) <= energy (map Q2R ws) f.
Proof. intros name ord S ws exps ps P Minv Pinv Mpinv zc dev compr fwd bwd d r c f HS H7. pose proof HS as [X1 X2 _ _ _ _ _]. eapply collision_dissipates; eauto. Qed.
Print Assumptions C59_collision.

(* which methods have separated rates: one rate; one rate for even and one for odd moments; any rates of orthogonal moments *)
Theorem C59_single_rate : forall D S w ps d omega, length d = length ps ->
  (forall k p, nth_error ps k = Some p -> conserved_mode D p \/ nth k d 0 = omega) -> separated_rates D S w ps d (repeat omega (length ps)).
Proof. exact one_rate_separated. Qed.
Print Assumptions C59_single_rate.
Theorem C59_two_rates : forall D S ws ps d (even : poly -> bool) we wo, symmetric_stencil D S -> get_weights S = Ok ws -> length d = length ps ->
  (forall p t, In p ps -> In t p -> length (snd t) = D /\ is_even_tuple (snd t) = even p) ->
  (forall k p, nth_error ps k = Some p -> conserved_mode D p \/ nth k d 0 = if even p then we else wo) ->
  separated_rates D S (map Q2R ws) ps d (map (fun p => if even p then we else wo) ps).
Proof. exact two_rates_separated. Qed.
Print Assumptions C59_two_rates.
Theorem C59_orthogonal_modes : forall D S (ws : list Q) qs d r, orthogonal ws S qs -> length d = length qs -> length r = length qs ->
  (forall k p, nth_error (map toR qs) k = Some p -> conserved_mode D p \/ nth k d 0 = nth k r 0) -> separated_rates D S (map Q2R ws) (map toR qs) d r.
Proof. exact orthogonal_separated. Qed.
Print Assumptions C59_orthogonal_modes.

(* which walls are passive: bounce back, resting velocity boundaries, and absorbing walls of a diffusing concentration *)
Theorem C59_passive_walls : forall (L : lattice) (S : stencil) ws (fluid : cell L -> bool) (B : cell L -> nat -> brule R), symmetric_stencil (ldim L) S ->
  (forall x i, B x i = no_slip S i \/
    (exists zc compr density adapt, ubb S (map Q2R ws) zc compr None density adapt (repeat 0 (dimD S)) i = Ok (B x i)) \/
    diffusion_dirichlet S (map Q2R ws) false 0 None i = Ok (B x i)) -> passive S fluid B.
Proof.
  intros L S ws fluid B HS HB f x i Hf Hl. destruct (HB x i) as [E|[(zc & compr & density & adapt & E)|E]].
  - rewrite E, no_slip_value by exact HS. apply Rle_refl.
  - rewrite (C21_zero_velocity L S (map Q2R ws) zc compr None density adapt f x i (B x i) HS (Hf x) ltac:(reflexivity) E), no_slip_value by exact HS. apply Rle_refl.
  - injection E as <-. unfold rule_value. cbn [b_fun b_reads map nth pacc_value]. unfold here. rewrite (dimD_D (ldim L) S HS), shift_zero.
    match goal with |- Rabs ?a <= Rabs ?b => replace a with (- b) by ring end. rewrite Rabs_Ropp. apply Rle_refl.
Qed.
Print Assumptions C59_passive_walls.

(* the simulation: with passive walls the energy never grows, whatever the streaming pattern, the geometry, the initial state and the rates, which may differ
   from cell to cell and step to step; hence all populations stay within fixed bounds for ever.  If the rates stay away from 0 and 2 the deviation from
   equilibrium dies out. *)
Theorem C59_stable : forall name ord (L : lattice) S ws exps ps P Minv Pinv Mpinv zc dev compr fwd bwd d r c p t (fluid : cell L -> bool) cells xs0 xs links C B f0 m_src m_tmp,
  method_setup name ord S ws exps ps P Minv Pinv Mpinv -> ldim L = dimD S -> sizeQ S <> 7%nat ->
  raw_transform S exps ps P Minv Pinv Mpinv (background S ws zc dev) fwd bwd -> (dev = true -> zc = true) ->
  (forall n x, separated_rates (dimD S) S (map Q2R ws) ps (d n x) (r n x)) -> 0 <= c ->
  (forall n x k, (k < length ps)%nat -> c <= nth k (r n x) 0 * (2 - nth k (r n x) 0)) ->
  supported p (ldim L) S t -> NoDup cells -> (forall x, In x cells <-> fluid x = true) ->
  (forall x, fluid x = true -> In x xs0) -> (forall n, NoDup (xs n)) -> (forall n x, In x (xs n) <-> fluid x = true) -> (forall n l, In l (links n) <-> is_link S fluid l) ->
  (forall n x f, length f = length S -> length (C n x f) = length S) ->
  (forall n x f, length f = length S -> (compr = true -> pdf_density zc f <> 0) ->
    moment_collision (dimD S) S ps zc compr (discrete_raw_moments S compr dev (Some 1%Z)) (map Q2R ws) (moment_matrix ps S (rzero (dimD S))) fwd bwd (d n x) None f = Ok (C n x f)) ->
  (forall n, passive S fluid (B n)) -> (forall n x i a, is_link S fluid (x, i) -> In a (b_reads (B n x i)) -> readable S fluid x a) ->
  (forall x, length (f0 x) = length S) ->
  (compr = true -> forall n x, fluid x = true -> pdf_density zc (arriving S fluid (B n) (post 0 S fluid C B f0 n) x) <> 0) ->
  exists F : nat -> cell L -> list R, F 0%nat = f0 /\
    (forall n x, fluid x = true -> simulate L R p t S xs0 xs links C B f0 m_src m_tmp n x = Ok (F n x)) /\
    (forall n, total_energy (map Q2R ws) cells (F (Datatypes.S n)) <= total_energy (map Q2R ws) cells (F n)) /\
    (forall n x i, fluid x = true -> (i < length S)%nat -> Rabs (nth i (F n x) 0) <= sqrt (nth i (map Q2R ws) 0 * total_energy (map Q2R ws) cells f0)) /\
    (0 < c -> Un_cv (fun n => total_energy (map Q2R ws) cells (fun x => deviation (dimD S) S (map Q2R ws) (arriving S fluid (B n) (F n) x))) 0).
Proof.
  intros name ord L S ws exps ps P Minv Pinv Mpinv zc dev compr fwd bwd d r c p t fluid cells xs0 xs links C B f0 m_src m_tmp HS EL H7 HT Hdz Hsep Hc0 Hc HP Hnc Hcl H0 Hnd Hxs Hl HCl HC HB Hrd Hf Hrho.
  pose proof HS as [X1 X2 _ _ _ _ _]. pose proof (proj1 HP) as HSy.
  set (links' := nodup (link_eq_dec L) (links 0%nat)).
  assert (HG : lists_geometry S fluid cells links') by (split; [exact Hnc|]; split; [exact Hcl|]; split; [apply NoDup_nodup|]; intros l; unfold links'; rewrite nodup_In; apply Hl).
  assert (HE : forall n x, fluid x = true -> energy (map Q2R ws) (C n x (arriving S fluid (B n) (post 0 S fluid C B f0 n) x)) + c * energy (map Q2R ws) (deviation (ldim L) S (map Q2R ws) (arriving S fluid (B n) (post 0 S fluid C B f0 n) x))
      <= energy (map Q2R ws) (arriving S fluid (B n) (post 0 S fluid C B f0 n) x)).
  { intros n x Hx. rewrite EL. assert (Hr : compr = true -> pdf_density zc (arriving S fluid (B n) (post 0 S fluid C B f0 n) x) <> 0) by (intros E; apply Hrho; auto).
    destruct (C59_collision name ord S ws exps ps P Minv Pinv Mpinv zc dev compr fwd bwd (d n x) (r n x) c _ HS H7 HT Hdz (Hsep n x) (Hc n x) (arriving_length L S fluid (B n) (post 0 S fluid C B f0 n) x) Hr) as (f' & E1 & _ & _ & E2).
    rewrite HC in E1 by (auto using arriving_length). injection E1 as <-. exact E2. }
  assert (ES : forall n, total_energy (map Q2R ws) cells (post 0 S fluid C B f0 (Datatypes.S n)) <= total_energy (map Q2R ws) cells (post 0 S fluid C B f0 n)).
  { intros n. pose proof (energy_step L S fluid cells links' ws HSy HG X2 H7 C B f0 c HB HCl Hf HE n) as E.
    assert (0 <= rsum (map (fun x => energy (map Q2R ws) (deviation (ldim L) S (map Q2R ws) (arriving S fluid (B n) (post 0 S fluid C B f0 n) x))) cells)) by (apply rsum_nonneg; intros; eapply dev_nonneg; eauto). nra. }
  exists (post 0 S fluid C B f0). split; [reflexivity|]. split; [|split; [exact ES|split]].
  - intros n x Hx. apply simulate_correct; try assumption.
  - intros n x i Hx Hi. rewrite <- sqrt_Rsqr_abs. apply sqrt_le_1_alt. unfold Rsqr.
    eapply Rle_trans; [apply (population_energy L S cells ws X2 H7 x i (post 0 S fluid C B f0 n)); [now apply Hcl|exact Hi]|].
    pose proof (weights_positive S ws i X2 H7 Hi) as Wp. apply Rmult_le_compat_l; [lra|]. induction n as [|n IH]; [apply Rle_refl|]. eapply Rle_trans; [apply ES|exact IH].
  - intros Hcp. rewrite <- EL. eapply deviation_vanishes; eauto.
Qed.
Print Assumptions C59_stable.

(* beyond: on a domain without walls a moment whose rate is below 0 or above 2 grows without bound, if the uniform initial state deviates in it *)
Theorem C59_rate_bounds_needed : forall name ord (L : lattice) S ws exps ps P Minv Pinv Mpinv zc dev compr fwd bwd d k q p t xs0 xs links (C : nat -> cell L -> list R -> list R) B Col g m_src m_tmp,
  method_setup name ord S ws exps ps P Minv Pinv Mpinv -> 
  raw_transform S exps ps P Minv Pinv Mpinv (background S ws zc dev) fwd bwd -> (dev = true -> zc = true) -> length d = length ps ->
  supported p (ldim L) S t -> (forall x, In x xs0) -> (forall n, NoDup (xs n)) -> (forall n x, In x (xs n)) -> (forall n, links n = []) ->
  (forall n x f, C n x f = Col f) -> (forall f, length f = length S -> length (Col f) = length S) ->
  (forall f, length f = length S -> (compr = true -> pdf_density zc f <> 0) ->
    moment_collision (dimD S) S ps zc compr (discrete_raw_moments S compr dev (Some 1%Z)) (map Q2R ws) (moment_matrix ps S (rzero (dimD S))) fwd bwd d None f = Ok (Col f)) ->
  length g = length S -> (compr = true -> pdf_density zc g <> 0) ->
  nth_error ps k = Some q -> (nth k d 0 < 0 \/ 2 < nth k d 0) -> poly_moment (deviation (dimD S) S (map Q2R ws) g) S (rzero (dimD S)) q <> 0 ->
  exists F : nat -> list R, (forall n x, simulate L R p t S xs0 xs links C B (fun _ => g) m_src m_tmp n x = Ok (F n)) /\
    forall K, exists N, forall n, (N <= n)%nat -> K <= Rabs (poly_moment (F n) S (rzero (dimD S)) q).
Proof.
  intros name ord L S ws exps ps P Minv Pinv Mpinv zc dev compr fwd bwd d k q p t xs0 xs links C B Col g m_src m_tmp HS HT Hdz Ld HP H0 Hnd Hxs Hl HC HLc HCol Hg Hrho Eq Hk Hm.
  exists (fun n => Nat.iter n Col g). split.
  - intros n x. rewrite <- (uniform name ord S ws exps ps P Minv Pinv Mpinv HS zc dev compr fwd bwd d Col HT Hdz Ld HCol L C B g n HC Hg Hrho x).
    apply simulate_correct; auto.
    + intros n' y; split; auto.
    + intros n' l. rewrite Hl. split; [intros []|]. intros (_ & _ & Hfl). discriminate.
    + intros n' y f Hf. rewrite HC. auto.
    + intros n' y i a (_ & _ & Hfl). discriminate.
  - eapply grows; eauto. destruct Hk as [Hk|Hk]; [rewrite Rabs_right by lra|rewrite Rabs_left by lra]; lra.
Qed.
Print Assumptions C59_rate_bounds_needed.

(* beyond: with an equilibrium of second order the energy grows, already with all rates 1, from every moving state of first-order equilibrium *)
Theorem C59_second_order_refuted : forall name ord S ws exps ps P Minv Pinv Mpinv zc dev compr fwd bwd f i a,
  method_setup name ord S ws exps ps P Minv Pinv Mpinv -> sizeQ S <> 7%nat ->
  raw_transform S exps ps P Minv Pinv Mpinv (background S ws zc dev) fwd bwd -> (dev = true -> zc = true) ->
  length f = length S -> (compr = true -> pdf_density zc f <> 0) -> (i < length S)%nat -> nth i S [] = vzero (dimD S) ->
  f = linear_equilibrium (dimD S) S (map Q2R ws) f -> (a < dimD S)%nat -> momentum f S a <> 0 ->
  exists f', moment_collision (dimD S) S ps zc compr (discrete_raw_moments S compr dev (Some 2%Z)) (map Q2R ws) (moment_matrix ps S (rzero (dimD S))) fwd bwd (repeat 1 (length ps)) None f = Ok f' /\
    energy (map Q2R ws) f < energy (map Q2R ws) f'.
Proof. intros. eapply second_order_grows; eauto. Qed.
Print Assumptions C59_second_order_refuted.

(* non-vacuity: D2Q9, even rate 19/10, odd rate 3/10, rate 0 of the conserved moments, incompressible equilibrium, AA pattern, a channel with walls, any initial state *)
Definition ex59_d : list R := map (fun e => if Nat.leb (nsum e) 1 then 0 else if is_even_tuple e then 19 / 10 else 3 / 10) exps_D2Q9.
Definition ex59_Col ws fwd bwd d (f : list R) : list R :=
  match moment_collision 2 D2Q9_walberla (map mono_poly exps_D2Q9) true false (discrete_raw_moments D2Q9_walberla false true (Some 1%Z)) ws (moment_matrix (map mono_poly exps_D2Q9) D2Q9_walberla (rzero 2)) fwd bwd d None f with
  | Ok g => g | Err _ => f end.
Example C59_example : forall f0, (forall x, length (f0 x) = 9%nat) -> exists ws fwd bwd F, get_weights D2Q9_walberla = Ok ws /\
  (forall n x, wall_fluid ex57_N 1 4 x = true ->
    simulate (torus ex57_N) R AA EVEN D2Q9_walberla (torus_cells ex57_N) (fun _ => torus_fluid_cells ex57_N (wall_fluid ex57_N 1 4)) (fun _ => torus_links ex57_N D2Q9_walberla (wall_fluid ex57_N 1 4))
       (fun _ _ => ex59_Col (map Q2R ws) fwd bwd ex59_d) (fun _ _ i => no_slip D2Q9_walberla i) f0 (fun _ _ => 0) (fun _ _ => 0) n x = Ok (F n x)) /\
  (forall n x i, wall_fluid ex57_N 1 4 x = true -> (i < 9)%nat -> Rabs (nth i (F n x) 0) <= sqrt (nth i (map Q2R ws) 0 * total_energy (map Q2R ws) (torus_fluid_cells ex57_N (wall_fluid ex57_N 1 4)) f0)) /\
  Un_cv (fun n => total_energy (map Q2R ws) (torus_fluid_cells ex57_N (wall_fluid ex57_N 1 4))
    (fun x => deviation 2 D2Q9_walberla (map Q2R ws) (arriving D2Q9_walberla (wall_fluid ex57_N 1 4) (fun _ i => no_slip D2Q9_walberla i) (F n) x))) 0.
Proof.
  intros f0 Hf0. destruct method_setup_D2Q9 as (ws & Minv & P & Pinv & Mpinv & HS & _). pose proof HS as [Hpre Hwt _ _ _ _ _].
  pose proof (raw_by_chimera D2Q9_walberla exps_D2Q9 (map mono_poly exps_D2Q9) P Minv Pinv Mpinv (background D2Q9_walberla ws true true)) as HT. cbv zeta in HT.
  set (fwd := fun f => _) in HT. set (bwd := fun m => _) in HT. exists ws, fwd, bwd.
  assert (HSy : symmetric_stencil 2 D2Q9_walberla) by (apply (predefined_wf _ _ _ Hpre)).
  set (even := fun q : poly => match q with tm :: _ => is_even_tuple (snd tm) | [] => true end).
  assert (Hsep : separated_rates 2 D2Q9_walberla (map Q2R ws) (map mono_poly exps_D2Q9) ex59_d (map (fun q => if even q then 19 / 10 else 3 / 10) (map mono_poly exps_D2Q9))).
  { apply C59_two_rates; auto.
    - intros q tm Hq Ht. apply in_map_iff in Hq as (e & <- & He). destruct Ht as [<-|[]]. cbn [snd]. split; [|reflexivity]. cbn in He. repeat (destruct He as [<-|He]; [reflexivity|]). destruct He.
    - intros k q Ek. rewrite nth_error_map in Ek. destruct (nth_error exps_D2Q9 k) as [e|] eqn:E; [|discriminate]. injection Ek as <-.
      unfold ex59_d. rewrite (nth_error_nth _ _ 0 (map_nth_error (fun e => if Nat.leb (nsum e) 1 then 0 else if is_even_tuple e then 19 / 10 else 3 / 10) _ _ E)).
      apply nth_error_In in E. cbn in E. repeat (destruct E as [<-|E]; [first [right; reflexivity|left; left; reflexivity|left; right; exists 0%nat; split; [lia|reflexivity]|left; right; exists 1%nat; split; [lia|reflexivity]]|]). destruct E. }
  set (rates := map (fun q => if even q then 19 / 10 else 3 / 10) (map mono_poly exps_D2Q9)) in *.
  assert (Hc : forall k, (k < length (map mono_poly exps_D2Q9))%nat -> 19 / 100 <= nth k rates 0 * (2 - nth k rates 0)).
  { intros k Hk. unfold rates. destruct (nth_error (map mono_poly exps_D2Q9) k) as [q|] eqn:E; [|apply nth_error_None in E; lia]. rewrite (nth_error_nth _ _ 0 (map_nth_error (fun q => if even q then 19 / 10 else 3 / 10) _ _ E)). destruct (even q); lra. }
  assert (Hcol : forall f, length f = 9%nat -> moment_collision 2 D2Q9_walberla (map mono_poly exps_D2Q9) true false (discrete_raw_moments D2Q9_walberla false true (Some 1%Z)) (map Q2R ws)
      (moment_matrix (map mono_poly exps_D2Q9) D2Q9_walberla (rzero 2)) fwd bwd ex59_d None f = Ok (ex59_Col (map Q2R ws) fwd bwd ex59_d f) /\ length (ex59_Col (map Q2R ws) fwd bwd ex59_d f) = 9%nat).
  { intros f Hf. destruct (C59_collision "D2Q9" "walberla" D2Q9_walberla ws exps_D2Q9 (map mono_poly exps_D2Q9) P Minv Pinv Mpinv true true false fwd bwd ex59_d rates (19 / 100) f) as (f' & E & L & _); auto; try discriminate.
    unfold ex59_Col. change (dimD D2Q9_walberla) with 2%nat in E. rewrite E. split; [reflexivity|exact L]. }
  destruct (torus_fluid_cells_spec ex57_N (wall_fluid ex57_N 1 4)) as [Nd Sp].
  destruct (C59_stable "D2Q9" "walberla" (torus ex57_N) D2Q9_walberla ws exps_D2Q9 (map mono_poly exps_D2Q9) P Minv Pinv Mpinv true true false fwd bwd (fun _ _ => ex59_d)
    (fun _ _ => rates) (19 / 100) AA EVEN (wall_fluid ex57_N 1 4) (torus_fluid_cells ex57_N (wall_fluid ex57_N 1 4)) (torus_cells ex57_N)
    (fun _ => torus_fluid_cells ex57_N (wall_fluid ex57_N 1 4)) (fun _ => torus_links ex57_N D2Q9_walberla (wall_fluid ex57_N 1 4))
    (fun _ _ => ex59_Col (map Q2R ws) fwd bwd ex59_d) (fun _ _ i => no_slip D2Q9_walberla i) f0 (fun _ _ => 0) (fun _ _ => 0)) as (F & F0 & F1 & F2 & F3 & F4); auto; try lra; try discriminate.
  - split; [exact HSy|discriminate].
  - intros x ?. apply torus_cells_all.
  - intros ? l. apply torus_links_spec.
  - intros ? ? f Hf. now apply Hcol.
  - intros ?. apply (C59_passive_walls (torus ex57_N) D2Q9_walberla ws); [exact HSy|]. intros; now left.
  - intros ? x i a (Hx & Hi' & _) [<-|[]]. cbn [fst snd] in *. cbn [readable]. unfold here. change (dimD D2Q9_walberla) with (ldim (torus ex57_N)). rewrite shift_zero. repeat split; [exact Hi'|exact Hx].
  - exists F. split; [exact Hwt|]. split; [exact F1|]. split; [exact F3|]. apply F4. lra.
Qed.
(* states to which the growth theorems apply: the first-order equilibrium of a single population moves along the first axis; a single diagonal population deviates in the moment xy *)
Example C59_growing_states : exists ws f, get_weights D2Q9_walberla = Ok ws /\
  length f = 9%nat /\ f = linear_equilibrium 2 D2Q9_walberla (map Q2R ws) f /\ momentum f D2Q9_walberla 0 <> 0 /\ nth 0 D2Q9_walberla [] = vzero 2 /\
  poly_moment (deviation 2 D2Q9_walberla (map Q2R ws) [0; 0; 0; 0; 0; 1; 0; 0; 0]) D2Q9_walberla (rzero 2) (mono_poly [1; 1]%nat) <> 0.
Proof.
  destruct (get_weights D2Q9_walberla) as [ws|] eqn:Hwt; [|discriminate]. assert (Hpre : predefined_stencils "D2Q9" "walberla" = Ok D2Q9_walberla) by reflexivity.
  pose proof (w_length "D2Q9" "walberla" D2Q9_walberla ws Hpre Hwt) as Lw.
  set (g := [0; 0; 0; 0; 1; 0; 0; 0; 0]). exists ws, (linear_equilibrium 2 D2Q9_walberla (map Q2R ws) g). split; [reflexivity|]. split; [apply linear_length; exact Lw|]. split; [|split; [|split; [reflexivity|]]].
  - symmetry. apply (linear_same D2Q9_walberla ws). split; [apply (linear_density "D2Q9" "walberla"); auto|]. intros a Ha. apply (linear_momentum "D2Q9" "walberla"); auto.
  - change (momentum (linear_equilibrium (dimD D2Q9_walberla) D2Q9_walberla (map Q2R ws) g) D2Q9_walberla 0 <> 0). rewrite (linear_momentum "D2Q9" "walberla") by (auto; cbn; lia). unfold momentum, fsum, comp. cbn. lra.
  - vm_compute in Hwt. injection Hwt as <-. unfold deviation, linear_equilibrium, poly_moment, density, momentum, fsum, comp, Q2R, peval, rmono. cbn. lra.
Qed.
