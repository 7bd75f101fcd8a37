(* C57: flow between parallel plates. *)
From Coq Require Import String List ZArith QArith Qreals Bool Arith Reals Lra Lia.
From Verif Require Import RealLib LinLib StencilModel StencilProofs StencilProofs2 AccessModel AccessProofs GridModel GridProofs StreamModel StreamSpec StreamProofs StreamProofs2 EqModel EqSpec TransSpec TransModel TransProofs MomModel CollModel CollSpec CollProofs
  BoundModel BoundSpec BoundProofs BoundProofs2 BoundProofs4 RateModel RateSpec RateProofs PropsRate CollProofs4 CollProofs5 PropsEq PropsTrans PropsColl ChanModel ChanSpec ChanProofs ChanProofs2 ChanProofs3 ChanProofs4 ChanProofs5 InbProofs.
Import ListNotations.
Local Open Scope R_scope.

(* the flow in a channel, whatever it is started from, converges to the profile: for every geometry with plane walls, every streaming
   pattern, every bounce-back wall and every collision which relaxes the shear stress and its flux *)
Theorem C57_channel_flow : forall (L : lattice) name ord S ws b H fluid row q we wo F lo hi Col B p t xs0 xs links f0 init m_src m_tmp,
  predefined_stencils name ord = Ok S -> get_weights S = Ok ws -> sizeQ S <> 7%nat -> supported p (ldim L) S t -> (b < ldim L)%nat ->
  channel b H fluid row -> (forall n, wall_rules S (map Q2R ws) b q fluid lo hi (B n)) -> shear_collision (ldim L) S b q we wo F Col -> 0 < we < 2 -> 0 < wo < 2 ->
  (forall x, fluid x = true -> In x xs0) -> (forall n, NoDup (xs n)) -> (forall n x, In x (xs n) <-> fluid x = true) -> (forall n l, In l (links n) <-> is_link S fluid l) ->
  (forall f, length f = length S -> length (Col f) = length S) ->
  (forall n x i a, is_link S fluid (x, i) -> In a (b_reads (B n x i)) -> readable S fluid x a) ->
  (forall x, length (f0 x) = length S) -> (forall x, fluid x = true -> f0 x = init (row x)) -> (forall k, (k < H)%nat -> at_rest_across S b q (init k)) ->
  exists g, forall x, fluid x = true -> (forall n, simulate L R p t S xs0 xs links (fun _ _ => Col) B f0 m_src m_tmp n x = Ok (g n x) /\ at_rest_across S b q (g n x)) /\
    forall a, (a < ldim L)%nat -> a <> b ->
      Un_cv (fun n => momentum (g (Datatypes.S n) x) S a - nth a F 0 / 2) (profile H we wo (nth a F 0) (nth a lo 0) (nth a hi 0) (row x)).
Proof. exact flow_in_channel. Qed.
Print Assumptions C57_channel_flow.

(* the collisions of moment-based methods qualify, with all force models but the central moment one *)
Theorem C57_collision : forall name ord S ws exps ps P Minv Pinv Mpinv zc dev compr eqm fwd bwd d r b force q we wo Col,
  method_setup name ord S ws exps ps P Minv Pinv Mpinv -> raw_transform S exps ps P Minv Pinv Mpinv (background S ws zc dev) fwd bwd ->
  rates_by_exponent ps d r -> (dev = true -> zc = true) -> sizeQ S <> 7%nat -> (b < dimD S)%nat -> shear_equilibrium (dimD S) b compr dev eqm ->
  (forall fm F, force = Some (fm, F) -> fm <> CentralMoment /\ length F = dimD S /\ nth b F 0 = 0) ->
  In (zero_tuple (dimD S)) exps -> (forall a, (a < dimD S)%nat -> In (CollModel.unit_tuple (dimD S) a) exps) -> In (exp_ab (dimD S) b b) exps ->
  (forall a, (a < dimD S)%nat -> a <> b -> In (exp_ab (dimD S) a b) exps /\ In (exp_abb (dimD S) a b) exps /\ r (exp_ab (dimD S) a b) = we /\ r (exp_abb (dimD S) a b) = wo) ->
  (compr = true -> (if zc then 1 else 0) + q <> 0) ->
  (forall f, at_rest_across S b q f -> moment_collision (dimD S) S ps zc compr eqm (map Q2R ws) (moment_matrix ps S (rzero (dimD S))) fwd bwd d force f = Ok (Col f)) ->
  shear_collision (dimD S) S b q we wo (force_vector (dimD S) force) Col.
Proof.
  intros name ord S ws exps ps P Minv Pinv Mpinv zc dev compr eqm fwd bwd d r b force q we wo Col HS HT HR Hdz H7 Hb HE Hfo X1 X2 X3 X4 Hq HC f Hf.
  destruct (moment_shear name ord S ws exps ps P Minv Pinv Mpinv zc dev compr eqm fwd bwd d r b HS HT HR Hdz H7 Hb HE force q f Hfo X1 X2 X3 (fun a Ha Hab => conj (proj1 (X4 a Ha Hab)) (proj1 (proj2 (X4 a Ha Hab)))) Hq Hf) as (f' & E & R1 & R2).
  rewrite (HC f Hf) in E. injection E as ->. split; [exact R1|]. intros a Ha Hab. destruct (X4 a Ha Hab) as (_ & _ & <- & <-). apply R2; assumption.
Qed.
Print Assumptions C57_collision.
(* and they do not fail *)
Theorem C57_collision_defined : forall name ord S ws exps ps P Minv Pinv Mpinv zc dev compr eqm fwd bwd d r b force q f,
  method_setup name ord S ws exps ps P Minv Pinv Mpinv -> raw_transform S exps ps P Minv Pinv Mpinv (background S ws zc dev) fwd bwd ->
  rates_by_exponent ps d r -> (dev = true -> zc = true) -> sizeQ S <> 7%nat -> (b < dimD S)%nat -> shear_equilibrium (dimD S) b compr dev eqm ->
  (forall fm F, force = Some (fm, F) -> fm <> CentralMoment /\ length F = dimD S /\ nth b F 0 = 0) ->
  In (zero_tuple (dimD S)) exps -> (forall a, (a < dimD S)%nat -> In (CollModel.unit_tuple (dimD S) a) exps) -> In (exp_ab (dimD S) b b) exps ->
  (forall a, (a < dimD S)%nat -> a <> b -> In (exp_ab (dimD S) a b) exps /\ In (exp_abb (dimD S) a b) exps) ->
  (compr = true -> (if zc then 1 else 0) + q <> 0) -> at_rest_across S b q f ->
  exists f', moment_collision (dimD S) S ps zc compr eqm (map Q2R ws) (moment_matrix ps S (rzero (dimD S))) fwd bwd d force f = Ok f' /\ length f' = length S.
Proof.
  intros name ord S ws exps ps P Minv Pinv Mpinv zc dev compr eqm fwd bwd d r b force q f HS HT HR Hdz H7 Hb HE Hfo X1 X2 X3 X4 Hq Hf.
  destruct (moment_shear name ord S ws exps ps P Minv Pinv Mpinv zc dev compr eqm fwd bwd d r b HS HT HR Hdz H7 Hb HE force q f Hfo X1 X2 X3 X4 Hq Hf) as (f' & E & [L _] & _).
  exists f'. split; [exact E|exact L].
Qed.
Print Assumptions C57_collision_defined.
(* both kinds of equilibria *)
Theorem C57_equilibria : (forall D b compr dev, (b < D)%nat -> shear_equilibrium D b compr dev (fun rho u => continuous_maxwellian_moment D compr dev rho u (1 / 3))) /\
  forall name ord S ws b compr dev order, predefined_stencils name ord = Ok S -> get_weights S = Ok ws -> sizeQ S <> 7%nat -> (eq_order order <= 2)%Z -> (b < dimD S)%nat ->
    shear_equilibrium (dimD S) b compr dev (discrete_raw_moments S compr dev order).
Proof. split; [intros; apply continuous_shear; assumption|exact discrete_shear]. Qed.
Print Assumptions C57_equilibria.

(* walls: NoSlip is at rest, UBB moves with its velocity *)
Theorem C57_no_slip_wall : forall (L : lattice) S ws b q fluid, symmetric_stencil (ldim L) S ->
  @wall_rules L S ws b q fluid (rzero (ldim L)) (rzero (ldim L)) (fun _ i => no_slip S i).
Proof. exact no_slip_walls. Qed.
Print Assumptions C57_no_slip_wall.
Theorem C57_moving_wall : forall (L : lattice) S ws (zc compr : bool) force density (adapt : bool) b q (ulo uhi : list R) (fluid : cell L -> bool) (B : cell L -> nat -> brule R),
  symmetric_stencil (ldim L) S -> length ulo = ldim L -> length uhi = ldim L -> nth b ulo 0 = 0 -> nth b uhi 0 = 0 -> (adapt = true -> force = None) ->
  (density = None \/ density = Some ((if zc then 1 else 0) + q)) ->
  (forall x i, is_link S fluid (x, i) -> ubb S ws zc compr force density adapt (if (nth b (dir S i) 0 <? 0)%Z then ulo else uhi) i = Ok (B x i)) ->
  let ref := if compr then (if zc then 1 else 0) + q else 1 in
  wall_rules S ws b q fluid (map (Rmult ref) ulo) (map (Rmult ref) uhi) B.
Proof. exact ubb_walls. Qed.
Print Assumptions C57_moving_wall.
Theorem C57_torus_channel : forall N b H, (b < length N)%nat -> (Z.of_nat H + 1 < nth b (map Zpos N) 0)%Z -> channel b H (wall_fluid N b H) (wall_row N b).
Proof. exact torus_channel. Qed.
Print Assumptions C57_torus_channel.

(* the slip at the walls vanishes exactly for the magic number 3/16 *)
Theorem C57_slip : forall we wo F, 0 < we < 2 -> slip we wo F = 0 <-> F = 0 \/ magic we wo = 3 / 16.
Proof.
  intros we wo F Hw. assert (Hl : 0 < lambda we).
  { unfold lambda. assert (/ 2 < / we) by (apply Rinv_lt_contravar; lra). unfold Rdiv. lra. }
  unfold slip, magic. fold (lambda we) (lambda wo). split.
  - intros E. destruct (Req_dec F 0) as [Z|N]; [left; exact Z|right]. apply Rmult_integral in E as [E|E]; [|lra].
    exfalso. unfold Rdiv in E. apply Rmult_integral in E as [E|E]; [exact (N E)|]. revert E. apply Rinv_neq_0_compat. lra.
  - intros [-> | ->]; field; lra.
Qed.
Print Assumptions C57_slip.
(* without a force the profile is linear, for all rates *)
Theorem C57_couette : forall H we wo lo hi k, profile H we wo 0 lo hi k = couette H lo hi k.
Proof. intros. unfold profile, parabola, slip, Rdiv. ring. Qed.
Print Assumptions C57_couette.
(* with the odd rate for the magic number 3/16 the profile is that of poiseuille_flow, the dynamic viscosity being density times lattice viscosity *)
Theorem C57_magic : forall we wo nu H F k rho, 0 < we < 2 -> rho <> 0 -> relaxation_rate_from_magic_number we (3 / 16) = Some wo -> lattice_viscosity_from_relaxation_rate we = Some nu ->
  0 < wo < 2 /\ poiseuille_flow (middle H k) (INR H) F (rho * nu) = Some (profile H we wo F 0 0 k / rho).
Proof.
  intros we wo nu H F k rho Hw Hr Ho Hn. destruct (C24_magic_number we (3 / 16) Hw ltac:(lra)) as (wo' & E & Hwo & Hm). rewrite Ho in E. injection E as <-. split; [exact Hwo|].
  destruct (C24_rate_round_trip we ltac:(lra)) as [E _]. rewrite Hn in E. injection E as ->.
  assert (Hl : 0 < lambda we).
  { unfold lambda. assert (/ 2 < / we) by (apply Rinv_lt_contravar; lra). unfold Rdiv. lra. }
  assert (V : viscosity we = lambda we / 3) by (unfold viscosity, lambda; field; lra). rewrite V.
  assert (Sl : slip we wo F = 0) by (apply C57_slip; [exact Hw|right; exact Hm]).
  unfold poiseuille_flow, rdiv. destruct (Req_EM_T (2 * (rho * (lambda we / 3))) 0) as [Z|_].
  { exfalso. assert (N : rho * (lambda we / 3) <> 0) by (apply Rmult_integral_contrapositive_currified; lra). lra. }
  cbn [obind]. f_equal. unfold profile. rewrite Sl. unfold couette, parabola. assert (HH : (0 - 0) / INR H * middle H k = 0) by (unfold Rdiv; ring). rewrite HH.
  set (M := INR H ^ 2 / 4 - middle H k ^ 2). field. lra.
Qed.
Print Assumptions C57_magic.
(* single relaxation time methods do not reproduce it *)
Theorem C57_srt_exact_refuted : exists w nu H F k, 0 < w < 2 /\ lattice_viscosity_from_relaxation_rate w = Some nu /\ poiseuille_flow (middle H k) (INR H) F nu <> Some (profile H w w F 0 0 k).
Proof.
  exists 1, (1 / 6), 3%nat, 1, 1%nat. split; [lra|]. split.
  - unfold lattice_viscosity_from_relaxation_rate, rdiv. destruct (Req_EM_T _ 0); [lra|]. f_equal. field.
  - unfold poiseuille_flow, rdiv. destruct (Req_EM_T _ 0); [lra|]. cbn [obind]. intros E. injection E as E. unfold profile, couette, parabola, slip, lambda, middle in E. cbn [INR] in E.
    revert E. replace (1 * 1 / (2 * (1 / 6))) with 3 by field. intros E. field_simplify in E. lra.
Qed.
Print Assumptions C57_srt_exact_refuted.

(* Poiseuille flow: a two-relaxation-time method with magic number 3/16 between resting walls, on a block which is periodic along the channel *)
Theorem C57_poiseuille : forall name ord S ws exps ps P Minv Pinv Mpinv zc dev compr eqm fwd bwd d b fm F q we wo nu Col N H p t f0 init m_src m_tmp,
  method_setup name ord S ws exps ps P Minv Pinv Mpinv -> raw_transform S exps ps P Minv Pinv Mpinv (background S ws zc dev) fwd bwd ->
  rates_by_exponent ps d (fun e => if is_even_tuple e then we else wo) -> (dev = true -> zc = true) -> sizeQ S <> 7%nat -> shear_equilibrium (dimD S) b compr dev eqm ->
  0 < we < 2 -> relaxation_rate_from_magic_number we (3 / 16) = Some wo -> lattice_viscosity_from_relaxation_rate we = Some nu ->
  fm <> CentralMoment -> length F = dimD S -> nth b F 0 = 0 ->
  In (zero_tuple (dimD S)) exps -> (forall a, (a < dimD S)%nat -> In (CollModel.unit_tuple (dimD S) a) exps) -> In (exp_ab (dimD S) b b) exps ->
  (forall a, (a < dimD S)%nat -> a <> b -> In (exp_ab (dimD S) a b) exps /\ In (exp_abb (dimD S) a b) exps) ->
  (compr = true -> (if zc then 1 else 0) + q <> 0) ->
  (forall f, length f = length S -> length (Col f) = length S) ->
  (forall f, at_rest_across S b q f -> moment_collision (dimD S) S ps zc compr eqm (map Q2R ws) (moment_matrix ps S (rzero (dimD S))) fwd bwd d (Some (fm, F)) f = Ok (Col f)) ->
  length N = dimD S -> (b < dimD S)%nat -> (Z.of_nat H + 1 < nth b (map Zpos N) 0)%Z -> supported p (dimD S) S t ->
  (forall x, length (f0 x) = length S) -> (forall x, wall_fluid N b H x = true -> f0 x = init (wall_row N b x)) -> (forall k, (k < H)%nat -> at_rest_across S b q (init k)) ->
  let fluid := wall_fluid N b H in
  let rho := reference_density compr ((if zc then 1 else 0) + q) in
  exists g, forall x, fluid x = true ->
    (forall n, simulate (torus N) R p t S (torus_cells N) (fun _ => torus_fluid_cells N fluid) (fun _ => torus_links N S fluid) (fun _ _ => Col) (fun _ _ i => no_slip S i) f0 m_src m_tmp n x = Ok (g n x) /\
       at_rest_across S b q (g n x)) /\
    forall a, (a < dimD S)%nat -> a <> b -> exists u,
      poiseuille_flow (middle H (wall_row N b x)) (INR H) (nth a F 0) (rho * nu) = Some u /\
      Un_cv (fun n => (momentum (g (Datatypes.S n) x) S a - nth a F 0 / 2) / rho) u.
Proof.
  intros name ord S ws exps ps P Minv Pinv Mpinv zc dev compr eqm fwd bwd d b fm F q we wo nu Col N H p t f0 init m_src m_tmp HS HT HR Hdz H7 HE Hw Ho Hn Hfm HF HFb X1 X2 X3 X4 Hq HCl HC HN Hb HH HP Hf0 Hi0 Hi fluid rho.
  pose proof HS as [Hpre Hwt _ _ _ _ _]. assert (EL : ldim (torus N) = dimD S) by (rewrite ldim_torus; exact HN).
  assert (Hrho : rho <> 0) by (apply reference_nonzero; exact Hq).
  destruct (C57_magic we wo nu H 0 0%nat rho Hw Hrho Ho Hn) as [Hwo _].
  assert (HSym : symmetric_stencil (ldim (torus N)) S) by (rewrite EL; apply HP).
  assert (Par2 : forall a, (a < dimD S)%nat -> a <> b -> is_even_tuple (exp_ab (dimD S) a b) = true /\ is_even_tuple (exp_abb (dimD S) a b) = false).
  { intros a Ha Hab. apply exp_parity; assumption. }
  assert (HCol : shear_collision (ldim (torus N)) S b q we wo F Col).
  { rewrite EL. apply (C57_collision name ord S ws exps ps P Minv Pinv Mpinv zc dev compr eqm fwd bwd d _ b (Some (fm, F)) q we wo Col HS HT HR Hdz H7 Hb HE); auto.
    - intros fm' F' E. injection E as <- <-. auto.
    - intros a Ha Hab. destruct (X4 a Ha Hab) as [Y1 Y2]. destruct (Par2 a Ha Hab) as [-> ->]. auto. }
  destruct (torus_fluid_cells_spec N fluid) as [Nd Sp].
  destruct (flow_in_channel (torus N) name ord S ws b H fluid (wall_row N b) q we wo F (rzero (ldim (torus N))) (rzero (ldim (torus N))) Col (fun _ _ i => no_slip S i) p t (torus_cells N) (fun _ => torus_fluid_cells N fluid)
    (fun _ => torus_links N S fluid) f0 init m_src m_tmp) as [g Hg]; auto.
  - rewrite EL. exact HP.
  - rewrite EL. exact Hb.
  - apply torus_channel; [rewrite HN; exact Hb|exact HH].
  - intros _. apply no_slip_walls. exact HSym.
  - intros x _. apply torus_cells_all.
  - intros _ l. apply torus_links_spec.
  - intros _ x i a (Hx & Hi' & _) [<-|[]]. cbn [fst snd] in *. cbn [readable]. unfold here. rewrite (dimD_D _ S HSym), shift_zero. repeat split; [exact Hi'|apply vzero_length|exact Hx].
  - exists g. intros x Hx. destruct (Hg x Hx) as [G1 G2]. split; [exact G1|]. intros a Ha Hab.
    destruct (C57_magic we wo nu H (nth a F 0) (wall_row N b x) rho Hw Hrho Ho Hn) as [_ E]. eexists. split; [exact E|].
    rewrite EL in G2. specialize (G2 a Ha Hab). rewrite !nth_rzero in G2. unfold Rdiv at 1 3. apply CV_mult; [exact G2|]. apply cv_const.
Qed.
Print Assumptions C57_poiseuille.

(* non-vacuity: D2Q9 with monomial moments, Guo's force (1/1000, 0), even rate 1, hence odd rate 8/7, a channel of 4 rows on an 8 x 6 block, started from the state of rest *)
Definition ex57_Col ps ws fwd bwd d (f : list R) : list R :=
  match moment_collision 2 D2Q9_walberla ps false true (fun rho u => continuous_maxwellian_moment 2 true false rho u (1 / 3)) ws (moment_matrix ps D2Q9_walberla (rzero 2)) fwd bwd d (Some (Guo, [1 / 1000; 0])) f with
  | Ok g => if Nat.eqb (length g) 9 then g else f
  | Err _ => f
  end.
Definition ex57_N : list positive := [8; 6]%positive.
Definition ex57_d : list R := map (fun e => if is_even_tuple e then 1 else 8 / 7) exps_D2Q9.
Example C57_example : exists ws fwd bwd g, get_weights D2Q9_walberla = Ok ws /\
  forall x, wall_fluid ex57_N 1 4 x = true ->
    (forall n, simulate (torus ex57_N) R AA EVEN D2Q9_walberla (torus_cells ex57_N) (fun _ => torus_fluid_cells ex57_N (wall_fluid ex57_N 1 4)) (fun _ => torus_links ex57_N D2Q9_walberla (wall_fluid ex57_N 1 4))
       (fun _ _ => ex57_Col (map mono_poly exps_D2Q9) (map Q2R ws) fwd bwd ex57_d) (fun _ _ i => no_slip D2Q9_walberla i) (fun _ => map Q2R ws) (fun _ _ => 0) (fun _ _ => 0) n x = Ok (g n x)) /\
    exists u, poiseuille_flow (middle 4 (wall_row ex57_N 1 x)) (INR 4) (1 / 1000) (1 / 6) = Some u /\
      Un_cv (fun n => momentum (g (Datatypes.S n) x) D2Q9_walberla 0 - 1 / 2000) u.
Proof.
  destruct method_setup_D2Q9 as (ws & Minv & P & Pinv & Mpinv & HS & _). pose proof HS as [Hpre Hwt _ _ _ _ _].
  set (ps := map mono_poly exps_D2Q9) in *. pose proof (raw_by_chimera D2Q9_walberla exps_D2Q9 ps P Minv Pinv Mpinv (background D2Q9_walberla ws false false)) as HT. cbv zeta in HT.
  set (fwd := fun f => _) in HT. set (bwd := fun m => _) in HT. exists ws, fwd, bwd.
  assert (HR : rates_by_exponent ps ex57_d (fun e => if is_even_tuple e then 1 else 8 / 7)).
  { split; [reflexivity|]. intros i p t Hp Ht. unfold ps in Hp. rewrite nth_error_map in Hp. destruct (nth_error exps_D2Q9 i) as [e|] eqn:E; [|discriminate]. injection Hp as <-. destruct Ht as [<-|[]].
    unfold ex57_d. erewrite nth_error_nth; [|apply map_nth_error; exact E]. reflexivity. }
  assert (Xin : forall e, existsb (tuple_eqb e) exps_D2Q9 = true -> In e exps_D2Q9).
  { intros e H. apply existsb_exists in H as (e' & Hin & Heq). apply tuple_eqb_eq in Heq. subst e'. exact Hin. }
  assert (HE : shear_equilibrium 2 1 true false (fun rho u => continuous_maxwellian_moment 2 true false rho u (1 / 3))) by (apply C57_equilibria; lia).
  assert (X1 : In (zero_tuple 2) exps_D2Q9) by (apply Xin; vm_compute; reflexivity).
  assert (X2 : forall a, (a < 2)%nat -> In (CollModel.unit_tuple 2 a) exps_D2Q9) by (intros [|[|a]] Ha; [apply Xin; vm_compute; reflexivity..|lia]).
  assert (X3 : In (exp_ab 2 1 1) exps_D2Q9) by (apply Xin; vm_compute; reflexivity).
  assert (X4 : forall a, (a < 2)%nat -> a <> 1%nat -> In (exp_ab 2 a 1) exps_D2Q9 /\ In (exp_abb 2 a 1) exps_D2Q9) by (intros [|[|a]] Ha N; [split; apply Xin; vm_compute; reflexivity|lia|lia]).
  assert (Hmag : relaxation_rate_from_magic_number 1 (3 / 16) = Some (8 / 7)) by (unfold relaxation_rate_from_magic_number, rdiv; destruct (Req_EM_T _ 0); [lra|f_equal; field]).
  assert (Hnu : lattice_viscosity_from_relaxation_rate 1 = Some (1 / 6)) by (unfold lattice_viscosity_from_relaxation_rate, rdiv; destruct (Req_EM_T _ 0); [lra|f_equal; field]).
  assert (Hwa : at_rest_across D2Q9_walberla 1 1 (map Q2R ws)).
  { destruct (weights_isotropic _ _ _ _ Hpre Hwt) as (_ & I1 & I2 & I3 & I4 & _). split; [exact I1|]. split; [exact I2|]. split; [apply I3; cbn; lia|]. rewrite I4 by (cbn; lia). unfold delta. cbn. field. }
  assert (Hq : true = true -> (if false then 1 else 0) + 1 <> 0) by (intros _; lra).
  destruct (C57_poiseuille "D2Q9" "walberla" D2Q9_walberla ws exps_D2Q9 ps P Minv Pinv Mpinv false false true (fun rho u => continuous_maxwellian_moment 2 true false rho u (1 / 3)) fwd bwd ex57_d 1%nat Guo [1 / 1000; 0] 1 1 (8 / 7) (1 / 6)
    (ex57_Col ps (map Q2R ws) fwd bwd ex57_d) ex57_N 4%nat AA EVEN (fun _ => map Q2R ws) (fun _ => map Q2R ws) (fun _ _ => 0) (fun _ _ => 0)) as [g Hg]; auto; try discriminate; try lra.
  - intros f Hf. unfold ex57_Col. destruct (moment_collision _ _ _ _ _ _ _ _ _ _ _ _ _) as [g|]; [|exact Hf]. destruct (Nat.eqb_spec (length g) 9) as [E|]; [exact E|exact Hf].
  - intros f Hf. destruct (C57_collision_defined "D2Q9" "walberla" D2Q9_walberla ws exps_D2Q9 ps P Minv Pinv Mpinv false false true (fun rho u => continuous_maxwellian_moment 2 true false rho u (1 / 3)) fwd bwd ex57_d _ 1%nat
      (Some (Guo, [1 / 1000; 0])) 1 f HS HT HR) as (f' & E & L); auto; try discriminate.
    + intros fm F E. injection E as <- <-. repeat split; discriminate.
    + unfold ex57_Col. change (dimD D2Q9_walberla) with 2%nat in E |- *. rewrite E. rewrite L. reflexivity.
  - cbn; lia.
  - split; [|discriminate]. apply (predefined_wf _ _ _ Hpre).
  - intros _. destruct Hwa as [E _]. exact E.
  - exists g. split; [exact Hwt|]. intros x Hx. destruct (Hg x Hx) as [G1 G2]. split; [intros n; apply G1|].
    destruct (G2 0%nat ltac:(cbn; lia) ltac:(lia)) as (u & E & C). exists u. cbn [nth] in E, C. unfold reference_density in E, C.
    replace ((0 + 1) * (1 / 6)) with (1 / 6) in E by field. split; [exact E|]. eapply cv_ext; [|exact C]. intros n. cbv beta. field.
Qed.
