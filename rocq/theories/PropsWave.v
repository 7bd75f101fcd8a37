(* C61: shear waves decay with the viscosity of the method. *)
From Coq Require Import String List ZArith QArith Qreals Bool Arith Reals Lra Lia.
From Verif Require Import RealLib LinLib StencilModel StencilProofs StencilProofs2 AccessModel AccessProofs GridModel GridProofs StreamModel StreamSpec StreamProofs StreamProofs2 EqModel EqSpec TransSpec TransModel TransProofs MomModel CollModel CollSpec CollProofs
  BoundModel BoundSpec BoundProofs BoundProofs2 RateModel RateSpec RateProofs PropsRate CollProofs4 CollProofs5 PropsEq PropsTrans PropsColl ChanSpec ChanProofs ChanProofs2 ChanProofs3 ChanProofs4 ChanProofs5 PropsChan InbProofs WaveSpec WaveProofs WaveProofs2.
Import ListNotations.
Local Open Scope R_scope.

(* The constant K depends on the two rates only.  On a periodic block every plane shear wave of m wave lengths keeps its shape and its planes; its amplitude never grows, and
   follows the solution exp(- nu kappa^2 n) of the Navier-Stokes equations, nu being the viscosity of the library, up to K (kappa + n kappa^4): for a fixed time n kappa^2
   the error vanishes with growing resolution *)
Theorem C61_shear_wave : forall we wo nu, 0 < we < 2 -> 0 < wo < 2 -> lattice_viscosity_from_relaxation_rate we = Some nu -> exists K, 0 <= K /\
  forall name ord S ws N b M m phi q U A Col p t xs0 xs B f0 init m_src m_tmp,
  predefined_stencils name ord = Ok S -> get_weights S = Ok ws -> supported p (ldim (torus N)) S t -> nth_error N b = Some M ->
  shear_collision (ldim (torus N)) S b q we wo (rzero (ldim (torus N))) Col -> (forall f, length f = length S -> length (Col f) = length S) ->
  (forall x, In x xs0) -> (forall n, NoDup (xs n)) -> (forall n x, In x (xs n)) -> 
  length U = ldim (torus N) -> length A = ldim (torus N) ->
  let kappa := wave_number m M in
  (forall x : cell (torus N), length (f0 x) = length S) -> (forall x : cell (torus N), f0 x = init (nth b (proj1_sig x) 0%Z)) ->
  (forall k, (0 <= k < Zpos M)%Z -> shear_start (ldim (torus N)) S b q (wave U A (cos (kappa * IZR k + phi))) (init k)) ->
  exists g amplitude,
    (forall n (x : cell (torus N)), simulate (torus N) R p t S xs0 xs (fun _ => []) (fun _ _ => Col) B f0 m_src m_tmp n x = Ok (g n x) /\ at_rest_across S b q (g n x)) /\
    (forall n (x : cell (torus N)) a, (a < ldim (torus N))%nat -> a <> b -> momentum (g n x) S a = nth a U 0 + nth a A 0 * (amplitude n * cos (phase N b kappa phi x))) /\
    forall n, Rabs (amplitude n) <= 1 /\ Rabs (amplitude n - exp (- (nu * (kappa * kappa) * INR n))) <= K * (Rabs kappa + INR n * (kappa * kappa * (kappa * kappa))).
Proof.
  intros we wo nu H1 H2 Hn. destruct (wave_estimate we wo H1 H2) as (K & HK & Est). exists K. split; [exact HK|].
  intros name ord S ws N b M m phi q U A Col p t xs0 xs B f0 init m_src m_tmp HS Hw HP HM Hcol HC X0 Xn Xs LU LA kappa Hf0 Hi0 Hi. pose proof (proj1 HP) as HSym.
  assert (Hb : (b < length N)%nat) by (apply nth_error_Some; congruence).
  assert (HPl : planes N b = Zpos M). { unfold planes. rewrite (nth_error_nth _ _ 0%Z (map_nth_error Zpos _ _ HM)). reflexivity. }
  assert (Hkap : kappa * IZR (planes N b) = 2 * PI * IZR m). { rewrite HPl. unfold kappa, wave_number. field. apply not_0_IZR. discriminate. }
  assert (Hnear := predefined_near name ord S ws b HS Hw).
  exists (post 0 S (fun _ => true) (fun _ _ => Col) B f0), (fun n => aj (waves we wo (cos kappa) (sin kappa) n)).
  assert (W : forall n (x : cell (torus N)), is_wave N S b q kappa phi U A (waves we wo (cos kappa) (sin kappa) n) (nth b (proj1_sig x) 0%Z) (post 0 S (fun _ => true) (fun _ _ => Col) B f0 n x)).
  { intros n x. rewrite (post_pline N S b Col HSym Hb B f0 init n Hi0 x). apply (wave_line N S b q we wo Col Hb Hnear Hcol kappa phi m U A Hkap init n).
    - intros k Hk. rewrite HPl in Hk. destruct (Hi k Hk) as [S1 S2]. split; [exact S1|]. intros a Ha Hab. destruct (S2 a Ha Hab) as (-> & -> & ->). cbn [aj ap ak]. unfold wave, angle. rewrite nth_radd by (rewrite map_length; congruence).
      rewrite (nth_indep (map _ A) 0 (0 * cos (kappa * IZR k + phi))) by (rewrite map_length; lia). rewrite (map_nth (fun a => a * cos (kappa * IZR k + phi)) A 0 a). repeat split; field.
    - exact (proj2 (in_torus N (proj1_sig x) (proj2_sig x)) b Hb). }
  split; [|split].
  - intros n x. split; [|apply W]. apply (simulate_correct (torus N) R 0 S p (fun _ => true) xs0 xs (fun _ => []) (fun _ _ => Col) B f0); auto.
    + intros n' y. split; [reflexivity|intros _; apply Xs].
    + intros n' l. split; [intros []|]. intros (_ & _ & E). discriminate E.
    + intros n' y i a (_ & _ & E). discriminate E.
  - intros n x a Ha Hab. destruct (W n x) as [_ Wa]. apply (Wa a Ha Hab).
  - intros n. split; [apply waves_bounded; [|exact H1|exact H2]; pose proof (sin2_cos2 kappa) as E; unfold Rsqr in E; lra|].
    assert (En : nu = lambda we / 3). { destruct (C24_rate_round_trip we ltac:(lra)) as [E _]. rewrite Hn in E. injection E as ->. unfold viscosity, lambda. field. lra. }
    rewrite En. apply Est.
Qed.
Print Assumptions C61_shear_wave.

(* refinement: whatever follows exp(- nu kappa^2 n) up to such an error converges to the solution at time tau, measured in wave lengths, when the waves become longer *)
Theorem C61_convergence : forall K nu tau (amplitude kappa : nat -> R) (steps : nat -> nat),
  (forall i, Rabs (amplitude i - exp (- (nu * (kappa i * kappa i) * INR (steps i)))) <= K * (Rabs (kappa i) + INR (steps i) * (kappa i * kappa i * (kappa i * kappa i)))) ->
  Un_cv kappa 0 -> Un_cv (fun i => INR (steps i) * (kappa i * kappa i)) tau -> Un_cv amplitude (exp (- (nu * tau))).
Proof.
  intros K nu tau a k s H Hk Ht.
  assert (Ck : Un_cv (fun i => Rabs (k i)) 0) by (rewrite <- Rabs_R0; apply cv_cvabs; exact Hk).
  assert (Ce : Un_cv (fun i => K * (Rabs (k i) + INR (s i) * (k i * k i) * (k i * k i))) 0).
  { replace 0 with (K * (0 + tau * (0 * 0))) by ring. apply CV_mult; [apply cv_const|]. apply CV_plus; [exact Ck|]. apply CV_mult; [exact Ht|]. apply CV_mult; exact Hk. }
  assert (Cx : Un_cv (fun i => exp (- (nu * (k i * k i) * INR (s i)))) (exp (- (nu * tau)))).
  { assert (Cl : Un_cv (fun i => - (nu * (INR (s i) * (k i * k i)))) (- (nu * tau))) by (apply CV_opp, CV_mult; [apply cv_const|exact Ht]).
    pose proof (continuity_seq exp _ _ (derivable_continuous exp derivable_exp (- (nu * tau))) Cl) as Cx. eapply Un_cv_ext; [|exact Cx]. intros i. cbv beta. f_equal. ring. }
  assert (Cd : Un_cv (fun i => a i - exp (- (nu * (k i * k i) * INR (s i)))) 0).
  { intros eps He. destruct (Ce eps He) as [n0 Hn0]. exists n0. intros n Hn. specialize (Hn0 n Hn). specialize (H n). unfold R_dist in *. rewrite Rminus_0_r in *.
    eapply Rle_lt_trans; [exact H|]. eapply Rle_lt_trans; [apply Rle_abs|]. replace (K * (Rabs (k n) + INR (s n) * (k n * k n * (k n * k n)))) with (K * (Rabs (k n) + INR (s n) * (k n * k n) * (k n * k n))) by ring. exact Hn0. }
  pose proof (CV_plus _ _ _ _ Cd Cx) as C. rewrite Rplus_0_l in C. eapply Un_cv_ext; [|exact C]. intros i. cbv beta. ring.
Qed.
Print Assumptions C61_convergence.

(* populations of the equilibria of the library start a shear wave: those of the method and those of the discrete equilibrium *)
Theorem C61_start :
  (forall name ord S ws exps ps P Minv Pinv Mpinv zc dev compr eqm fwd bwd b rho u,
    method_setup name ord S ws exps ps P Minv Pinv Mpinv -> raw_transform S exps ps P Minv Pinv Mpinv (background S ws zc dev) fwd bwd ->
    (dev = true -> zc = true) -> sizeQ S <> 7%nat -> (b < dimD S)%nat -> shear_equilibrium (dimD S) b compr dev eqm ->
    In (zero_tuple (dimD S)) exps -> (forall a, (a < dimD S)%nat -> In (CollModel.unit_tuple (dimD S) a) exps) -> In (exp_ab (dimD S) b b) exps ->
    (forall a, (a < dimD S)%nat -> a <> b -> In (exp_ab (dimD S) a b) exps /\ In (exp_abb (dimD S) a b) exps) -> length u = dimD S -> nth b u 0 = 0 ->
    exists p, raw_equilibrium_populations ps eqm bwd rho u = Ok p /\ shear_start (dimD S) S b (rho - (if zc then 1 else 0)) (map (Rmult (reference_density compr rho)) u) p) /\
  (forall name ord S ws b (zc compr dev : bool) order rho u p, predefined_stencils name ord = Ok S -> get_weights S = Ok ws -> sizeQ S <> 7%nat -> (eq_order order <= 2)%Z -> (b < dimD S)%nat ->
    (dev = true -> zc = true) -> length u = dimD S -> nth b u 0 = 0 -> hydro_maxwellian S compr dev order rho u (1 / 3) = Ok p -> length p = length S ->
    shear_start (dimD S) S b (rho - (if zc then 1 else 0)) (map (Rmult (reference_density compr rho)) u) (rsub p (background S ws zc dev))).
Proof. split; [exact method_start|exact equilibrium_start]. Qed.
Print Assumptions C61_start.

(* every moment-based method of the library without force, started from its equilibrium with constant density rho and velocity U + A cos(kappa x_b + phi) along the planes *)
Theorem C61_moment_methods : forall we wo nu, 0 < we < 2 -> 0 < wo < 2 -> lattice_viscosity_from_relaxation_rate we = Some nu -> exists K, 0 <= K /\
  forall name ord S ws exps ps P Minv Pinv Mpinv zc dev compr eqm fwd bwd d r b rho N M m phi U A Col p t f0 m_src m_tmp,
  method_setup name ord S ws exps ps P Minv Pinv Mpinv -> raw_transform S exps ps P Minv Pinv Mpinv (background S ws zc dev) fwd bwd ->
  rates_by_exponent ps d r -> (dev = true -> zc = true) -> sizeQ S <> 7%nat -> (b < dimD S)%nat -> shear_equilibrium (dimD S) b compr dev eqm ->
  In (zero_tuple (dimD S)) exps -> (forall a, (a < dimD S)%nat -> In (CollModel.unit_tuple (dimD S) a) exps) -> In (exp_ab (dimD S) b b) exps ->
  (forall a, (a < dimD S)%nat -> a <> b -> In (exp_ab (dimD S) a b) exps /\ In (exp_abb (dimD S) a b) exps /\ r (exp_ab (dimD S) a b) = we /\ r (exp_abb (dimD S) a b) = wo) ->
  (compr = true -> rho <> 0) -> (forall f, length f = length S -> length (Col f) = length S) ->
  (forall f, at_rest_across S b (rho - (if zc then 1 else 0)) f -> moment_collision (dimD S) S ps zc compr eqm (map Q2R ws) (moment_matrix ps S (rzero (dimD S))) fwd bwd d None f = Ok (Col f)) ->
  length N = dimD S -> nth_error N b = Some M -> supported p (dimD S) S t -> length U = dimD S -> length A = dimD S -> nth b U 0 = 0 -> nth b A 0 = 0 ->
  let kappa := wave_number m M in
  (forall x : cell (torus N), raw_equilibrium_populations ps eqm bwd rho (wave U A (cos (phase N b kappa phi x))) = Ok (f0 x)) ->
  let ref := reference_density compr rho in
  exists g amplitude,
    (forall n (x : cell (torus N)), simulate (torus N) R p t S (torus_cells N) (fun _ => torus_cells N) (fun _ => []) (fun _ _ => Col) (fun _ _ i => no_slip S i) f0 m_src m_tmp n x = Ok (g n x) /\
       at_rest_across S b (rho - (if zc then 1 else 0)) (g n x)) /\
    (forall n (x : cell (torus N)) a, (a < dimD S)%nat -> a <> b -> momentum (g n x) S a / ref = nth a U 0 + nth a A 0 * (amplitude n * cos (phase N b kappa phi x))) /\
    forall n, Rabs (amplitude n) <= 1 /\ Rabs (amplitude n - exp (- (nu * (kappa * kappa) * INR n))) <= K * (Rabs kappa + INR n * (kappa * kappa * (kappa * kappa))).
Proof.
  intros we wo nu H1 H2 Hn. destruct (C61_shear_wave we wo nu H1 H2 Hn) as (K & HK & HW). exists K. split; [exact HK|].
  intros name ord S ws exps ps P Minv Pinv Mpinv zc dev compr eqm fwd bwd d r b rho N M m phi U A Col p t f0 m_src m_tmp HS HT HR Hdz H7 Hb HE X1 X2 X3 X4 Hq HCl HC HN HM HP LU LA HU HA kappa Hf0 ref.
  pose proof HS as [Hpre Hwt _ _ _ _ _]. assert (EL : ldim (torus N) = dimD S) by (rewrite ldim_torus; exact HN).
  assert (Hrho : ref <> 0) by (unfold ref, reference_density; destruct compr; [auto|lra]).
  assert (HCol : shear_collision (ldim (torus N)) S b (rho - (if zc then 1 else 0)) we wo (rzero (ldim (torus N))) Col).
  { rewrite EL. change (rzero (dimD S)) with (force_vector (dimD S) None). apply (C57_collision name ord S ws exps ps P Minv Pinv Mpinv zc dev compr eqm fwd bwd d r b None (rho - (if zc then 1 else 0)) we wo Col HS HT HR Hdz H7 Hb HE); auto.
    - intros fm F E. discriminate E.
    - intros E. replace ((if zc then 1 else 0) + (rho - (if zc then 1 else 0))) with rho by ring. auto. }
  assert (Lwv : forall c, length (wave U A c) = dimD S) by (intros c; unfold wave; rewrite radd_length, map_length; lia).
  assert (Nwv : forall a c, (a < dimD S)%nat -> nth a (wave U A c) 0 = nth a U 0 + nth a A 0 * c).
  { intros a c Ha. unfold wave. rewrite nth_radd by (rewrite map_length; congruence). rewrite (nth_indep (map _ A) 0 (0 * c)) by (rewrite map_length; lia). now rewrite (map_nth (fun a => a * c) A 0 a). }
  assert (ST : forall c, exists f, raw_equilibrium_populations ps eqm bwd rho (wave U A c) = Ok f /\ shear_start (dimD S) S b (rho - (if zc then 1 else 0)) (map (Rmult ref) (wave U A c)) f).
  { intros c. apply (proj1 C61_start name ord S ws exps ps P Minv Pinv Mpinv zc dev compr eqm fwd bwd b rho (wave U A c)); auto.
    - intros a Ha Hab. destruct (X4 a Ha Hab) as (Y1 & Y2 & _). auto.
    - rewrite Nwv, HU, HA by exact Hb. ring. }
  set (init := fun k => match raw_equilibrium_populations ps eqm bwd rho (wave U A (cos (kappa * IZR k + phi))) with Ok f => f | Err _ => [] end).
  assert (EM : forall c, map (Rmult ref) (wave U A c) = wave (map (Rmult ref) U) (map (Rmult ref) A) c).
  { intros c. apply (nth_ext _ _ 0 0).
    - unfold wave. rewrite !map_length, !radd_length, !map_length. lia.
    - intros a Ha. rewrite map_length, Lwv in Ha. rewrite (nth_indep _ 0 (ref * 0)) by (rewrite map_length, Lwv; exact Ha). rewrite map_nth, Nwv by exact Ha. unfold wave. rewrite nth_radd by (rewrite !map_length; congruence). rewrite map_map.
      rewrite (nth_indep (map (Rmult ref) U) 0 (ref * 0)) by (rewrite map_length; lia). rewrite map_nth. rewrite (nth_indep (map _ A) 0 (ref * 0 * c)) by (rewrite map_length; lia). rewrite (map_nth (fun x => ref * x * c) A 0 a). ring. }
  destruct (HW name ord S ws N b M m phi (rho - (if zc then 1 else 0)) (map (Rmult ref) U) (map (Rmult ref) A) Col p t (torus_cells N) (fun _ => torus_cells N) (fun _ _ i => no_slip S i) f0 init m_src m_tmp) as (g & amp & G1 & G2 & G3); auto.
  - rewrite EL. exact HP.
  - intros x. apply torus_cells_all.
  - intros _. apply torus_cells_NoDup.
  - intros _ x. apply torus_cells_all.
  - rewrite map_length, EL. exact LU.
  - rewrite map_length, EL. exact LA.
  - intros x. destruct (ST (cos (phase N b kappa phi x))) as (f & E & S1 & _). rewrite Hf0 in E. injection E as ->. apply S1.
  - intros x. unfold init. change (kappa * IZR (nth b (proj1_sig x) 0%Z) + phi) with (phase N b kappa phi x). now rewrite Hf0.
  - intros k _. rewrite EL, <- EM. unfold init, kappa. fold kappa. destruct (ST (cos (kappa * IZR k + phi))) as (f & E & SS). rewrite E. exact SS.
  - exists g, amp. split; [exact G1|]. split; [|exact G3]. intros n x a Ha Hab. rewrite (G2 n x a) by (auto; rewrite EL; exact Ha). fold kappa.
    rewrite (nth_indep (map (Rmult ref) U) 0 (ref * 0)) by (rewrite map_length; lia). rewrite map_nth. rewrite (nth_indep (map (Rmult ref) A) 0 (ref * 0)) by (rewrite map_length; lia). rewrite map_nth. field. exact Hrho.
Qed.
Print Assumptions C61_moment_methods.

(* non-vacuity: D2Q9 with even rate 1 and odd rate 8/7, a wave of amplitude 1/10 on a moving background, on blocks 4 x M for every M, read along the second axis, esoteric twist storage *)
Definition ex61_Col ps ws fwd bwd d (f : list R) : list R :=
  match moment_collision 2 D2Q9_walberla ps false true (fun rho u => continuous_maxwellian_moment 2 true false rho u (1 / 3)) ws (moment_matrix ps D2Q9_walberla (rzero 2)) fwd bwd d None f with
  | Ok g => if Nat.eqb (length g) 9 then g else f
  | Err _ => f
  end.
Definition ex61_start ps bwd (N : list positive) (kappa : R) (x : cell (torus N)) : list R :=
  match raw_equilibrium_populations ps (fun rho u => continuous_maxwellian_moment 2 true false rho u (1 / 3)) bwd 1 (wave [1 / 20; 0] [1 / 10; 0] (cos (phase N 1 kappa 0 x))) with Ok f => f | Err _ => [] end.
Example C61_example : exists K ws fwd bwd, get_weights D2Q9_walberla = Ok ws /\ forall M, exists g amplitude,
  let N := [4; M]%positive in let kappa := wave_number 1 M in let ps := map mono_poly exps_D2Q9 in
  (forall n (x : cell (torus N)), simulate (torus N) R ESOTWIST EVEN D2Q9_walberla (torus_cells N) (fun _ => torus_cells N) (fun _ => []) (fun _ _ => ex61_Col ps (map Q2R ws) fwd bwd ex57_d) (fun _ _ i => no_slip D2Q9_walberla i)
     (ex61_start ps bwd N kappa) (fun _ _ => 0) (fun _ _ => 0) n x = Ok (g n x) /\ momentum (g n x) D2Q9_walberla 0 = 1 / 20 + 1 / 10 * (amplitude n * cos (phase N 1 kappa 0 x))) /\
  forall n, Rabs (amplitude n - exp (- (1 / 6 * (kappa * kappa) * INR n))) <= K * (Rabs kappa + INR n * (kappa * kappa * (kappa * kappa))).
Proof.
  destruct method_setup_D2Q9 as (ws & Minv & P & Pinv & Mpinv & HS & _). pose proof HS as [Hpre Hwt _ _ _ _ _].
  set (ps := map mono_poly exps_D2Q9) in *. pose proof (raw_by_chimera D2Q9_walberla exps_D2Q9 ps P Minv Pinv Mpinv (background D2Q9_walberla ws false false)) as HT. cbv zeta in HT.
  set (fwd := fun f => _) in HT. set (bwd := fun m => _) in HT.
  assert (Hnu : lattice_viscosity_from_relaxation_rate 1 = Some (1 / 6)) by (unfold lattice_viscosity_from_relaxation_rate, rdiv; destruct (Req_EM_T _ 0); [lra|f_equal; field]).
  destruct (C61_moment_methods 1 (8 / 7) (1 / 6)) as (K & HK & HM); [lra|lra|exact Hnu|]. exists K, ws, fwd, bwd. split; [exact Hwt|]. intros M.
  assert (HR : rates_by_exponent ps ex57_d (fun e => if is_even_tuple e then 1 else 8 / 7)).
  { split; [reflexivity|]. intros i p t Hp Ht. unfold ps in Hp. rewrite nth_error_map in Hp. destruct (nth_error exps_D2Q9 i) as [e|] eqn:E; [|discriminate]. injection Hp as <-. destruct Ht as [<-|[]].
    unfold ex57_d. erewrite nth_error_nth; [|apply map_nth_error; exact E]. reflexivity. }
  assert (Xin : forall e, existsb (tuple_eqb e) exps_D2Q9 = true -> In e exps_D2Q9).
  { intros e H. apply existsb_exists in H as (e' & Hin & Heq). apply tuple_eqb_eq in Heq. subst e'. exact Hin. }
  assert (HE : shear_equilibrium 2 1 true false (fun rho u => continuous_maxwellian_moment 2 true false rho u (1 / 3))) by (apply C57_equilibria; lia).
  assert (X1 : In (zero_tuple 2) exps_D2Q9) by (apply Xin; vm_compute; reflexivity).
  assert (X2 : forall a, (a < 2)%nat -> In (CollModel.unit_tuple 2 a) exps_D2Q9) by (intros [|[|a]] Ha; [apply Xin; vm_compute; reflexivity..|lia]).
  assert (X3 : In (exp_ab 2 1 1) exps_D2Q9) by (apply Xin; vm_compute; reflexivity).
  assert (X4 : forall a, (a < 2)%nat -> a <> 1%nat -> In (exp_ab 2 a 1) exps_D2Q9 /\ In (exp_abb 2 a 1) exps_D2Q9) by (intros [|[|a]] Ha N; [split; apply Xin; vm_compute; reflexivity|lia|lia]).
  destruct (HM "D2Q9"%string "walberla"%string D2Q9_walberla ws exps_D2Q9 ps P Minv Pinv Mpinv false false true (fun rho u => continuous_maxwellian_moment 2 true false rho u (1 / 3)) fwd bwd ex57_d _ 1%nat 1 [4; M]%positive M 1%Z 0 [1 / 20; 0] [1 / 10; 0]
    (ex61_Col ps (map Q2R ws) fwd bwd ex57_d) ESOTWIST EVEN (ex61_start ps bwd [4; M]%positive (wave_number 1 M)) (fun _ _ => 0) (fun _ _ => 0) HS HT HR) as (g & amp & G1 & G2 & G3); auto; try discriminate; try lra.
  - intros a Ha Hab. destruct (X4 a Ha Hab) as [Y1 Y2]. split; [exact Y1|]. split; [exact Y2|]. pose proof (exp_parity 2 a 1 Ha ltac:(lia)) as [Q1 Q2]. change (dimD D2Q9_walberla) with 2%nat. split; cbv beta; [rewrite Q1|rewrite Q2]; reflexivity.
  - intros f Hf. unfold ex61_Col. destruct (moment_collision _ _ _ _ _ _ _ _ _ _ _ _ _) as [g|]; [|exact Hf]. destruct (Nat.eqb_spec (length g) 9) as [E|]; [exact E|exact Hf].
  - intros f Hf. destruct (C57_collision_defined "D2Q9" "walberla" D2Q9_walberla ws exps_D2Q9 ps P Minv Pinv Mpinv false false true (fun rho u => continuous_maxwellian_moment 2 true false rho u (1 / 3)) fwd bwd ex57_d _ 1%nat
      None (1 - 0) f HS HT HR) as (f' & E & L); auto; try discriminate; try (intros; lra).
    unfold ex61_Col. change (dimD D2Q9_walberla) with 2%nat in E |- *. rewrite E. rewrite L. reflexivity.
  - split; [|discriminate]. apply (predefined_wf _ _ _ Hpre).
  - exists g, amp. split; [|intros n; apply G3]. intros n x. split; [apply G1|]. pose proof (G2 n x 0%nat ltac:(cbn; lia) ltac:(lia)) as E. cbn [nth] in E. rewrite <- E. unfold reference_density. field.
Qed.
