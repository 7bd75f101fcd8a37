(* C48, C49: finite differences, temperature solver and forces of the Allen-Cahn model *)
From Coq Require Import String List ZArith Bool Arith Reals Lra Lia Permutation.
From Verif Require Import StencilModel RealLib LinLib TransSpec EnergyModel EnergyProofs2 AcModel AcSpec AcProofs AcProofs2 AcProofs3 AcProofs4.
Import ListNotations.
Local Open Scope R_scope.

Notation predefined name ord S := (predefined_stencils name ord = Ok S).
Notation matches S gr lp := ((forall phi, gradient S phi = Ok (gr phi)) /\ (forall phi, laplacian S phi = Ok (lp phi))).

(* ---- C48: derivatives ---- *)
(* on polynomials of degree four the gradient is the gradient plus a sixth of the gradient of the Laplacian: the error has no preferred direction *)
Theorem C48_gradient : forall name ord S p x, fd_name name -> predefined name ord S -> length x = dimD S -> degree_le (dimD S) 4 p ->
  gradient S (sampled p x) = Ok (map (fun a => peval (pderiv a p) x + 1 / 6 * peval (pderiv a (plap (dimD S) p)) x) (seq 0 (dimD S)) ++ pad (dimD S)).
Proof.
  intros name ord S p x Hn HS Hx Hp. destruct (fd_cases name ord S Hn HS) as (D & g & l & HC & HD & _ & Hg & _). rewrite HD in *. rewrite Hg. f_equal. unfold pure_gradient. f_equal.
  apply map_ext_in. intros a Ha. apply in_seq in Ha. apply (grad_poly S D g l); auto. lia.
Qed.
Theorem C48_gradient_exact : forall name ord S p x, fd_name name -> predefined name ord S -> length x = dimD S -> degree_le (dimD S) 2 p ->
  gradient S (sampled p x) = Ok (map (fun a => peval (pderiv a p) x) (seq 0 (dimD S)) ++ pad (dimD S)).
Proof.
  intros name ord S p x Hn HS Hx Hp. destruct (fd_cases name ord S Hn HS) as (D & g & l & HC & HD & _ & Hg & _). rewrite HD in *. rewrite Hg. f_equal. unfold pure_gradient. f_equal.
  apply map_ext_in. intros a Ha. apply in_seq in Ha. apply (grad_exact S D g l); auto. lia.
Qed.
Theorem C48_laplacian_exact : forall name ord S p x, fd_name name -> predefined name ord S -> length x = dimD S -> degree_le (dimD S) 3 p ->
  laplacian S (sampled p x) = Ok (peval (plap (dimD S) p) x).
Proof.
  intros name ord S p x Hn HS Hx Hp. destruct (fd_cases name ord S Hn HS) as (D & g & l & HC & HD & _ & _ & Hl). rewrite HD in *. rewrite Hl. f_equal. apply (lap_exact S D g l); auto.
Qed.
(* on polynomials of degree five the error of the Laplacian is a twelfth of the biharmonic operator, except for fifteen directions *)
Theorem C48_laplacian : forall name ord S p x, fd_name name -> name <> "D3Q15"%string -> predefined name ord S -> length x = dimD S -> degree_le (dimD S) 5 p ->
  laplacian S (sampled p x) = Ok (peval (plap (dimD S) p) x + 1 / 12 * peval (plap (dimD S) (plap (dimD S) p)) x).
Proof.
  intros name ord S p x Hn H15 HS Hx Hp. destruct (fd_cases name ord S Hn HS) as (D & g & l & HC & HD & Hc & _ & Hl). rewrite HD in *. rewrite Hl. f_equal. apply (lap_poly S D g l); auto.
  intros ->. destruct Hc as [[_ E]|[[E _]|[[_ E]|[_ E]]]]; [|now apply H15| |]; apply (f_equal (fun f => f 1%Z)) in E; unfold lD2Q9, lD3Q19, lD3Q27, lD3Q15 in E; cbn in E; lra.
Qed.
(* the Laplacian for fifteen directions is not isotropic: x^4 and x^2 y^2 are treated differently *)
Theorem C48_laplacian_isotropic_refuted : forall ord S, predefined "D3Q15" ord S ->
  (forall p, p = [(1, [4; 0; 0]%nat)] -> laplacian S (sampled p [0; 0; 0]) = Ok (1 / 12 * peval (plap 3 (plap 3 p)) [0; 0; 0])) /\
  (forall p, p = [(1, [2; 2; 0]%nat)] -> laplacian S (sampled p [0; 0; 0]) = Ok (11 / 72 * peval (plap 3 (plap 3 p)) [0; 0; 0])).
Proof.
  intros ord S HS. destruct (fd_cases "D3Q15" ord S) as (D & g & l & HC & HD & Hc & _ & Hl); [right; now left|exact HS|].
  destruct HC as [H|H|H|H]; try (destruct Hc as [[E _]|[[_ E]|[[E _]|[E _]]]]; try discriminate E; apply (f_equal (fun f => f 1%Z)) in E; unfold lD2Q9, lD3Q19, lD3Q27, lD3Q15 in E; cbn in E; lra).
  split; intros p ->; rewrite Hl; f_equal; unfold lap_op; rewrite <- (op_perm _ _ _ H); clear; solve_mono.
Qed.
(* for any field: constants do not matter, and scaling the field scales the derivatives *)
Theorem C48_affine : forall name ord S c k phi, fd_name name -> predefined name ord S -> exists gp lp, gradient S phi = Ok gp /\ laplacian S phi = Ok lp /\
  gradient S (fun o => c + k * phi o) = Ok (map (Rmult k) gp) /\ laplacian S (fun o => c + k * phi o) = Ok (k * lp).
Proof.
  intros name ord S c k phi Hn HS. destruct (fd_cases name ord S Hn HS) as (D & g & l & HC & _ & _ & Hg & Hl). exists (pure_gradient D g S phi), (lap_op l S phi).
  rewrite !Hg, !Hl, (pure_gradient_affine S D g l), (lap_op_affine S D g l) by exact HC. auto.
Qed.
Theorem C48_unsupported : forall name ord S phi, predefined name ord S -> ~ fd_name name -> gradient S phi = Err ValueError /\ laplacian S phi = Err ValueError.
Proof.
  intros name ord S phi HS Hn. apply StencilProofs2.predefined_In in HS. unfold fd_name in Hn. unfold predefined_table in HS. cbn [In] in HS.
  repeat (destruct HS as [HS|HS]; [injection HS as <- <- <-; first [split; reflexivity | exfalso; apply Hn; cbn; tauto]|]). destruct HS.
Qed.

(* ---- C48: temperature ---- *)
(* the right hand side of the stages is the heat equation with the gradient of the interpolated conductivity *)
Theorem C48_heat_equation : forall D gr lp u phase density k_h k_l c_h c_l T x,
  rate D gr lp u phase density k_h k_l c_h c_l T x =
  heat_rate D (u x) (gr (fun o => T (vadd x o))) (gr (fun o => k_l + phase (vadd x o) * (k_h - k_l))) (lp (fun o => T (vadd x o))) (k_l + phase x * (k_h - k_l)) (density x) (c_l + phase x * (c_h - c_l)).
Proof. exact rate_heat. Qed.
(* one auxiliary field: the explicit midpoint rule *)
Theorem C48_midpoint : forall name ord S gr lp u phase density k_h k_l c_h c_l s T, fd_name name -> predefined name ord S -> matches S gr lp ->
  exists T', runge_kutta (dimD S) gr lp u phase density k_h k_l c_h c_l s 1 T = Ok T' /\
    forall x, T' x = midpoint_step (rate (dimD S) gr lp u phase density k_h k_l c_h c_l) s T x.
Proof.
  intros name ord S gr lp u phase density k_h k_l c_h c_l s T Hn HS [Hgr Hlp]. destruct (fd_cases name ord S Hn HS) as (D & g & l & HC & HD & _ & Hg & Hl). rewrite HD.
  apply (midpoint_ok S D g l gr lp); intros phi; [specialize (Hgr phi); rewrite Hg in Hgr|specialize (Hlp phi); rewrite Hl in Hlp]; congruence.
Qed.
(* three auxiliary fields: not the classical Runge-Kutta rule, the fourth slope has the wrong sign *)
Theorem C48_rk4_refuted : forall name ord S gr lp u phase density k_h k_l c_h c_l s T n, fd_name name -> predefined name ord S -> matches S gr lp -> (3 <= n)%nat ->
  exists T', runge_kutta (dimD S) gr lp u phase density k_h k_l c_h c_l s n T = Ok T' /\
    forall x, T' x = rk4_step (rate (dimD S) gr lp u phase density k_h k_l c_h c_l) s T x - s * k4 (rate (dimD S) gr lp u phase density k_h k_l c_h c_l) s T x / 3.
Proof.
  intros name ord S gr lp u phase density k_h k_l c_h c_l s T n Hn HS [Hgr Hlp] H3. destruct (fd_cases name ord S Hn HS) as (D & g & l & HC & HD & _ & Hg & Hl). rewrite HD.
  apply (rk4_formula S D g l gr lp); [| |exact H3]; intros phi; [specialize (Hgr phi); rewrite Hg in Hgr|specialize (Hlp phi); rewrite Hl in Hlp]; congruence.
Qed.
(* a linear temperature profile carried by a constant velocity: the midpoint rule is exact, with three fields two thirds of the step are made *)
Theorem C48_advection : forall name ord S gr lp u phase density k_h k_l c_h c_l s c p gv v T, fd_name name -> predefined name ord S -> matches S gr lp ->
  (forall x, length x = dimD S -> u x = v) -> (forall x, length x = dimD S -> phase x = p) -> (forall x, length x = dimD S -> T x = affine (dimD S) c gv x) ->
  (exists T1, runge_kutta (dimD S) gr lp u phase density k_h k_l c_h c_l s 1 T = Ok T1 /\ forall x, length x = dimD S -> T1 x = T x - s * scalar_product (dimD S) v gv) /\
  (exists T3, runge_kutta (dimD S) gr lp u phase density k_h k_l c_h c_l s 3 T = Ok T3 /\ forall x, length x = dimD S -> T3 x = T x - 2 / 3 * (s * scalar_product (dimD S) v gv)).
Proof.
  intros name ord S gr lp u phase density k_h k_l c_h c_l s c p gv v T Hn HS [Hgr Hlp] Hu Hp HT. destruct (fd_cases name ord S Hn HS) as (D & g & l & HC & HD & _ & Hg & Hl). rewrite HD in *.
  assert (Hgr' : forall phi, gr phi = pure_gradient D g S phi) by (intros phi; specialize (Hgr phi); rewrite Hg in Hgr; congruence).
  assert (Hlp' : forall phi, lp phi = lap_op l S phi) by (intros phi; specialize (Hlp phi); rewrite Hl in Hlp; congruence).
  split; (eexists; split; [reflexivity|]); intros x Hx.
  - eapply (advect1 S D g l HC gr lp Hgr' Hlp' u phase density k_h k_l c_h c_l s c p gv v Hu Hp); [exact Hx|exact HT|reflexivity].
  - eapply (advect4 S D g l HC gr lp Hgr' Hlp' u phase density k_h k_l c_h c_l s c p gv v Hu Hp 3); [lia|exact Hx|exact HT|reflexivity].
Qed.
(* steady states stay *)
Theorem C48_steady : forall name ord S gr lp u phase density k_h k_l c_h c_l s T T' n, fd_name name -> predefined name ord S -> matches S gr lp ->
  (forall x, rate (dimD S) gr lp u phase density k_h k_l c_h c_l T x = 0) -> runge_kutta (dimD S) gr lp u phase density k_h k_l c_h c_l s n T = Ok T' -> forall x, T' x = T x.
Proof.
  intros name ord S gr lp u phase density k_h k_l c_h c_l s T T' n Hn HS [Hgr Hlp] H0 HT. destruct (fd_cases name ord S Hn HS) as (D & g & l & HC & HD & _ & Hg & Hl). rewrite HD in *.
  assert (Hk : n = 1%nat \/ (3 <= n)%nat) by (destruct n as [|[|[|n]]]; [discriminate HT|now left|discriminate HT|right; lia]).
  apply (steady S D g l gr lp) with (5 := HT); [| |exact H0|exact Hk]; intros phi; [specialize (Hgr phi); rewrite Hg in Hgr|specialize (Hlp phi); rewrite Hl in Hlp]; congruence.
Qed.
(* neither zero nor two auxiliary fields work *)
Theorem C48_fields : forall D gr lp u phase density k_h k_l c_h c_l s T n, (exists e, runge_kutta D gr lp u phase density k_h k_l c_h c_l s n T = Err e) <-> n = 0%nat \/ n = 2%nat.
Proof. intros. destruct n as [|[|[|n]]]; cbn; split; try (intros [e E]; discriminate); try (intros [E|E]; discriminate); eauto. Qed.

(* ---- C49: forces ---- *)
Notation fd_setting name ord S FS := (fd_name name /\ predefined_stencils name ord = Ok FS /\ dimD S = dimD FS).
(* away from interfaces only the body force remains *)
Theorem C49_bulk : forall name ord S FS f rho h li th tl beta kappa sr st tr W Te body phi c, fd_setting name ord S FS -> (forall o, In o FS -> phi o = c) -> (dimD S <= length body)%nat ->
  hydrodynamic_force S FS f rho h li th tl (surface_tension_force FS beta kappa phi) body phi = Ok (firstn (dimD S) body) /\
  hydrodynamic_force S FS f rho h li th tl (thermocapillary_force FS sr st tr W Te phi) body phi = Ok (firstn (dimD S) body) /\
  forall ph pl, interface_tracking_force S FS W ph pl phi = Ok (repeat 0 (dimD S)).
Proof.
  intros name ord S FS f rho h li th tl beta kappa sr st tr W Te body phi c (Hn & HS & HSD) Hc Hb. destruct (fd_cases name ord FS Hn HS) as (D & g & l & HC & HD & _ & Hg & Hl). rewrite HSD, HD in *.
  split; [|split]; [apply (bulk_force S FS D g l) with (c := c)|apply (bulk_thermo S FS D g l) with (c := c)|intros ph pl; apply (bulk_interface S FS D g l) with (c := c)]; auto.
Qed.
(* the sum of the four forces; the relaxation time of the viscous force is interpolated by the phase field: 1/2 + tau_heavy where it is
   one, 1/2 + tau_light where it is zero *)
Theorem C49_composition : forall name ord S FS f rho h li th tl fs body phi, fd_setting name ord S FS ->
  exists fp fm, pressure_force FS rho h li phi = Ok fp /\
    viscous_force S FS f (1 / 2 + (center FS phi * th + (1 - center FS phi) * tl)) h li phi = Ok fm /\
    hydrodynamic_force S FS f rho h li th tl (Ok fs) body phi =
      Ok (map (fun i => nth i fs 0 + nth i fp 0 + nth i fm 0 + nth i body 0) (seq 0 (dimD S))).
Proof.
  intros name ord S FS f rho h li th tl fs body phi (Hn & HS & _). destruct (fd_cases name ord FS Hn HS) as (D & g & l & HC & HD & _ & Hg & Hl).
  unfold hydrodynamic_force. replace (local_tau tl th (center FS phi)) with (1 / 2 + (center FS phi * th + (1 - center FS phi) * tl)) by (unfold local_tau; ring).
  unfold pressure_force, viscous_force. rewrite Hg. cbn [rbind]. do 2 eexists. split; [reflexivity|]. split; reflexivity.
Qed.
(* naming the phases the other way round: same hydrodynamic force, opposite interface force *)
Theorem C49_exchange : forall name ord S FS f rho h li th tl beta kappa sr st tr W Te body phi, fd_setting name ord S FS ->
  hydrodynamic_force S FS f rho li h tl th (surface_tension_force FS beta kappa (fun o => 1 - phi o)) body (fun o => 1 - phi o) =
    hydrodynamic_force S FS f rho h li th tl (surface_tension_force FS beta kappa phi) body phi /\
  hydrodynamic_force S FS f rho li h tl th (thermocapillary_force FS sr st tr W Te (fun o => 1 - phi o)) body (fun o => 1 - phi o) =
    hydrodynamic_force S FS f rho h li th tl (thermocapillary_force FS sr st tr W Te phi) body phi /\
  exists F, interface_tracking_force S FS W 1 0 phi = Ok F /\ interface_tracking_force S FS W 1 0 (fun o => 1 - phi o) = Ok (map Ropp F).
Proof.
  intros name ord S FS f rho h li th tl beta kappa sr st tr W Te body phi (Hn & HS & HSD). destruct (fd_cases name ord FS Hn HS) as (D & g & l & HC & HD & _ & Hg & Hl). rewrite HD in *.
  split; [|split].
  - rewrite (hydrodynamic_flip S FS D g l HC Hg), (surface_flip FS D g l HC Hg Hl). reflexivity.
  - rewrite (hydrodynamic_flip S FS D g l HC Hg), (thermo_flip FS D g l HC Hg Hl). reflexivity.
  - apply (interface_flip S FS D g l); auto.
Qed.
(* the pressure force is minus the pressure deviation times the gradient of the local density *)
Theorem C49_pressure : forall name ord FS rho h li phi, fd_name name -> predefined name ord FS ->
  exists gd, gradient FS (fun o => li + phi o * (h - li)) = Ok gd /\ pressure_force FS rho h li phi = Ok (map (fun x => - (rho / 3) * x) gd).
Proof.
  intros name ord FS rho h li phi Hn HS. destruct (fd_cases name ord FS Hn HS) as (D & g & l & HC & HD & _ & Hg & Hl). apply (pressure_density FS D g l); auto.
Qed.
(* with the strain rate of the non-equilibrium moments (sum f_neq c c = - 2/3 tau S) the viscous force is tau times nu (grad u + grad u^T) . grad rho,
   nu = (tau - 1/2) / 3: right only for tau = 1 *)
Theorem C49_viscous_refuted : forall name ord S FS f tau h li strain phi, fd_setting name ord S FS ->
  (forall a b, (a < dimD S)%nat -> (b < dimD S)%nat -> second_order_moment S f a b = - (2 / 3) * tau * strain a b) ->
  exists gp, gradient FS phi = Ok gp /\
    viscous_force S FS f tau h li phi = Ok (map (fun a => tau * viscous_component (dimD S) ((tau - 1 / 2) / 3) (h - li) strain gp a) (seq 0 (dimD S)) ++ pad (dimD S)).
Proof.
  intros name ord S FS f tau h li strain phi (Hn & HS & HSD) Hs. destruct (fd_cases name ord FS Hn HS) as (D & g & l & HC & HD & _ & Hg & Hl). rewrite HSD, HD in *. apply (viscous_formula S FS D g l); auto.
Qed.
(* thermocapillary force: capillary force with the local surface tension, plus a force along the interface in the direction in which surface tension grows *)
Theorem C49_thermocapillary : forall name ord FS sr st tr W Te phi, fd_name name -> predefined name ord FS -> exists gp gt mu t,
  gradient FS phi = Ok gp /\ gradient FS Te = Ok gt /\
  chemical_potential FS (12 * ((sr + st * (center FS Te - tr)) / W)) (3 / 2 * (sr + st * (center FS Te - tr)) * W) phi = Ok mu /\
  thermocapillary_force FS sr st tr W Te phi = Ok (map (fun i => mu * nth i gp 0 + nth i t 0) (seq 0 3)) /\ length t = 3%nat /\
  scalar_product 3 t gp = 0 /\ (st = 0 -> t = [0; 0; 0]) /\ (0 < W -> 0 <= st * scalar_product 3 t gt) /\
  scalar_product 3 t gt = 3 / 2 * W * st * (scalar_product 3 gp gp * scalar_product 3 gt gt - scalar_product 3 gt gp ^ 2).
Proof.
  intros name ord FS sr st tr W Te phi Hn HS. destruct (fd_cases name ord FS Hn HS) as (D & g & l & HC & HD & _ & Hg & Hl).
  destruct (marangoni FS D g l HC Hg Hl sr st tr W Te phi) as (gp & gt & mu & t & H1 & H2 & H3 & H4 & H5 & H6 & H7 & H8). exists gp, gt, mu, t. do 7 (split; [eassumption|]). split; [|exact H7].
  intros HW. rewrite H7. pose proof (marangoni_sign gp gt) as Hp. clear - Hp HW. revert Hp. generalize (scalar_product 3 gp gp * scalar_product 3 gt gt - scalar_product 3 gt gp ^ 2). intros k Hp. replace (st * (3 / 2 * W * st * k)) with (3 / 2 * W * (st * st) * k) by ring.
  apply Rmult_le_pos; [|exact Hp]. apply Rmult_le_pos; [lra|]. apply Rle_0_sqr.
Qed.
(* interface force: along the gradient; towards the heavy phase inside the interface, zero in the bulk values, backwards beyond them *)
Theorem C49_interface : forall name ord S FS W phi, fd_setting name ord S FS -> 0 < W -> exists gp k F, gradient FS phi = Ok gp /\ interface_tracking_force S FS W 1 0 phi = Ok F /\
  F = map (fun i => k * nth i gp 0) (seq 0 (dimD S)) /\
  (0 < center FS phi < 1 -> 0 < k) /\ (center FS phi = 0 \/ center FS phi = 1 -> k = 0) /\ (center FS phi < 0 \/ 1 < center FS phi -> k < 0).
Proof.
  intros name ord S FS W phi (Hn & HS & HSD) HW. destruct (fd_cases name ord FS Hn HS) as (D & g & l & HC & HD & _ & Hg & Hl). rewrite HSD, HD in *. apply (interface_shape S FS D g); auto.
Qed.
(* in the profile (1 + tanh (2 x / W)) / 2 the force is a third of the slope, in the direction of the normal: this profile is kept *)
Theorem C49_interface_profile : forall name ord S FS W phi x slope, fd_setting name ord S FS -> 0 < W ->
  center FS phi = (1 + tanh (2 * x / W)) / 2 -> derivable_pt_lim (fun y => (1 + tanh (2 * y / W)) / 2) x slope ->
  exists n, normalized_gradient FS phi = Ok n /\ interface_tracking_force S FS W 1 0 phi = Ok (map (fun i => 1 / 3 * slope * nth i n 0) (seq 0 (dimD S))).
Proof.
  intros name ord S FS W phi x slope (Hn & HS & HSD) HW Hc Hs. destruct (fd_cases name ord FS Hn HS) as (D & g & l & HC & HD & _ & Hg & Hl).
  assert (E : forall y, (1 + tanh (2 * y / W)) / 2 = analytic_interface_profile (W / 4) y) by (intros y; unfold analytic_interface_profile; do 3 f_equal; field; lra).
  assert (HW4 : 0 < W / 4) by lra.
  assert (Es : slope = analytic_interface_profile (W / 4) x * (1 - analytic_interface_profile (W / 4) x) / (W / 4)).
  { apply (uniqueness_limite (analytic_interface_profile (W / 4)) x); [|now apply profile_deriv]. apply (dlim_ext (fun y => (1 + tanh (2 * y / W)) / 2)); [exact E|exact Hs]. }
  rewrite E in Hc. destruct (normalized_gradient FS phi) as [n|e] eqn:En; [|unfold normalized_gradient in En; rewrite Hg in En; discriminate]. exists n. split; [reflexivity|].
  unfold interface_tracking_force. rewrite En. cbn [rbind]. f_equal. apply map_ext. intros i. f_equal. rewrite Hc, Es. field. lra.
Qed.
(* phi_heavy and phi_light: the force vanishes in the bulk only if they differ by one *)
Theorem C49_phase_values_refuted : forall name ord S FS W ph pl phi, fd_setting name ord S FS -> center FS phi = ph -> exists n, normalized_gradient FS phi = Ok n /\
  interface_tracking_force S FS W ph pl phi = Ok (map (fun i => (1 - (ph - pl) ^ 2) / (3 * W) * nth i n 0) (seq 0 (dimD S))).
Proof.
  intros name ord S FS W ph pl phi (Hn & HS & HSD) Hc. destruct (fd_cases name ord FS Hn HS) as (D & g & l & HC & HD & _ & Hg & Hl). rewrite HSD, HD in *. apply (interface_bulk_value S FS D g); auto.
Qed.
(* sub-iterations: the velocity is recomputed from the populations with the force of the previous velocity; the last velocity gives the force *)
Theorem C49_sub_iterations : forall zc compr D sum_f density j shift force n v, (1 <= D <= 3)%nat -> zc && compr = false ->
  sub_iterated_force zc compr D sum_f density j shift force (Datatypes.S n) v =
  Ok (force (Nat.iter n (fun w => map (fun i => nth i j 0 / (if compr then sum_f else 1) + shift (nth i (force w) 0 / density)) (seq 0 D)) v)).
Proof.
  intros zc compr D sum_f density j shift force n v HD Hz. cbn [sub_iterated_force]. f_equal. f_equal.
  assert (E : forall w, next_velocity zc compr D sum_f density j shift force w = map (fun i => nth i j 0 / (if compr then sum_f else 1) + shift (nth i (force w) 0 / density)) (seq 0 D)).
  { intros w. unfold next_velocity. destruct zc, compr; try discriminate Hz; (destruct D as [|[|[|[|D]]]]; [lia| | | |lia]); reflexivity. }
  induction n as [|n IH]; [reflexivity|]. cbn [Nat.iter nat_rect]. unfold Nat.iter in IH |- *. cbn [nat_rect]. rewrite IH. apply E.
Qed.
Theorem C49_no_sub_iterations : forall zc compr D sum_f density j shift force v, sub_iterated_force zc compr D sum_f density j shift force 0 v = Err IndexError.
Proof. reflexivity. Qed.
(* compressible method with zero-centred storage: the first velocity component is the density *)
Theorem C49_sub_iterations_refuted : forall D sum_f density j shift force v, (1 <= D <= 3)%nat -> nth 0 (next_velocity true true D sum_f density j shift force v) 0 = 1 + sum_f.
Proof. intros D sum_f density j shift force v HD. destruct D as [|[|[|[|D]]]]; [lia| | | |lia]; reflexivity. Qed.

Print Assumptions C48_gradient.
Print Assumptions C48_gradient_exact.
Print Assumptions C48_laplacian_exact.
Print Assumptions C48_laplacian.
Print Assumptions C48_laplacian_isotropic_refuted.
Print Assumptions C48_affine.
Print Assumptions C48_unsupported.
Print Assumptions C48_heat_equation.
Print Assumptions C48_midpoint.
Print Assumptions C48_rk4_refuted.
Print Assumptions C48_advection.
Print Assumptions C48_steady.
Print Assumptions C48_fields.
Print Assumptions C49_bulk.
Print Assumptions C49_composition.
Print Assumptions C49_exchange.
Print Assumptions C49_pressure.
Print Assumptions C49_viscous_refuted.
Print Assumptions C49_thermocapillary.
Print Assumptions C49_interface.
Print Assumptions C49_interface_profile.
Print Assumptions C49_phase_values_refuted.
Print Assumptions C49_sub_iterations.
Print Assumptions C49_no_sub_iterations.
Print Assumptions C49_sub_iterations_refuted.

(* ---- examples ---- *)
(* x^2 y - y^3 + 2 x around (1, 2): the derivative along y is 1 - 12 = -11, with error (2 - 6) / 6 *)
Example C48_example : gradient D2Q9_walberla (sampled [(1, [2; 1]%nat); (-1, [0; 3]%nat); (2, [1; 0]%nat)] [1; 2]) = Ok [6; -11 - 2 / 3; 0].
Proof.
  rewrite (C48_gradient "D2Q9" "walberla"); [|now left|reflexivity|reflexivity|repeat constructor]. f_equal. cbv -[Rplus Rmult Ropp Rinv Rdiv Rminus IZR pow R0 R1]. change R1 with 1. change R0 with 0. apply f_equal2; [field|]. apply f_equal2; [field|reflexivity].
Qed.
(* a setting for the temperature solver *)
Definition ex_gr (phi : vec -> R) : list R := match gradient D2Q9_walberla phi with Ok g => g | Err _ => [] end.
Definition ex_lp (phi : vec -> R) : R := match laplacian D2Q9_walberla phi with Ok v => v | Err _ => 0 end.
Example C48_example_setting : matches D2Q9_walberla ex_gr ex_lp.
Proof. split; reflexivity. Qed.
(* T = x + 2 y, velocity (1/10, 1/10), step 1: the temperature falls by 3/10, with three fields by 2/10 *)
Example C48_example_advection : exists T1 T3,
  runge_kutta 2 ex_gr ex_lp (fun _ => [1 / 10; 1 / 10]) (fun _ => 1 / 2) (fun _ => 1) 1 2 1 1 1 1 (affine 2 0 [1; 2]) = Ok T1 /\
  runge_kutta 2 ex_gr ex_lp (fun _ => [1 / 10; 1 / 10]) (fun _ => 1 / 2) (fun _ => 1) 1 2 1 1 1 3 (affine 2 0 [1; 2]) = Ok T3 /\
  T1 [5; 5]%Z = 15 - 3 / 10 /\ T3 [5; 5]%Z = 15 - 2 / 10.
Proof.
  destruct (C48_advection "D2Q9" "walberla" D2Q9_walberla ex_gr ex_lp (fun _ => [1 / 10; 1 / 10]) (fun _ => 1 / 2) (fun _ => 1) 1 2 1 1 1 0 (1 / 2) [1; 2] [1 / 10; 1 / 10] (affine 2 0 [1; 2])) as ((T1 & E1 & H1) & (T3 & E3 & H3));
    [now left|reflexivity|exact C48_example_setting|reflexivity|reflexivity|reflexivity|].
  exists T1, T3. split; [exact E1|]. split; [exact E3|]. rewrite H1, H3 by reflexivity. unfold affine, scalar_product. cbn. split; field.
Qed.
(* a shear flow: populations of the diagonals with non-equilibrium part 1/100, strain rate xy *)
Definition ex_fneq : list R := map (fun c => if Z.eqb (norm2 c) 2 then entry c 0 * entry c 1 / 100 else 0) D2Q9_walberla.
Definition ex_strain (tau : R) (a b : nat) : R := if Nat.eqb a b then 0 else - (6 / 100) / tau.
Example C49_example_viscous : forall tau, tau <> 0 -> forall a b, (a < 2)%nat -> (b < 2)%nat -> second_order_moment D2Q9_walberla ex_fneq a b = - (2 / 3) * tau * ex_strain tau a b.
Proof.
  intros tau Ht a b Ha Hb. destruct a as [|[|a]]; try lia; destruct b as [|[|b]]; try lia; unfold ex_strain; cbn [Nat.eqb]; cbv -[Rplus Rmult Ropp Rinv Rdiv Rminus IZR pow R0 R1]; change R1 with 1; change R0 with 0; field; exact Ht.
Qed.
(* phase values 1 and -1: the force in the bulk of the heavy phase is not zero *)
Example C49_example_phase_values : exists phi n0 n1, center D2Q9_walberla phi = 1 /\ interface_tracking_force D2Q9_walberla D2Q9_walberla 5 1 (-1) phi = Ok [n0; n1] /\ n0 < 0.
Proof.
  set (phi := fun o : vec => 1 + IZR (nth 0 o 0%Z)). destruct (C49_phase_values_refuted "D2Q9" "walberla" D2Q9_walberla D2Q9_walberla 5 1 (-1) phi) as (n & En & H); [split; [now left|]; split; reflexivity|unfold phi; cbv -[Rplus IZR]; lra|].
  exists phi. eexists. eexists. split; [unfold phi; cbv -[Rplus IZR]; lra|]. split; [rewrite H; reflexivity|].
  assert (G1 : gradient D2Q9_walberla phi = Ok [1; 0; 0]). { unfold phi. cbv -[Rplus Rmult Ropp Rinv Rdiv Rminus IZR]. f_equal. apply f_equal2; [field|]. apply f_equal2; [field|]. apply f_equal2; [try reflexivity; field|reflexivity]. }
  unfold normalized_gradient in En. rewrite G1 in En. cbn [rbind] in En. injection En as <-. cbn [map nth].
  set (t := sqrt _). assert (Ht : 0 < t). { apply sqrt_lt_R0. assert (0 < 1 / 10 ^ 32) by (apply Rdiv_lt_0_compat; [lra|apply pow_lt; lra]). cbn [map rsum fold_right]. unfold rsum. cbn [fold_right]. lra. }
  assert (0 < 1 / t) by (apply Rdiv_lt_0_compat; lra). nra.
Qed.
Example C49_example_order : input_order true true 3 = [0; 4; 1; 2; 3]%nat /\ input_order true false 3 = [0; 1; 2; 3; 4]%nat.
Proof. split; vm_compute; reflexivity. Qed.
