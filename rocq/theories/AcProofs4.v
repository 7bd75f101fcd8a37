(* The forces of the conservative Allen-Cahn model. *)
From Coq Require Import String List ZArith Bool Arith Reals Lra Lia Permutation.
From Verif Require Import StencilModel StencilProofs2 RealLib LinLib TransSpec AcModel AcSpec AcProofs AcProofs2 AcProofs3.
Import ListNotations.
Local Open Scope R_scope.

Lemma nth_firstn_lt (l : list R) n i : (i < n)%nat -> nth i (firstn n l) 0 = nth i l 0.
Proof. revert n i. induction l as [|x l IH]; intros [|n] [|i] H; cbn; try lia; try reflexivity. apply IH. lia. Qed.
Section Forces.
  Context (S FS : stencil) (D : nat) (g l : Z -> R) (HF : fd_case FS D g l) (HSD : dimD S = D) (HFD : dimD FS = D).
  Hypothesis Hgr : forall phi, gradient FS phi = Ok (pure_gradient D g FS phi).
  Hypothesis Hlp : forall phi, laplacian FS phi = Ok (lap_op l FS phi).
  Notation G := (pure_gradient D g FS).
  Notation flip phi := (fun o : vec => 1 - phi o).
  Lemma G_flip phi : G (flip phi) = map Ropp (G phi).
  Proof.
    rewrite (pure_gradient_ext D g FS _ (fun o => 1 + -1 * phi o)) by (intros; ring). rewrite (pure_gradient_affine FS D g l) by exact HF. apply map_ext. intros x. ring.
  Qed.
  Lemma lap_flip phi : lap_op l FS (flip phi) = - lap_op l FS phi.
  Proof. rewrite (lap_op_ext l FS _ (fun o => 1 + -1 * phi o)) by (intros; ring). rewrite (lap_op_affine FS D g l) by exact HF. ring. Qed.
  Lemma center_flip phi : center FS (flip phi) = 1 - center FS phi. Proof. reflexivity. Qed.
  Lemma mu_flip beta kappa phi : exists mu, chemical_potential FS beta kappa phi = Ok mu /\ chemical_potential FS beta kappa (flip phi) = Ok (- mu).
  Proof.
    unfold chemical_potential. rewrite !Hlp. cbn [rbind]. eexists. split; [reflexivity|]. f_equal. rewrite lap_flip, center_flip. field.
  Qed.
  Lemma surface_flip beta kappa phi : surface_tension_force FS beta kappa (flip phi) = surface_tension_force FS beta kappa phi.
  Proof.
    unfold surface_tension_force. destruct (mu_flip beta kappa phi) as (mu & -> & ->). rewrite !Hgr. cbn [rbind]. f_equal. rewrite G_flip, map_map. apply map_ext. intros x. ring.
  Qed.
  Lemma thermo_flip sr st tr W Te phi : thermocapillary_force FS sr st tr W Te (flip phi) = thermocapillary_force FS sr st tr W Te phi.
  Proof.
    unfold thermocapillary_force. destruct (mu_flip (12 * ((sr + st * (center FS Te - tr)) / W)) (3 / 2 * (sr + st * (center FS Te - tr)) * W) phi) as (mu & -> & ->). rewrite !Hgr. cbn [rbind]. f_equal. rewrite G_flip.
    destruct (gradient3 FS D g l phi HF) as (a & b & c & ->), (gradient3 FS D g l Te HF) as (a' & b' & c' & ->). cbn. repeat (f_equal; [ring|]). f_equal. ring.
  Qed.
  Lemma pressure_flip rho h li phi : pressure_force FS rho li h (flip phi) = pressure_force FS rho h li phi.
  Proof. unfold pressure_force. rewrite !Hgr. cbn [rbind]. f_equal. rewrite G_flip, map_map. apply map_ext. intros x. field. Qed.
  Lemma viscous_flip f tau h li phi : viscous_force S FS f tau li h (flip phi) = viscous_force S FS f tau h li phi.
  Proof.
    unfold viscous_force. rewrite !Hgr. cbn [rbind]. f_equal. f_equal. rewrite G_flip, !map_map. apply map_ext. intros a.
    rewrite (rsum_ext _ (fun b => -1 * (second_order_moment S f a b * nth b (G phi) 0))); [rewrite rsum_scal; ring|].
    intros b _. replace (nth b (map Ropp (G phi)) 0) with (- nth b (G phi) 0); [ring|]. rewrite <- Ropp_0 at 2. now rewrite map_nth.
  Qed.
  Lemma hydrodynamic_flip f rho h li th tl sf body phi :
    hydrodynamic_force S FS f rho li h tl th sf body (flip phi) = hydrodynamic_force S FS f rho h li th tl sf body phi.
  Proof.
    unfold hydrodynamic_force. rewrite pressure_flip. replace (local_tau th tl (center FS (flip phi))) with (local_tau tl th (center FS phi)) by (rewrite center_flip; unfold local_tau; ring). rewrite viscous_flip. reflexivity.
  Qed.
  Lemma sq_sum_flip (v : list R) : rsum (map (fun x => x * x) (map Ropp v)) = rsum (map (fun x => x * x) v).
  Proof. rewrite map_map. apply rsum_ext. intros x _. ring. Qed.
  Lemma interface_eq W ph pl phi : interface_tracking_force S FS W ph pl phi =
    Ok (map (fun i => 1 / 3 * ((1 - 4 * (center FS phi - 1 / 2 * (pl + ph)) ^ 2) / W) * (nth i (G phi) 0 / sqrt (rsum (map (fun x => x * x) (G phi)) + 1 / 10 ^ 32))) (seq 0 D)).
  Proof.
    unfold interface_tracking_force, normalized_gradient. rewrite Hgr. cbn [rbind]. rewrite HSD. f_equal. apply map_ext_in. intros i Hi. apply in_seq in Hi. f_equal.
    set (t := sqrt _). assert (E : 0 / t = 0) by (unfold Rdiv; ring). rewrite <- E at 1. exact (map_nth (fun x => x / t) (G phi) 0 i).
  Qed.
  Lemma interface_flip W phi : exists F, interface_tracking_force S FS W 1 0 phi = Ok F /\ interface_tracking_force S FS W 1 0 (flip phi) = Ok (map Ropp F).
  Proof.
    rewrite !interface_eq. eexists. split; [reflexivity|]. f_equal. rewrite map_map. apply map_ext. intros i. rewrite G_flip, sq_sum_flip, center_flip.
    replace (nth i (map Ropp (G phi)) 0) with (- nth i (G phi) 0) by (rewrite <- Ropp_0 at 2; now rewrite map_nth). set (t := sqrt _). set (p := center FS phi).
    replace ((1 - p - 1 / 2 * (0 + 1)) ^ 2) with ((p - 1 / 2 * (0 + 1)) ^ 2) by field. unfold Rdiv. ring.
  Qed.

  (* constant neighbourhood *)
  Lemma bulk_force f rho h li th tl beta kappa body phi c : (forall o, In o FS -> phi o = c) -> (D <= length body)%nat ->
    hydrodynamic_force S FS f rho h li th tl (surface_tension_force FS beta kappa phi) body phi = Ok (firstn D body).
  Proof.
    intros Hc Hb. pose proof (pure_gradient_const FS D g l phi c HF Hc) as E. unfold hydrodynamic_force, pressure_force, viscous_force, surface_tension_force, chemical_potential. rewrite !Hgr, Hlp. cbn [rbind]. rewrite E, HSD. f_equal.
    apply list_ext. { rewrite map_length, seq_length, firstn_length. lia. }
    intros i Hi. rewrite map_length, seq_length in Hi. rewrite nth_map_seq by exact Hi. rewrite nth_firstn_lt by exact Hi.
    assert (Z1 : forall k, nth i (map (fun x => k * x) [0; 0; 0]) 0 = 0) by (intros k; destruct i as [|[|[|i]]]; cbn; try ring; now destruct i).
    rewrite !Z1. rewrite app_nth1 by (rewrite !map_length, seq_length; exact Hi). rewrite map_map, nth_map_seq by exact Hi.
    rewrite (rsum_ext _ (fun _ => 0)); [rewrite rsum_zero; ring|]. intros b _. destruct b as [|[|[|[|b]]]]; cbn; ring.
  Qed.
  Lemma bulk_thermo f rho h li th tl sr st tr W Te body phi c : (forall o, In o FS -> phi o = c) -> (D <= length body)%nat ->
    hydrodynamic_force S FS f rho h li th tl (thermocapillary_force FS sr st tr W Te phi) body phi = Ok (firstn D body).
  Proof.
    intros Hc Hb. rewrite <- (bulk_force f rho h li th tl 1 1 body phi c Hc Hb). unfold hydrodynamic_force, thermocapillary_force, surface_tension_force, chemical_potential. unfold pressure_force, viscous_force. rewrite !Hgr, !Hlp. cbn [rbind].
    rewrite (pure_gradient_const FS D g l phi c HF Hc). destruct (gradient3 FS D g l Te HF) as (a & b & d & ->). f_equal. apply map_ext. intros i. f_equal. f_equal. f_equal.
    destruct i as [|[|[|i]]]; cbn; try ring.
  Qed.
  Lemma bulk_interface W ph pl phi c : (forall o, In o FS -> phi o = c) -> interface_tracking_force S FS W ph pl phi = Ok (repeat 0 D).
  Proof.
    intros Hc. rewrite interface_eq, (pure_gradient_const FS D g l phi c HF Hc). f_equal. apply list_ext; [rewrite map_length, seq_length, repeat_length; reflexivity|].
    intros i Hi. rewrite map_length, seq_length in Hi. rewrite nth_map_seq by exact Hi. rewrite nth_repeat. destruct i as [|[|[|[|i]]]]; cbn; unfold Rdiv; ring.
  Qed.
  (* pressure: the gradient of the local density *)
  Lemma pressure_density rho h li phi : exists gd, gradient FS (fun o => li + phi o * (h - li)) = Ok gd /\ pressure_force FS rho h li phi = Ok (map (fun x => - (rho / 3) * x) gd).
  Proof.
    eexists. split; [apply Hgr|]. unfold pressure_force. rewrite Hgr. cbn [rbind]. f_equal.
    rewrite (pure_gradient_ext D g FS (fun o => li + phi o * (h - li)) (fun o => li + (h - li) * phi o)) by (intros; ring). rewrite (pure_gradient_affine FS D g l) by exact HF. rewrite map_map. apply map_ext. intros x. field.
  Qed.
  (* viscous force *)
  Lemma viscous_formula f tau h li strain phi : (forall a b, (a < D)%nat -> (b < D)%nat -> second_order_moment S f a b = - (2 / 3) * tau * strain a b) ->
    exists gp, gradient FS phi = Ok gp /\ viscous_force S FS f tau h li phi = Ok (map (fun a => tau * viscous_component D ((tau - 1 / 2) / 3) (h - li) strain gp a) (seq 0 D) ++ pad D).
  Proof.
    intros Hs. eexists. split; [apply Hgr|]. unfold viscous_force. rewrite Hgr. cbn [rbind]. f_equal. rewrite HSD. f_equal.
    - rewrite map_map. apply map_ext_in. intros a Ha. apply in_seq in Ha. unfold viscous_component.
      rewrite (rsum_ext (fun b => second_order_moment S f a b * _) (fun b => - (2 / 3) * tau * (strain a b * nth b (G phi) 0))) by (intros b Hb; apply in_seq in Hb; rewrite Hs by lia; ring).
      rewrite (rsum_ext (fun b => 2 * ((tau - 1 / 2) / 3) * strain a b * ((h - li) * nth b (G phi) 0)) (fun b => 2 * ((tau - 1 / 2) / 3) * (h - li) * (strain a b * nth b (G phi) 0))) by (intros b _; ring).
      rewrite !rsum_scal. field.
    - unfold pad. destruct (fd_dim FS D g l HF) as ([-> | ->] & _); reflexivity.
  Qed.
  (* thermocapillary force: normal part and tangential part *)
  Lemma marangoni sr st tr W Te phi : exists gp gt mu t, gradient FS phi = Ok gp /\ gradient FS Te = Ok gt /\
    chemical_potential FS (12 * ((sr + st * (center FS Te - tr)) / W)) (3 / 2 * (sr + st * (center FS Te - tr)) * W) phi = Ok mu /\
    thermocapillary_force FS sr st tr W Te phi = Ok (map (fun i => mu * nth i gp 0 + nth i t 0) (seq 0 3)) /\ length t = 3%nat /\
    scalar_product 3 t gp = 0 /\ scalar_product 3 t gt = 3 / 2 * W * st * (scalar_product 3 gp gp * scalar_product 3 gt gt - scalar_product 3 gt gp ^ 2) /\
    (st = 0 -> t = [0; 0; 0]).
  Proof.
    destruct (gradient3 FS D g l phi HF) as (a & b & c & E1), (gradient3 FS D g l Te HF) as (a' & b' & c' & E2).
    unfold thermocapillary_force, chemical_potential. rewrite !Hgr, Hlp, E1, E2. cbn [rbind]. set (mu := _ - _ * lap_op l FS phi).
    set (m := a * a + b * b + c * c). set (d := a' * a + b' * b + c' * c). set (k := 3 / 2 * W * st).
    exists [a; b; c], [a'; b'; c'], mu, [k * (m * a' - d * a); k * (m * b' - d * b); k * (m * c' - d * c)]. repeat (split; [reflexivity|]). split; [|split; [reflexivity|]]. 
    - f_equal. cbn. fold k. unfold m, d. repeat (f_equal; [ring|]). f_equal. ring.
    - unfold scalar_product. cbn. unfold m, d, k. split; [ring|]. split; [ring|]. intros ->. f_equal; [ring|]. f_equal; [ring|]. f_equal. ring.
  Qed.
  Lemma marangoni_sign (gp gt : list R) : 0 <= scalar_product 3 gp gp * scalar_product 3 gt gt - scalar_product 3 gt gp ^ 2.
  Proof.
    unfold scalar_product. cbn. set (a := nth 0 gp 0). set (b := nth 1 gp 0). set (c := nth 2 gp 0). set (x := nth 0 gt 0). set (y := nth 1 gt 0). set (z := nth 2 gt 0).
    replace (_ - _) with ((a * y - b * x) ^ 2 + (a * z - c * x) ^ 2 + (b * z - c * y) ^ 2) by ring. repeat apply Rplus_le_le_0_compat; apply pow2_ge_0.
  Qed.
  (* interface force: direction, sign, size *)
  Lemma interface_shape W phi : 0 < W -> exists gp k F, gradient FS phi = Ok gp /\ interface_tracking_force S FS W 1 0 phi = Ok F /\ F = map (fun i => k * nth i gp 0) (seq 0 D) /\
    (0 < center FS phi < 1 -> 0 < k) /\ (center FS phi = 0 \/ center FS phi = 1 -> k = 0) /\ (center FS phi < 0 \/ 1 < center FS phi -> k < 0).
  Proof.
    intros HW. eexists. set (t := sqrt (rsum (map (fun x => x * x) (G phi)) + 1 / 10 ^ 32)). exists (1 / 3 * ((1 - 4 * (center FS phi - 1 / 2 * (0 + 1)) ^ 2) / W) / t). eexists. split; [apply Hgr|]. split; [apply interface_eq|].
    assert (Ht : 0 < t). { apply sqrt_lt_R0. assert (0 <= rsum (map (fun x => x * x) (G phi))) by (apply rsum_nonneg; intros x _; nra). assert (0 < 1 / 10 ^ 32) by (apply Rdiv_lt_0_compat; [lra|apply pow_lt; lra]). lra. }
    split; [apply map_ext; intros i; fold t; unfold Rdiv; ring|]. set (p := center FS phi).
    replace (1 / 3 * ((1 - 4 * (p - 1 / 2 * (0 + 1)) ^ 2) / W) / t) with (4 / (3 * W * t) * (p * (1 - p))) by (field; lra).
    assert (Hk : 0 < 4 / (3 * W * t)) by (apply Rdiv_lt_0_compat; [lra|]; apply Rmult_lt_0_compat; lra). split; [|split].
    - intros Hp. apply Rmult_lt_0_compat; [exact Hk|nra].
    - intros [-> | ->]; ring.
    - intros Hp. assert (p * (1 - p) < 0) by (destruct Hp; nra). nra.
  Qed.
  Lemma interface_bulk_value W ph pl phi : center FS phi = ph -> exists n, normalized_gradient FS phi = Ok n /\
    interface_tracking_force S FS W ph pl phi = Ok (map (fun i => (1 - (ph - pl) ^ 2) / (3 * W) * nth i n 0) (seq 0 D)).
  Proof.
    intros Hc. unfold interface_tracking_force. destruct (normalized_gradient FS phi) as [n|e] eqn:E; [|unfold normalized_gradient in E; rewrite Hgr in E; discriminate].
    exists n. split; [reflexivity|]. cbn [rbind]. rewrite HSD, Hc. f_equal. apply map_ext. intros i. f_equal. replace (4 * (ph - 1 / 2 * (pl + ph)) ^ 2) with ((ph - pl) ^ 2) by field. unfold Rdiv. rewrite Rinv_mult. ring.
  Qed.
End Forces.
