(* C54: the n-phase model with arbitrary surface tensions. *)
From Coq Require Import List ZArith Bool Arith Reals Lra Lia.
From Verif Require Import StencilModel RealLib NphModel NphSpec NphProofs NphProofs2 NphProofs3.
Import ListNotations.
Local Open Scope R_scope.

(* accepted surface tensions: the coefficients solve the system, are its only solution, and conserve the sum of the phases *)
Theorem C54_diffusion : forall n sigma solution alpha gamma, tensions n sigma -> solver_ok n sigma solution -> diffusion_coefficients n sigma solution = Ok (alpha, gamma) ->
  diffusion_system n sigma alpha gamma /\
  (forall alpha' gamma', diffusion_system n sigma alpha' gamma' -> forall i j, (i < n)%nat -> (j < n)%nat -> alpha' i j = alpha i j /\ gamma' i = gamma i) /\
  (forall w, total n (times n alpha w) = 0).
Proof.
  intros n sigma sol alpha gamma Ht Hs H. assert (D : diffusion_system n sigma alpha gamma).
  { unfold diffusion_coefficients in H. destruct (zero_diagonal n sigma); [|discriminate]. destruct sol as [[a g]|]; [|discriminate]. injection H as -> ->. exact Hs. }
  split; [exact D|]. split; [|intros w; now apply (times_sum n sigma alpha gamma)].
  intros a' g' D' i j Hi Hj. destruct (diffusion_unique n sigma Ht a' g' alpha gamma D' D) as [A G]. auto.
Qed.
Print Assumptions C54_diffusion.
(* rejected: a surface tension of a phase with itself; surface tensions that are all zero *)
Theorem C54_rejected : forall n sigma solution,
  ((exists i, (i < n)%nat /\ sigma i i <> 0) -> diffusion_coefficients n sigma solution = Err AssertionError) /\
  ((2 <= n)%nat -> (forall i j, (i < n)%nat -> (j < n)%nat -> sigma i j = 0) -> solver_ok n sigma solution -> diffusion_coefficients n sigma solution = Err AssertionError).
Proof.
  intros n sigma sol. split.
  - intros (i & Hi & N). unfold diffusion_coefficients, zero_diagonal. destruct (forallb _ _) eqn:E; [|reflexivity]. rewrite forallb_forall in E. specialize (E i ltac:(apply in_seq; lia)). cbv beta in E. destruct (Req_EM_T (sigma i i) 0); congruence.
  - intros Hn Hz Hs. unfold diffusion_coefficients. destruct (zero_diagonal n sigma); [|reflexivity]. destruct sol as [[a g]|]; [|reflexivity]. exfalso. destruct Hs as (_ & _ & S3).
    assert (Z : forall j, (j < n)%nat -> total n (fun k => a 0%nat k * sigma k j) = 0) by (intros j Hj; apply total_zero; intros k Hk; rewrite Hz by auto; ring).
    pose proof (S3 0%nat 0%nat ltac:(lia) ltac:(lia)) as E0. pose proof (S3 0%nat 1%nat ltac:(lia) ltac:(lia)) as E1. rewrite Z in E0, E1 by lia. unfold kronecker in *. cbn in *. lra.
Qed.
Print Assumptions C54_rejected.
(* the mobility dissipates energy exactly if the surface tensions are negative semidefinite on changes with zero sum *)
Theorem C54_dissipation : forall n sigma alpha gamma, tensions n sigma -> diffusion_system n sigma alpha gamma ->
  (forall w, total n (fun i => w i * times n alpha w i) <= 0) <-> (forall v, total n v = 0 -> total n (fun i => v i * times n sigma v i) <= 0).
Proof. intros n sigma alpha gamma Ht H. exact (dissipation n sigma Ht alpha gamma H). Qed.
Print Assumptions C54_dissipation.
(* equal surface tensions *)
Theorem C54_equal_tensions : forall n s, (0 < n)%nat -> s <> 0 ->
  diffusion_system n (fun i j => s * (1 - kronecker i j)) (fun i j => (/ INR n - kronecker i j) / s) (fun _ => - / INR n).
Proof. exact equal_tensions. Qed.
Print Assumptions C54_equal_tensions.

(* an absent phase does not contribute *)
Theorem C54_absent_phase : forall i c sigma f k, (i <= length c)%nat -> tensions (S (length c)) sigma -> f 0 = 0 -> (k <= length c)%nat ->
  capital_f0 (insert_absent i c) sigma f = capital_f0 c (fun a b => sigma (skip i a) (skip i b)) f /\ psi k (insert_absent i c) f = psi k c f.
Proof.
  intros i c sigma f k Hi Ht H0 Hk. split; [now apply f0_absent|]. unfold psi. rewrite insert_length by auto. destruct (Nat.leb_spec k (S (length c))); [|lia]. destruct (Nat.leb_spec k (length c)); [|lia]. now rewrite psi_insert.
Qed.
Print Assumptions C54_absent_phase.
Theorem C54_psi_rejected : forall k c f, (length c < k)%nat -> psi k c f = Err AssertionError.
Proof. intros k c f H. unfold psi. destruct (Nat.leb_spec k (length c)); [lia|reflexivity]. Qed.
Print Assumptions C54_psi_rejected.
(* psi in terms of the sums over subsets of fixed size *)
Theorem C54_psi : forall k c f, (k <= length c)%nat ->
  psi k c f = Ok (rsum (map (fun s => (-1) ^ (k - s) * INR (choose (length c - s) (k - s)) * capital_s s c f) (seq 1 k))).
Proof. intros k c f H. unfold psi. destruct (Nat.leb_spec k (length c)); [|lia]. f_equal. now apply psi_subsets. Qed.
Print Assumptions C54_psi.
(* a mixture of two phases has the bulk energy of the two phase model with their surface tension: the other surface tensions, the
   correction and the stabilisation do not matter *)
Theorem C54_two_phase_energy : forall n sigma lambda theta factor b epsilon j k x, tensions n sigma -> (j < n)%nat -> (k < n)%nat -> j <> k ->
  bulk_free_energy sigma lambda theta factor b epsilon (mixture n j k x) = b / epsilon * (sigma j k * (x ^ 2 * (1 - x) ^ 2)).
Proof. intros. now apply bulk_mixture. Qed.
Print Assumptions C54_two_phase_energy.
(* no third phase is generated in it, and the two phases evolve as in the two phase model, whatever the surface tensions *)
Theorem C54_two_phase_dynamics : forall n sigma alpha gamma lambda theta factor b epsilon j k x, tensions n sigma -> diffusion_system n sigma alpha gamma ->
  (j < n)%nat -> (k < n)%nat -> j <> k ->
  exists mu, (forall l, (l < n)%nat -> partial_derivative (bulk_free_energy sigma lambda theta factor b epsilon) (mixture n j k x) l (mu l)) /\
    forall i, (i < n)%nat -> nth i (l_bar n alpha mu) 0 = b / epsilon * (/ 2 * well_slope x) * (kronecker i j - kronecker i k).
Proof.
  intros n sigma alpha gamma lambda theta factor b eps j k x Ht H Hj Hk Hjk. exists (fun l => b / eps * (- (/ 2 * well_slope x) * (sigma l j - sigma l k))).
  split; [intros l Hl; now apply bulk_gradient|]. intros i Hi. unfold l_bar. rewrite map_seq_nth by auto. rewrite total_rsum.
  pose proof (mixture_dynamics n sigma alpha gamma (b / eps * - (/ 2 * well_slope x)) j k H Hj Hk i Hi) as E. unfold times in E.
  rewrite (total_ext n _ (fun l => alpha i l * (b / eps * - (/ 2 * well_slope x) * (sigma l j - sigma l k)))) by (intros; ring). rewrite E. ring.
Qed.
Print Assumptions C54_two_phase_dynamics.
(* the interface terms decouple: the mobility times the derivative of the interfacial energy is the gradient of the phase itself *)
Theorem C54_interface_dynamics : forall d sigma alpha gamma a epsilon, tensions (length d) sigma -> diffusion_system (length d) sigma alpha gamma -> total (length d) (fun i => nth i d 0) = 0 ->
  exists flux, (forall l, (l < length d)%nat -> partial_derivative (fun d => free_energy_interfacial d sigma a epsilon) d l (flux l)) /\
    forall i, (i < length d)%nat -> nth i (l_bar (length d) alpha flux) 0 = epsilon * a / 2 * nth i d 0.
Proof.
  intros d sigma alpha gamma a eps Ht H Hz. exists (fun l => - eps * a / 2 * times (length d) sigma (entry d) l). split; [intros l Hl; now apply interfacial_gradient|].
  intros i Hi. unfold l_bar. rewrite map_seq_nth, total_rsum by auto. rewrite (total_ext _ _ (fun j => - eps * a / 2 * (alpha i j * times (length d) sigma (entry d) j))) by (intros; ring). rewrite total_scal.
  pose proof (alpha_sigma (length d) sigma alpha gamma (entry d) i H Hi) as E. unfold times at 1 in E. rewrite E. change (total (length d) (entry d)) with (total (length d) (fun i => nth i d 0)). rewrite Hz. unfold entry. field.
Qed.
Print Assumptions C54_interface_dynamics.
(* equal surface tensions: the other form of the bulk energy agrees in mixtures, whatever lambda1 *)
Theorem C54_equal_tension_energy : forall a b d x f sigma lambda1, f 0 = 0 -> f 1 = 0 -> f (1 - x) = f x ->
  capital_f_bulk_equal_surface_tension (repeat 0 a ++ x :: repeat 0 b ++ (1 - x) :: repeat 0 d) f sigma lambda1 = sigma * f x.
Proof. exact equal_tension_two. Qed.
Print Assumptions C54_equal_tension_energy.

(* the declared derivatives of H are its derivatives, also at the origin; there are no others *)
Theorem C54_h : forall u v,
  (exists d, capital_h_fdiff 1 u v = Some d /\ derivable_pt_lim (fun u => capital_h u v) u d) /\
  (exists d, capital_h_fdiff 2 u v = Some d /\ derivable_pt_lim (fun v => capital_h u v) v d) /\
  (forall i, (i < 1 \/ 2 < i)%nat -> capital_h_fdiff i u v = None).
Proof. intros u v. split; [apply h_fdiff_u|]. split; [apply h_fdiff_v|]. intros [|[|[|i]]] H; try reflexivity; lia. Qed.
Print Assumptions C54_h.
(* the coefficients for the double well are 3/2 and 12 *)
Theorem C54_ab : forall P, (forall c, 0 <= c <= 1 -> derivable_pt_lim P c (sqrt (c ^ 2 * (1 - c) ^ 2))) -> compute_ab (fun c => c ^ 2 * (1 - c) ^ 2) (P 1 - P 0) = Some (3 / 2, 12).
Proof. intros P H. rewrite (well_integral P H). exact compute_ab_well. Qed.
Print Assumptions C54_ab.
(* with these coefficients sigma_jk is the surface tension of an interface between the phases j and k: the energy [E] of every profile
   from c x to c y is at least sigma_jk times the increase of 3 c^2 - 2 c^3 (1 for a full interface), for every interface width; with
   equality for the profile 1 / (1 + exp (-4 x / epsilon)) *)
Theorem C54_surface_tension : forall n sigma lambda theta factor epsilon j k c slope energy x y, tensions n sigma -> (j < n)%nat -> (k < n)%nat -> j <> k ->
  0 < epsilon -> 0 <= sigma j k -> x < y -> (forall z, x <= z <= y -> derivable_pt_lim c z (slope z)) ->
  (forall z, x <= z <= y -> derivable_pt_lim energy z
     (free_energy_interfacial (mixture_slope n j k (slope z)) sigma (3 / 2) epsilon + bulk_free_energy sigma lambda theta factor 12 epsilon (mixture n j k (c z)))) ->
  let tension := sigma j k * ((3 * c y ^ 2 - 2 * c y ^ 3) - (3 * c x ^ 2 - 2 * c x ^ 3)) in
  tension <= energy y - energy x /\ ((forall z, x <= z <= y -> slope z = 4 * c z * (1 - c z) / epsilon) -> energy y - energy x = tension).
Proof.
  intros n sigma lambda theta factor eps j k c slope E x y Ht Hj Hk Hjk He Hs Hxy Hc HE tension.
  set (D := fun z => E z - sigma j k * (3 * c z ^ 2 - 2 * c z ^ 3)). set (D' := fun z => sigma j k * (3 / 4 * eps * (slope z - 4 * c z * (1 - c z) / eps) ^ 2)).
  destruct (MVT_cor2 D D' x y Hxy) as (z & Ez & Hz).
  { intros z Hz. unfold D, D'. eapply dn_eq; [|apply dn_minus; [exact (HE z Hz)|apply dn_scal, primitive, Hc; exact Hz]]. rewrite energy_density by (auto; lra). ring. }
  assert (T : D y - D x = (E y - E x) - tension) by (unfold D, tension; ring). rewrite T in Ez. split.
  - assert (0 <= D' z). { unfold D'. apply Rmult_le_pos; [auto|]. apply Rmult_le_pos; [lra|apply pow2_ge_0]. } assert (0 <= D' z * (y - x)) by (apply Rmult_le_pos; lra). lra.
  - intros Hp. assert (Z : D' z = 0) by (unfold D'; rewrite (Hp z) by lra; ring). rewrite Z in Ez. lra.
Qed.
Print Assumptions C54_surface_tension.
Theorem C54_profile : forall epsilon x, epsilon <> 0 -> let c := fun x => 1 / (1 + exp (- 4 * x / epsilon)) in derivable_pt_lim c x (4 * c x * (1 - c x) / epsilon).
Proof. intros eps x He. now apply profile_slope. Qed.
Print Assumptions C54_profile.

(* three phases with the surface tensions 1, 2, 2 *)
Definition example_tensions (i j : nat) : R := nth j (nth i [[0; 1; 2]; [1; 0; 2]; [2; 2; 0]] []) 0.
Definition example_alpha (i j : nat) : R := nth j (nth i [[-4 / 7; 3 / 7; 1 / 7]; [3 / 7; -4 / 7; 1 / 7]; [1 / 7; 1 / 7; -2 / 7]] []) 0.
Example C54_example : tensions 3 example_tensions /\ diffusion_system 3 example_tensions example_alpha (fun i => nth i [-2 / 7; -2 / 7; -3 / 7] 0).
Proof.
  split; [split|split; [|split]].
  - intros [|[|[|i]]] [|[|[|j]]] Hi Hj; try lia; reflexivity.
  - intros [|[|[|i]]] Hi; try lia; reflexivity.
  - intros [|[|[|i]]] [|[|[|j]]] Hi Hj; try lia; reflexivity.
  - intros [|[|[|i]]] Hi; try lia; cbn; field.
  - intros [|[|[|i]]] [|[|[|j]]] Hi Hj; try lia; unfold kronecker; cbn; field.
Qed.
Example C54_example_mixture : mixture 3 0 2 (1 / 4) = [1 / 4; 0; 1 - 1 / 4] /\ mixture_slope 3 0 2 5 = [5; 0; - 5] /\ correction_g (fun _ _ => 1) [1; 1; 1; 1] = 2.
Proof.
  split; [reflexivity|]. split; [reflexivity|]. unfold correction_g. cbn. unfold capital_h. destruct (Req_EM_T 1 0); [lra|].
  replace (1 * (1 * (1 * (1 * 1)))) with 1 by ring. rewrite Rabs_R1. field.
Qed.
