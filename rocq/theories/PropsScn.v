(* C62: the ready-made scenarios. *)
From Coq Require Import String List ZArith Bool Arith Reals Lra Lia QArith Qreals.
From Verif Require Import StencilModel StencilSpec StencilProofs StencilProofs2 AccessModel AccessProofs GridModel GridProofs StreamModel StreamSpec StreamProofs StreamProofs2 RealLib LinLib EqModel EqProofs
  CollModel CollSpec BoundModel BoundSpec BoundProofs BoundProofs2 BoundProofs4 BoundProofs8 ChanModel ChanProofs5 ScnModel ScnSpec ScnProofs ScnProofs2 ScnProofs3 ScnProofs4.
Import ListNotations.
Local Open Scope R_scope.

(* ================= boxes ================= *)
(* add_box_boundary: exactly the ghost cells, corners and edges included, get the boundary *)
Theorem C62_closed_box : forall (W : Type) shape (w : W) x, length shape = 2%nat \/ length shape = 3%nat -> in_array shape x ->
  flag (add_box_boundary shape w) x = if inner shape x then None else Some w.
Proof. intros W. exact box_flags. Qed.
Print Assumptions C62_closed_box.

(* ================= lid-driven cavity ================= *)
(* the lid is the top side without its edges; all other ghost cells are walls at rest *)
Theorem C62_cavity_walls : forall shape U x, length shape = 2%nat \/ length shape = 3%nat -> (0 < nth 1 shape 0)%Z -> in_array shape x ->
  flag (cavity_walls shape U) x =
  if inner shape x then None
  else if (Z.eqb (nth 1 x 0) (nth 1 shape 0 + 1) && forallb (fun k => Nat.eqb k 1 || negb (outside shape x k)) (seq 0 (length shape)))%Z%bool
       then Some (Lid (U :: repeat 0 (length shape - 1))) else Some Resting.
Proof. exact cavity_flags. Qed.
Print Assumptions C62_cavity_walls.

(* every link which leaves the domain has a rule *)
Theorem C62_cavity_closed : forall name ord S ws shape U zc compr force x i, predefined_stencils name ord = Ok S -> get_weights S = Ok ws -> dimD S = length shape ->
  length shape = 2%nat \/ length shape = 3%nat -> (0 < nth 1 shape 0)%Z -> is_link S (inner_cell shape) (x, i) ->
  exists b, wall_rule S (map Q2R ws) zc compr force (flag (cavity_walls shape U) (proj1_sig (shift x (dir S i)))) i = Ok b.
Proof. exact cavity_closed. Qed.
Print Assumptions C62_cavity_closed.

(* incompressible methods: the total mass in the cavity stays what it was, for every stencil, size, streaming pattern and number of steps *)
Theorem C62_cavity_mass : forall name ord S ws shape U zc force p xs0 xs links C B f0 t m_src m_tmp n,
  predefined_stencils name ord = Ok S -> get_weights S = Ok ws -> dimD S = length shape ->
  length shape = 2%nat \/ length shape = 3%nat -> (0 < nth 1 shape 0)%Z -> supported p (length shape) S t ->
  (forall x, inner_cell shape x = true -> In x xs0) ->
  (forall n, NoDup (xs n)) -> (forall n x, In x (xs n) <-> inner_cell shape x = true) ->
  (forall n l, In l (links n) <-> is_link S (inner_cell shape) l) ->
  (forall n x f, length f = length S -> length (C n x f) = length S /\ rsum (C n x f) = rsum f) ->
  (forall n x i, is_link S (inner_cell shape) (x, i) ->
     wall_rule S (map Q2R ws) zc false force (flag (cavity_walls shape U) (proj1_sig (shift x (dir S i)))) i = Ok (B n x i)) ->
  (forall x, length (f0 x) = length S) ->
  exists F, (forall x, inner_cell shape x = true -> simulate (space (length shape)) R p t S xs0 xs links C B f0 m_src m_tmp n x = Ok (F x)) /\
    total_mass (box_cells shape) F = total_mass (box_cells shape) f0.
Proof.
  intros name ord S ws shape U zc force p xs0 xs links C B f0 t m_src m_tmp n HN HW HD Hs Hp Hsup H0 Hnd Hxs Hl HC HB Hf.
  pose proof (predefined_wf _ _ _ HN) as (HS & _ & Hcl). rewrite HD in HS.
  apply (mass_conserved_gen (space (length shape)) S p (inner_cell shape) (box_cells shape)); auto.
  - rewrite ldim_space. exact Hsup.
  - apply box_cells_spec.
  - intros n' x i a Hlk Ha. exact (wall_rule_reads shape S _ zc false force _ x i _ HS Hlk (HB n' x i Hlk) a Ha).
  - intros n' f Lf. apply (cavity_mass S ws shape U zc force HS Hcl (fun b => predefined_near name ord S ws b HN HW) HW Hs Hp (box_cells shape) (box_links S shape) (box_geometry S shape) (B n') f Lf (HB n')).
Qed.
Print Assumptions C62_cavity_mass.

(* a cavity of 3 x 2 cells, relaxing fully to the rest equilibrium, with the AA pattern *)
Example C62_cavity_example : exists ws B, get_weights D2Q9_walberla = Ok ws /\
  (forall f n m_src m_tmp, (forall x, length (f x) = 9%nat) ->
    exists F, (forall x, inner_cell [3; 2]%Z x = true -> simulate (space 2) R AA EVEN D2Q9_walberla (box_cells [3; 2]%Z) (fun _ => box_cells [3; 2]%Z) (fun _ => box_links D2Q9_walberla [3; 2]%Z)
        (fun _ _ g => map (fun w => Q2R w * rsum g) ws) (fun _ => B) f m_src m_tmp n x = Ok (F x)) /\
      total_mass (box_cells [3; 2]%Z) F = total_mass (box_cells [3; 2]%Z) f) /\
  length (box_cells [3; 2]%Z) = 6%nat /\ flag (cavity_walls [3; 2]%Z (1 / 10)) [2; 3]%Z = Some (Lid [1 / 10; 0]) /\ flag (cavity_walls [3; 2]%Z (1 / 10)) [0; 3]%Z = Some Resting.
Proof.
  eexists. set (ws := _ : list Q).
  exists (fun (x : cell (space (length [3; 2]%Z))) i => match wall_rule D2Q9_walberla (map Q2R ws) true false None (flag (cavity_walls [3; 2]%Z (1 / 10)) (proj1_sig (shift x (dir D2Q9_walberla i)))) i with Ok b => b | Err _ => no_slip D2Q9_walberla i end).
  split; [vm_compute; reflexivity|]. split; [|split; [reflexivity|split; reflexivity]].
  intros f n m_src m_tmp Hf. apply (C62_cavity_mass "D2Q9" "walberla" D2Q9_walberla ws [3; 2]%Z (1 / 10) true None AA); auto; try reflexivity.
  - split; [exact HS9|discriminate].
  - intros x. apply (box_cells_spec [3; 2]%Z).
  - intros _. apply box_cells_spec.
  - intros _. apply box_cells_spec.
  - intros _ l. apply (box_links_spec D2Q9_walberla [3; 2]%Z).
  - intros _ x g Lg. split; [reflexivity|]. unfold ws, Q2R, rsum. cbn. set (r := fold_right Rplus 0 g). lra.
  - intros _ x i Hl. destruct (C62_cavity_closed "D2Q9" "walberla" D2Q9_walberla ws [3; 2]%Z (1 / 10) true false None x i eq_refl ltac:(vm_compute; reflexivity) eq_refl (or_introl eq_refl) eq_refl Hl) as [b Hb]. rewrite Hb. reflexivity.
Qed.

(* compressible methods: one boundary and streaming step changes the mass by a sixth of the lid velocity times the density difference between
   the two cells below the upper corners *)
Theorem C62_cavity_mass_compressible : forall n0 n1 U zc force ws B (f : cell (space (length [n0; n1])) -> list R),
  (0 < n0)%Z -> (0 < n1)%Z -> get_weights D2Q9_walberla = Ok ws -> (forall x, length (f x) = 9%nat) ->
  (forall x i, is_link D2Q9_walberla (inner_cell [n0; n1]) (x, i) ->
     wall_rule D2Q9_walberla (map Q2R ws) zc true force (flag (cavity_walls [n0; n1] U) (proj1_sig (shift x (dir D2Q9_walberla i)))) i = Ok (B x i)) ->
  forall left right : cell (space (length [n0; n1])), proj1_sig left = [1; n1]%Z -> proj1_sig right = [n0; n1] ->
  total_mass (box_cells [n0; n1]) (arriving D2Q9_walberla (inner_cell [n0; n1]) B f)
  = total_mass (box_cells [n0; n1]) f + U / 6 * (pdf_density zc (f right) - pdf_density zc (f left)).
Proof.
  intros n0 n1 U zc force ws B f H0 H1 HW Hf HB left right El Er. rewrite (cavity_drift n0 n1 H0 H1 U zc force ws HW (box_cells [n0; n1]) (box_links D2Q9_walberla [n0; n1]) (box_geometry _ _) B f Hf HB).
  replace left with (corner n0 n1 1) by (apply gcell_eq; symmetry; exact El). replace right with (corner n0 n1 n0) by (apply gcell_eq; symmetry; exact Er). reflexivity.
Qed.
Print Assumptions C62_cavity_mass_compressible.
(* so the mass is not conserved: whenever the lid moves, some state changes its mass *)
Theorem C62_cavity_mass_compressible_refuted : forall U zc force ws, U <> 0 -> get_weights D2Q9_walberla = Ok ws ->
  exists B f, (forall x, length (f x) = 9%nat) /\
  (forall x i, is_link D2Q9_walberla (inner_cell [2; 1]%Z) (x, i) ->
     wall_rule D2Q9_walberla (map Q2R ws) zc true force (flag (cavity_walls [2; 1]%Z U) (proj1_sig (shift x (dir D2Q9_walberla i)))) i = Ok (B x i)) /\
  total_mass (box_cells [2; 1]%Z) (arriving D2Q9_walberla (inner_cell [2; 1]%Z) B f) <> total_mass (box_cells [2; 1]%Z) f.
Proof.
  intros U zc force ws HU HW.
  set (B := fun (x : cell (space (length [2; 1]%Z))) i => match wall_rule D2Q9_walberla (map Q2R ws) zc true force (flag (cavity_walls [2; 1]%Z U) (proj1_sig (shift x (dir D2Q9_walberla i)))) i with Ok b => b | Err _ => no_slip D2Q9_walberla i end).
  set (f := fun x : cell (space (length [2; 1]%Z)) => [IZR (nth 0 (proj1_sig x) 0%Z); 0; 0; 0; 0; 0; 0; 0; 0]).
  assert (HB : forall x i, is_link D2Q9_walberla (inner_cell [2; 1]%Z) (x, i) -> wall_rule D2Q9_walberla (map Q2R ws) zc true force (flag (cavity_walls [2; 1]%Z U) (proj1_sig (shift x (dir D2Q9_walberla i)))) i = Ok (B x i)).
  { intros x i Hl. destruct (C62_cavity_closed "D2Q9" "walberla" D2Q9_walberla ws [2; 1]%Z U zc true force x i eq_refl HW eq_refl (or_introl eq_refl) eq_refl Hl) as [b Hb]. unfold B. rewrite Hb. reflexivity. }
  exists B, f. split; [reflexivity|]. split; [exact HB|].
  rewrite (C62_cavity_mass_compressible 2 1 U zc force ws B f eq_refl eq_refl HW (fun _ => eq_refl) HB (corner 2 1 1) (corner 2 1 2) eq_refl eq_refl).
  unfold f, pdf_density, rsum. cbn. lra.
Qed.
Print Assumptions C62_cavity_mass_compressible_refuted.

(* ================= channels ================= *)
(* exactly one nonzero driving parameter: periodicity along the flow and the force are those of a force-driven channel, the sides across the flow
   and, without duct, the cells outside the pipe are walls, walls taking precedence over inflow and outflow; nothing else is set *)
Theorem C62_channel : forall shape force dp u callback duct d, driven_by force dp u d -> length shape = 2%nat \/ length shape = 3%nat -> (0 < nth 0 shape 0)%Z ->
  (duct = true -> callback = None /\ forall v, d <> ByInflow v) ->
  let diameter := match callback with Some h => h | None => fun _ => IZR (minimum (tl shape)) end in
  exists c, create_channel shape force dp u callback duct = Ok c /\
    ch_periodic c = (match d with ByForce _ => true | _ => false end) :: repeat false (length shape - 1) /\
    ch_force c = match d with ByForce F => Some (F :: repeat 0 (length shape - 1)) | _ => None end /\
    forall x, in_array shape x -> flag (ch_calls c) x = if (sideways shape x || (negb duct && pipe_wall shape diameter x))%bool then Some ChannelWall else opening_at shape d diameter x.
Proof. exact channel_spec. Qed.
Print Assumptions C62_channel.
Theorem C62_channel_errors : forall shape force dp u callback duct,
  ((forall d, ~ driven_by force dp u d) -> create_channel shape force dp u callback duct = Err ValueError) /\
  (forall d, driven_by force dp u d ->
     (length shape <> 2%nat -> length shape <> 3%nat -> create_channel shape force dp u callback duct = Err AssertionError) /\
     (length shape = 2%nat \/ length shape = 3%nat -> duct = true ->
        ((exists v, d = ByInflow v) -> create_channel shape force dp u callback duct = Err NotImplementedError) /\
        ((forall v, d <> ByInflow v) -> callback <> None -> create_channel shape force dp u callback duct = Err ValueError))).
Proof.
  intros shape force dp u callback duct. split.
  - intros H. apply not_driven in H. unfold create_channel. apply Nat.eqb_neq in H. rewrite H. reflexivity.
  - intros d Hd. assert (H1 : length (filter truth [force; dp; u]) = 1%nat).
    { destruct d; cbn [driven_by] in Hd; destruct Hd as (-> & Hn & A1 & A2); cbn [filter]; rewrite (truth_some _ Hn), (truth_absent _ A1), (truth_absent _ A2); reflexivity. }
    unfold create_channel. rewrite H1. cbn [Nat.eqb negb]. split.
    + intros N2 N3. apply Nat.eqb_neq in N2, N3. rewrite N2, N3. reflexivity.
    + intros Hs ->. assert (HA : (Nat.eqb (length shape) 2 || Nat.eqb (length shape) 3)%bool = true) by (destruct Hs as [-> | ->]; reflexivity). rewrite HA. cbn [negb]. split.
      * intros [v ->]. cbn [driven_by] in Hd. destruct Hd as (-> & Hn & A1 & A2). rewrite (truth_absent _ A1), (truth_absent _ A2). reflexivity.
      * intros Nv Nc. destruct callback as [h|]; [|contradiction]. destruct d as [F|v|v]; [| |exfalso; now apply (Nv v)]; cbn [driven_by] in Hd; destruct Hd as (-> & Hn & A1 & A2); rewrite ?(truth_some _ Hn), ?(truth_absent _ A1), ?(truth_absent _ A2); reflexivity.
Qed.
Print Assumptions C62_channel_errors.

Example C62_channel_example : driven_by (Some 0) None (Some (1 / 20)) (ByInflow (1 / 20)) /\ in_array [10; 6; 6]%Z [0; 3; 4]%Z /\
  opening_at [10; 6; 6]%Z (ByInflow (1 / 20)) (fun _ => 6) [0; 3; 4]%Z = Some (Inflow (1 / 20) 6) /\ sideways [10; 6; 6]%Z [0; 3; 4]%Z = false /\ sideways [10; 6; 6]%Z [0; 0; 4]%Z = true.
Proof.
  split; [cbn; repeat split; unfold absent; intros; try lra; congruence|]. split; [split; [reflexivity|]; intros [|[|[|k]]] Hk; cbn in *; lia|]. repeat split.
Qed.

(* ================= pipes ================= *)
(* even sizes across the flow: wall cells are those whose centre is farther from the axis than half the diameter *)
Theorem C62_pipe_wall : forall shape d x, Forall Z.Even (tl shape) -> 0 <= d (midpoint (nth 0 x 0%Z)) ->
  (pipe_wall shape d x = true <-> d (midpoint (nth 0 x 0%Z)) / 2 < axis_distance (tl shape) (cell_centre (tl x))) /\
  (forall k, (1 <= k)%nat -> length x = length shape -> pipe_wall shape d (mirror_cell shape k x) = pipe_wall shape d x).
Proof. intros shape d x HE Hd. split; [now apply pipe_wall_spec|]. intros k Hk Hl. now apply pipe_wall_mirror. Qed.
Print Assumptions C62_pipe_wall.
(* odd sizes: the pipe is off centre and not symmetric *)
Theorem C62_pipe_wall_refuted : exists shape d x k, (1 <= k < length shape)%nat /\ length x = length shape /\ (0 < d) /\
  pipe_wall shape (fun _ => d) x = true /\ pipe_wall shape (fun _ => d) (mirror_cell shape k x) = false.
Proof.
  exists [8; 5; 5]%Z, 5, [1; 5; 3]%Z, 1%nat. split; [cbn; lia|]. split; [reflexivity|]. split; [lra|]. unfold pipe_wall, square_distance, midpoint, rsum. cbn -[pow]. replace (5 / 2)%Z with 2%Z by reflexivity.
  split; destruct (Rlt_dec _ _) as [L|L]; try reflexivity; exfalso; lra.
Qed.
Print Assumptions C62_pipe_wall_refuted.

(* even sizes across the flow: parabolic velocity, at cell centres and at the links of the inflow *)
Theorem C62_pipe_velocity : forall shape u flow, (length shape = 2%nat \/ length shape = 3%nat) -> (flow < length shape)%nat -> Forall Z.Even (without flow shape) -> (0 < minimum (without flow shape))%Z ->
  let radius := IZR (minimum (without flow shape)) / 2 in
  let parabola y := u * (1 - (axis_distance (without flow shape) y / radius) ^ 2) in
  (forall x, pipe_velocity shape u flow None x = Some (parabola (map (fun z => IZR z + 1 / 2) (without flow x)))) /\
  (forall y, inflow_velocity shape u flow None y = Ok (Some (parabola (without flow y)))) /\
  (forall y, 0 < u -> axis_distance (without flow shape) y < radius -> 0 < parabola y <= u).
Proof.
  intros shape u flow Hs Hfl HE Hp radius parabola.
  assert (Hne : without flow shape <> []) by (destruct Hs as [Hd|Hd]; destruct shape as [|a [|b [|c [|? ?]]]]; try discriminate Hd; destruct flow as [|[|[|?]]]; cbn in *; (discriminate || lia)).
  split; [intros x; now apply pipe_velocity_spec|]. split; [intros y; now apply inflow_spec|].
  intros y Hu Hd. unfold parabola. apply IZR_lt in Hp. assert (0 < radius) by (unfold radius; lra). assert (0 <= axis_distance (without flow shape) y) by apply sqrt_pos. set (a := axis_distance _ y) in *.
  assert (Q : 0 <= a / radius < 1). { split; [apply Rmult_le_pos; [assumption|left; now apply Rinv_0_lt_compat]|]. apply (Rmult_lt_reg_r radius); [assumption|]. unfold Rdiv. rewrite Rmult_assoc, Rinv_l by lra. lra. }
  set (q := a / radius) in *. assert (0 <= q ^ 2 < 1) by (split; [apply pow2_ge_0|]; replace (q ^ 2) with (q * q) by ring; nra). nra.
Qed.
Print Assumptions C62_pipe_velocity.
(* in two dimensions: the analytic channel profile *)
Theorem C62_pipe_poiseuille : forall n0 n1 u visc a b, Z.Even n1 -> (0 < n1)%Z -> visc <> 0 ->
  pipe_velocity [n0; n1] u 0 None [a; b] = poiseuille_flow (IZR b + 1 / 2 - IZR n1 / 2) (IZR n1) (8 * visc * u / IZR n1 ^ 2) visc.
Proof.
  intros n0 n1 u visc a b He Hp Hv. rewrite pipe_velocity_spec; [|discriminate|repeat constructor; exact He|exact Hp]. unfold poiseuille_flow, rdiv. destruct (Req_EM_T (2 * visc) 0); [lra|]. cbn [obind]. f_equal.
  unfold axis_distance, rsum. cbn [without firstn skipn app combine map fst snd fold_right minimum fold_left]. rewrite Rplus_0_r. apply IZR_lt in Hp.
  unfold Rdiv at 1. rewrite Rpow_mult_distr. rewrite pow2_sqrt by apply pow2_ge_0. field. lra.
Qed.
Print Assumptions C62_pipe_poiseuille.
(* odd sizes: flow against the direction of the pipe in a cell of the pipe; one cell: division by zero *)
Theorem C62_pipe_velocity_refuted :
  (forall u, 0 < u -> exists v, pipe_velocity [8; 5]%Z u 0 None [0; 4]%Z = Some v /\ v < 0 /\ pipe_wall [8; 5]%Z (fun _ => 5) [1; 5]%Z = false) /\
  (forall u x, pipe_velocity [8; 1]%Z u 0 None x = None).
Proof.
  assert (R5 : py_round (5 / 2) = 2%Z) by exact (py_round_odd 2). assert (R1 : py_round (1 / 2) = 0%Z) by exact (py_round_odd 0).
  split.
  - intros u Hu. exists (u * (1 - 25 / 16)). split; [|split; [lra|]].
    + unfold pipe_velocity, pipe_profile, pipe_radius, pipe_centre, square_distance, rsum. cbn [without firstn skipn app combine map fst snd fold_right minimum fold_left]. rewrite R5. unfold rdiv. destruct (Req_EM_T 2 0); [lra|]. cbn [obind]. f_equal. unfold Rdiv at 1. rewrite Rpow_mult_distr. rewrite pow2_sqrt; [field|]. pose proof (pow2_ge_0 (4 + 1 / 2 - 2)). lra.
    + unfold pipe_wall, square_distance, midpoint, rsum. cbn -[pow]. replace (5 / 2)%Z with 2%Z by reflexivity. destruct (Rlt_dec _ _) as [L|L]; [exfalso; lra|reflexivity].
  - intros u x. unfold pipe_velocity, pipe_profile, pipe_radius. cbn [without firstn skipn app minimum fold_left]. rewrite R1. unfold rdiv. destruct (Req_EM_T 0 0); [reflexivity|contradiction].
Qed.
Print Assumptions C62_pipe_velocity_refuted.
(* inflow of a plane channel narrower than the domain: the parabola is not centred in the channel, so that a cell of the channel gets outflow *)
Theorem C62_narrow_inflow_refuted : forall u, 0 < u -> exists v, inflow_velocity [8; 8]%Z u 0 (Some 4) [0; 11 / 2] = Ok (Some v) /\ v < 0 /\ pipe_wall [8; 8]%Z (fun _ => 4) [1; 6]%Z = false.
Proof.
  intros u Hu. exists (u * (1 - 49 / 16)). assert (R4 : py_round (4 / 2) = 2%Z) by (replace (4 / 2) with 2 by lra; exact (py_round_Z 2)). split; [|split; [lra|]].
  - unfold inflow_velocity, pipe_radius. cbn [length]. unfold pipe_profile, square_distance, rsum. cbn [without firstn skipn app combine map fst snd fold_right]. rewrite R4. unfold rdiv. destruct (Req_EM_T 2 0); [lra|]. cbn [obind]. do 2 f_equal. unfold Rdiv at 1. rewrite Rpow_mult_distr. rewrite pow2_sqrt; [field|]. pose proof (pow2_ge_0 (11 / 2 - 2)). lra.
  - unfold pipe_wall, square_distance, midpoint, rsum. cbn -[pow]. replace (8 / 2)%Z with 4%Z by reflexivity. destruct (Rlt_dec _ _) as [L|L]; [exfalso; lra|reflexivity].
Qed.
Print Assumptions C62_narrow_inflow_refuted.
(* add_sphere: the cells whose centre is inside the circle; in three dimensions it raises *)
Theorem C62_sphere : forall m0 m1 radius x0 x1, 0 <= radius ->
  exists b, in_sphere [m0; m1] radius [x0; x1] = Ok b /\ (b = true <-> sqrt ((IZR x0 - 1 / 2 - m0) ^ 2 + (IZR x1 - 1 / 2 - m1) ^ 2) < radius).
Proof.
  intros m0 m1 radius x0 x1 Hr. eexists. split; [reflexivity|]. cbn [nth]. unfold midpoint. set (s := (IZR x0 - 1 / 2 - m0) ^ 2 + (IZR x1 - 1 / 2 - m1) ^ 2).
  assert (0 <= s) by (unfold s; pose proof (pow2_ge_0 (IZR x0 - 1 / 2 - m0)); pose proof (pow2_ge_0 (IZR x1 - 1 / 2 - m1)); lra).
  destruct (Rlt_dec s (radius ^ 2)) as [Hlt|Hlt]; split; intros H1; try reflexivity; try discriminate.
  - rewrite <- (sqrt_pow2 radius) by assumption. apply sqrt_lt_1_alt. lra.
  - exfalso. apply Hlt. apply sqrt_lt_0_alt. now rewrite sqrt_pow2.
Qed.
Print Assumptions C62_sphere.
Theorem C62_sphere_3d_refuted : forall m radius x0 x1 x2, in_sphere m radius [x0; x1; x2] = Err TypeError.
Proof. reflexivity. Qed.
Print Assumptions C62_sphere_3d_refuted.

(* ================= Neumann angles ================= *)
(* three positive parameters: angles between 0 and 180 degrees which add up to 360 and balance the tensions of the interfaces at each of them *)
Theorem C62_neumann_angles : forall k0 k1 k2, 0 < k0 -> 0 < k1 -> 0 < k2 ->
  exists a0 a1 a2, neumann_angles [k0; k1; k2] = [a0; a1; a2] /\
    0 < a0 < 180 /\ 0 < a1 < 180 /\ 0 < a2 < 180 /\ a0 + a1 + a2 = 360 /\
    in_balance (k0 + k1) (k0 + k2) (k1 + k2) (radians a0) (radians a1) /\
    in_balance (k0 + k2) (k0 + k1) (k1 + k2) (radians a0) (radians a2) /\
    in_balance (k1 + k2) (k0 + k1) (k0 + k2) (radians a1) (radians a2).
Proof.
  intros k0 k1 k2 H0 H1 H2. pose proof (neumann_spec k0 k1 k2 H0 H1 H2) as E. cbv zeta in E. pose proof PI_RGT_0.
  assert (Ex : exists a0 a1 a2, neumann_angles [k0; k1; k2] = [a0; a1; a2]) by (do 3 eexists; reflexivity). destruct Ex as (a0 & a1 & a2 & Ea). rewrite Ea in E. cbn [map] in E. injection E as E0 E1 E2. exists a0, a1, a2. split; [exact Ea|]. rewrite E0, E1, E2.
  set (g01 := k0 + k1) in *. set (g02 := k0 + k2) in *. set (g12 := k1 + k2) in *.
  assert (P01 : 0 < g01) by (unfold g01; lra). assert (P02 : 0 < g02) by (unfold g02; lra). assert (P12 : 0 < g12) by (unfold g12; lra).
  assert (T1 : g12 < g01 + g02) by (unfold g01, g02, g12; lra). assert (T2 : g01 < g02 + g12) by (unfold g01, g02, g12; lra). assert (T3 : g02 < g12 + g01) by (unfold g01, g02, g12; lra).
  assert (D : forall a, a = radians a * 180 / PI) by (intros a; unfold radians; field; lra).
  pose proof (acos_range _ (cosine_bounds g01 g02 g12 P01 P02 T1 T2 T3)) as A0. pose proof (acos_range _ (cosine_bounds g01 g12 g02 P01 P12 ltac:(lra) ltac:(lra) ltac:(lra))) as A1. pose proof (acos_range _ (cosine_bounds g02 g12 g01 P02 P12 ltac:(lra) ltac:(lra) ltac:(lra))) as A2.
  pose proof (triangle_sum g01 g02 g12 P01 P02 P12 T1 T2 T3) as TS.
  assert (Rng : forall a t, radians a = PI - t -> 0 < t < PI -> 0 < a < 180).
  { intros a t Er Ht. rewrite (D a), Er. split; [apply Rdiv_lt_0_compat; lra|]. apply (Rmult_lt_reg_r PI); [assumption|]. unfold Rdiv. rewrite Rmult_assoc, Rinv_l by lra. lra. }
  split; [eapply Rng; eassumption|]. split; [eapply Rng; eassumption|]. split; [eapply Rng; eassumption|]. split.
  - rewrite (D a0), (D a1), (D a2), E0, E1, E2.
    transitivity ((3 * PI - (acos (cosine g01 g02 g12) + acos (cosine g01 g12 g02) + acos (cosine g02 g12 g01))) * 180 / PI); [field; lra|]. rewrite TS. field. lra.
  - split; [apply balance_spec; lra|]. split; [|].
    + assert (S1 : cosine g01 g02 g12 = cosine g02 g01 g12) by (unfold cosine; field; lra). rewrite S1. apply balance_spec; lra.
    + assert (S1 : cosine g01 g12 g02 = cosine g12 g01 g02) by (unfold cosine; field; lra). assert (S2 : cosine g02 g12 g01 = cosine g12 g02 g01) by (unfold cosine; field; lra). rewrite S1, S2. apply balance_spec; lra.
Qed.
Print Assumptions C62_neumann_angles.
Example C62_pipe_example : Forall Z.Even (without 0 [20; 10; 6]%Z) /\ (0 < minimum (without 0 [20; 10; 6]%Z))%Z /\ minimum (without 0 [20; 10; 6]%Z) = 6%Z.
Proof. split; [repeat constructor; [exists 5%Z|exists 3%Z]; reflexivity|]. split; reflexivity. Qed.

(* two shear layers: two of three parts of the height flow along x, so the mean flow over a column is not zero *)
Theorem C62_shear_layers : forall shape u x, length shape = 2%nat \/ length shape = 3%nat -> (0 <= last shape 0)%Z ->
  rsum (map (fun z => shear_layer shape u (x ++ [Z.of_nat z])) (seq 0 (Z.to_nat (last shape 0%Z)))) = u * (IZR (last shape 0%Z) - 2 * IZR (last shape 0 / 3)%Z).
Proof. exact shear_mean. Qed.
Print Assumptions C62_shear_layers.
