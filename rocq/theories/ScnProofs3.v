(* Channels, pipes, Neumann angles. *)
From Coq Require Import String List ZArith Bool Arith Reals Lra Lia.
From Verif Require Import StencilModel AccessModel StreamModel GridModel RealLib LinLib CollModel BoundModel ChanModel ScnModel ScnSpec ScnProofs.
Import ListNotations.
Local Open Scope R_scope.

(* ---- rounding ---- *)
Lemma Int_part_unique x k : IZR k <= x < IZR k + 1 -> Int_part x = k.
Proof.
  intros [H1 H2]. destruct (base_Int_part x) as [B1 B2]. assert (A : IZR (Int_part x) < IZR (k + 1)) by (rewrite plus_IZR; lra). assert (C : IZR k < IZR (Int_part x + 1)) by (rewrite plus_IZR; lra).
  apply lt_IZR in A, C. lia.
Qed.
Lemma py_round_Z k : py_round (IZR k) = k.
Proof. unfold py_round. rewrite (Int_part_unique (IZR k) k) by lra. destruct (Rlt_dec _ _) as [|N]; [reflexivity|]. lra. Qed.
Lemma even_half n : Z.Even n -> IZR (n / 2) = IZR n / 2 /\ py_round (IZR n / 2) = (n / 2)%Z.
Proof.
  intros [m ->]. replace (2 * m / 2)%Z with m by (rewrite Z.mul_comm, Z.div_mul; lia). rewrite mult_IZR. split; [lra|]. replace (2 * IZR m / 2) with (IZR m) by lra. apply py_round_Z.
Qed.
Lemma py_round_odd m : py_round (IZR (2 * m + 1) / 2) = if Z.even m then m else (m + 1)%Z.
Proof.
  rewrite plus_IZR, mult_IZR. unfold py_round. rewrite (Int_part_unique _ m) by lra.
  destruct (Rlt_dec _ _) as [|N1]; [lra|]. destruct (Rlt_dec (1 / 2) _) as [|N2]; [lra|]. reflexivity.
Qed.

(* ---- pipes ---- *)
Lemma distance_even sizes y : Forall Z.Even sizes ->
  square_distance (map (fun n => IZR (n / 2)) sizes) y = rsum (map (fun nz => (snd nz - IZR (fst nz) / 2) ^ 2) (combine sizes y)) /\
  square_distance (map (fun n => IZR (py_round (IZR n / 2))) sizes) y = rsum (map (fun nz => (snd nz - IZR (fst nz) / 2) ^ 2) (combine sizes y)).
Proof.
  intros HE. revert y. induction HE as [|n s Hn HE IH]; intros [|y0 y]; try (split; reflexivity). destruct (even_half n Hn) as [E1 E2]. destruct (IH y) as [I1 I2]. unfold square_distance in *.
  cbn [map combine fst snd]. rewrite !rsum_cons. rewrite I1, I2, E2, E1. split; reflexivity.
Qed.
Lemma squares_nonneg (sizes : list Z) y : 0 <= rsum (map (fun nz => (snd nz - IZR (fst nz) / 2) ^ 2) (combine sizes y)).
Proof. revert y; induction sizes as [|n s IH]; intros [|y0 y]; unfold rsum in *; cbn; try lra. specialize (IH y). unfold rsum in IH. pose proof (pow2_ge_0 (y0 - IZR n / 2)). cbn in *. lra. Qed.

Lemma pipe_wall_spec shape d x : Forall Z.Even (tl shape) -> 0 <= d (midpoint (nth 0 x 0%Z)) ->
  pipe_wall shape d x = true <-> d (midpoint (nth 0 x 0%Z)) / 2 < axis_distance (tl shape) (cell_centre (tl x)).
Proof.
  intros HE Hd. unfold pipe_wall. rewrite (proj1 (distance_even _ _ HE)). unfold axis_distance. change (map midpoint (tl x)) with (cell_centre (tl x)).
  pose proof (squares_nonneg (tl shape) (cell_centre (tl x))) as Hs. set (s := rsum _) in *. set (r := d _ / 2) in *. assert (0 <= r) by (unfold r; lra).
  destruct (Rlt_dec (r ^ 2) s) as [L|L]; split; intros H0; try reflexivity; try discriminate.
  - rewrite <- (sqrt_pow2 r) by assumption. apply sqrt_lt_1; [apply pow2_ge_0|exact Hs|exact L].
  - exfalso. apply L. apply sqrt_lt_0_alt. now rewrite sqrt_pow2.
Qed.
Lemma mirror_distance shape k y : (1 <= k)%nat -> length y = length shape ->
  axis_distance (tl shape) (cell_centre (tl (mirror_cell shape k y))) = axis_distance (tl shape) (cell_centre (tl y)).
Proof.
  intros Hk Hl. unfold axis_distance. f_equal. destruct shape as [|n s], y as [|y0 y]; try discriminate; [reflexivity|]. injection Hl as Hl. destruct k as [|k]; [lia|].
  unfold mirror_cell. cbn [length seq map tl Nat.eqb nth]. rewrite <- seq_shift, map_map. cbn [nth Nat.eqb].
  assert (G : forall s y, length y = length s -> forall k, rsum (map (fun nz => (snd nz - IZR (fst nz) / 2) ^ 2) (combine s (cell_centre (map (fun j => if Nat.eqb j k then (nth j s 0 + 1 - nth j y 0)%Z else nth j y 0%Z) (seq 0 (length y)))))) =
    rsum (map (fun nz => (snd nz - IZR (fst nz) / 2) ^ 2) (combine s (cell_centre y)))).
  { clear. induction s as [|n s IH]; intros [|a y] Hl k; try discriminate; [reflexivity|]. injection Hl as Hl. cbn [length seq map combine nth]. rewrite <- seq_shift, map_map. unfold cell_centre, rsum in *. cbn [map combine fst snd nth fold_right].
    destruct k as [|k]; cbn [Nat.eqb].
    - f_equal; [rewrite minus_IZR, plus_IZR; field|]. f_equal. f_equal. f_equal. f_equal. clear. induction y as [|a y IH]; [reflexivity|]. cbn. f_equal. rewrite <- seq_shift, map_map. exact IH.
    - f_equal. rewrite map_map. specialize (IH y Hl k). rewrite map_map in IH. exact IH. }
  apply G. exact Hl.
Qed.
Lemma pipe_wall_mirror shape d k x : Forall Z.Even (tl shape) -> 0 <= d (midpoint (nth 0 x 0%Z)) -> (1 <= k)%nat -> length x = length shape ->
  pipe_wall shape d (mirror_cell shape k x) = pipe_wall shape d x.
Proof.
  intros HE Hd Hk Hl. assert (E0 : nth 0 (mirror_cell shape k x) 0%Z = nth 0 x 0%Z) by (unfold mirror_cell; destruct x; [reflexivity|]; destruct k; [lia|reflexivity]).
  assert (G : pipe_wall shape d (mirror_cell shape k x) = true <-> pipe_wall shape d x = true) by (rewrite !pipe_wall_spec, mirror_distance, E0 by (assumption || (rewrite E0; assumption)); tauto).
  destruct (pipe_wall shape d x); [now apply G|]. destruct (pipe_wall shape d (mirror_cell shape k x)); [|reflexivity]. symmetry. now apply G.
Qed.

Lemma minimum_In l : l <> [] -> In (minimum l) l /\ forall z, In z l -> (minimum l <= z)%Z.
Proof.
  destruct l as [|a l]; [contradiction|]. intros _. cbn [minimum]. revert a. induction l as [|b l IH]; intros a; cbn [fold_left].
  - split; [left; reflexivity|]. intros z [<-|[]]. lia.
  - destruct (IH (Z.min a b)) as [[H1|H1] H2].
    + split; [rewrite <- H1; destruct (Z.min_spec a b) as [[_ ->]|[_ ->]]; [left|right; left]; reflexivity|]. intros z [<-|[<-|Hz]]; [| |apply H2; now right]; specialize (H2 _ (or_introl eq_refl)); lia.
    + split; [right; right; exact H1|]. intros z [<-|[<-|Hz]]; [| |apply H2; now right]; specialize (H2 _ (or_introl eq_refl)); lia.
Qed.
(* even sizes across the flow, and the diameter none or the same even number: radius and profile are exact *)
Lemma pipe_radius_even shape flow : without flow shape <> [] -> Forall Z.Even (without flow shape) -> IZR (pipe_radius shape flow None) = IZR (minimum (without flow shape)) / 2.
Proof. intros Hne HE. unfold pipe_radius. destruct (minimum_In _ Hne) as [Hm _]. rewrite Forall_forall in HE. destruct (even_half _ (HE _ Hm)) as [E1 E2]. rewrite E2. exact E1. Qed.
Lemma profile_spec u sizes y r : r <> 0 -> Forall Z.Even sizes ->
  pipe_profile u (square_distance (map (fun n => IZR (py_round (IZR n / 2))) sizes) y) r = Some (u * (1 - (axis_distance sizes y / r) ^ 2)).
Proof. intros Hr HE. unfold pipe_profile. rewrite (proj2 (distance_even _ y HE)). unfold rdiv. destruct (Req_EM_T r 0); [contradiction|]. reflexivity. Qed.
Lemma pipe_velocity_spec shape u flow x : without flow shape <> [] -> Forall Z.Even (without flow shape) -> (0 < minimum (without flow shape))%Z ->
  pipe_velocity shape u flow None x = Some (u * (1 - (axis_distance (without flow shape) (map (fun z => IZR z + 1 / 2) (without flow x)) / (IZR (minimum (without flow shape)) / 2)) ^ 2)).
Proof.
  intros Hne HE Hp. unfold pipe_velocity, pipe_centre. rewrite pipe_radius_even by assumption. apply profile_spec; [|exact HE]. apply IZR_lt in Hp. lra.
Qed.
Lemma inflow_spec shape u flow y : (length shape = 2%nat \/ length shape = 3%nat) -> (flow < length shape)%nat -> Forall Z.Even (without flow shape) -> (0 < minimum (without flow shape))%Z ->
  inflow_velocity shape u flow None y = Ok (Some (u * (1 - (axis_distance (without flow shape) (without flow y) / (IZR (minimum (without flow shape)) / 2)) ^ 2))).
Proof.
  intros Hd Hfl HE Hp. assert (Hne : without flow shape <> []) by (destruct Hd as [Hd|Hd]; destruct shape as [|a [|b [|c [|? ?]]]]; try discriminate Hd; destruct flow as [|[|[|?]]]; cbn in *; (discriminate || lia)).
  unfold inflow_velocity. rewrite pipe_radius_even by assumption. pose proof (IZR_lt _ _ Hp) as Hp'.
  destruct Hd as [E|E]; rewrite E.
  - do 1 f_equal. rewrite <- profile_spec by (lra || assumption). f_equal. f_equal. destruct shape as [|a [|b [|c ?]]]; try discriminate E. destruct flow as [|[|?]]; cbn in *; [| |lia]; f_equal; unfold minimum in *; cbn in *; inversion HE as [|? ? He]; subst; destruct (even_half _ He) as [E1 E2]; rewrite E2, E1; reflexivity.
  - do 1 f_equal. rewrite <- profile_spec by (lra || assumption). reflexivity.
Qed.

(* ---- triangle ---- *)
Lemma acos_range x : -1 < x < 1 -> 0 < acos x < PI.
Proof. intros H. now apply acos_bound_lt. Qed.
Section Triangle.
  (* sides with strict triangle inequalities *)
  Context (a b c : R) (Ha : 0 < a) (Hb : 0 < b) (Hc : 0 < c) (Hab : c < a + b) (Hbc : a < b + c) (Hca : b < c + a).
  Definition cosine x y z := (x ^ 2 + y ^ 2 - z ^ 2) / (2 * x * y).
  Definition area2 := (a + b + c) * (- a + b + c) * (a - b + c) * (a + b - c).
  Lemma area2_pos : 0 < area2.
  Proof. unfold area2. repeat apply Rmult_lt_0_compat; lra. Qed.
End Triangle.
Lemma cosine_bounds x y z : 0 < x -> 0 < y -> z < x + y -> x < y + z -> y < z + x -> -1 < cosine x y z < 1.
Proof.
  intros Hx Hy H1 H2 H3. unfold cosine. assert (P : 0 < 2 * x * y) by (apply Rmult_lt_0_compat; lra). 
  assert (A : 0 < (x + y - z) * (x + y + z)) by (apply Rmult_lt_0_compat; lra). assert (B : 0 < (z - x + y) * (z + x - y)) by (apply Rmult_lt_0_compat; lra). split.
  - apply (Rmult_lt_reg_r (2 * x * y)); [exact P|]. replace ((x ^ 2 + y ^ 2 - z ^ 2) / (2 * x * y) * (2 * x * y)) with (x ^ 2 + y ^ 2 - z ^ 2) by (field; lra). nra.
  - apply (Rmult_lt_reg_r (2 * x * y)); [exact P|]. replace ((x ^ 2 + y ^ 2 - z ^ 2) / (2 * x * y) * (2 * x * y)) with (x ^ 2 + y ^ 2 - z ^ 2) by (field; lra). nra.
Qed.
Lemma sine_formula x y z : 0 < x -> 0 < y -> z < x + y -> x < y + z -> y < z + x -> sin (acos (cosine x y z)) = sqrt (area2 x y z) / (2 * x * y).
Proof.
  intros Hx Hy H1 H2 H3. pose proof (cosine_bounds x y z Hx Hy H1 H2 H3). rewrite sin_acos by lra.
  assert (P : 0 < 2 * x * y) by (apply Rmult_lt_0_compat; lra). replace (sqrt (area2 x y z) / (2 * x * y)) with (sqrt (area2 x y z) / sqrt ((2 * x * y) ^ 2)) by (rewrite sqrt_pow2 by lra; reflexivity).
  rewrite <- sqrt_div_alt by (apply pow_lt; exact P). f_equal. unfold cosine, area2, Rsqr. field. lra.
Qed.
Lemma area2_perm x y z : area2 x y z = area2 y x z /\ area2 x y z = area2 x z y /\ area2 x y z = area2 y z x.
Proof. unfold area2. repeat split; ring. Qed.
Lemma triangle_sum a b c : 0 < a -> 0 < b -> 0 < c -> c < a + b -> a < b + c -> b < c + a ->
  acos (cosine a b c) + acos (cosine a c b) + acos (cosine b c a) = PI.
Proof.
  intros Ha Hb Hc H1 H2 H3. set (C := acos (cosine a b c)). set (B := acos (cosine a c b)). set (A := acos (cosine b c a)).
  pose proof (cosine_bounds a b c ltac:(lra) ltac:(lra) ltac:(lra) ltac:(lra) ltac:(lra)) as bC.
  pose proof (cosine_bounds a c b ltac:(lra) ltac:(lra) ltac:(lra) ltac:(lra) ltac:(lra)) as bB.
  pose proof (cosine_bounds b c a ltac:(lra) ltac:(lra) ltac:(lra) ltac:(lra) ltac:(lra)) as bA.
  pose proof (acos_range _ bA) as rA. pose proof (acos_range _ bB) as rB. pose proof (acos_range _ bC) as rC. fold A in rA. fold B in rB. fold C in rC.
  assert (sA : sin A = sqrt (area2 a b c) / (2 * b * c)) by (unfold A; rewrite sine_formula by lra; f_equal; f_equal; unfold area2; ring).
  assert (sB : sin B = sqrt (area2 a b c) / (2 * a * c)) by (unfold B; rewrite sine_formula by lra; f_equal; f_equal; unfold area2; ring).
  assert (cA : cos A = cosine b c a) by (apply cos_acos; lra). assert (cB : cos B = cosine a c b) by (apply cos_acos; lra). assert (cC : cos C = cosine a b c) by (apply cos_acos; lra).
  pose proof (area2_pos a b c Ha Hb Hc H1 H2 H3) as aP. pose proof (sqrt_lt_R0 _ aP) as qP. pose proof (sqrt_sqrt (area2 a b c) ltac:(lra)) as q2. set (q := sqrt (area2 a b c)) in *.
  assert (sAB : sin (A + B) = q / (2 * a * b)) by (rewrite sin_plus, sA, sB, cA, cB; unfold cosine; field; lra).
  assert (0 < sin (A + B)) by (rewrite sAB; apply Rdiv_lt_0_compat; [exact qP|]; apply Rmult_lt_0_compat; lra).
  assert (A + B < PI). { destruct (Rlt_dec (A + B) PI) as [|N]; [assumption|]. assert (sin (A + B) <= 0) by (apply sin_le_0; lra). lra. }
  assert (cAB : cos (A + B) = cos (PI - C)).
  { rewrite cos_plus, sA, sB, cA, cB. replace (cos (PI - C)) with (- cos C) by (unfold Rminus; rewrite Rplus_comm, neg_cos; now rewrite cos_neg). rewrite cC.
    replace (q / (2 * b * c) * (q / (2 * a * c))) with ((q * q) / (4 * a * b * c * c)) by (field; lra). rewrite q2. unfold cosine, area2. field. lra. }
  assert (A + B = PI - C) by (apply cos_inj; lra || exact cAB). lra.
Qed.

Lemma neumann_spec k0 k1 k2 : 0 < k0 -> 0 < k1 -> 0 < k2 ->
  let g01 := k0 + k1 in let g02 := k0 + k2 in let g12 := k1 + k2 in
  map radians (neumann_angles [k0; k1; k2]) = [PI - acos (cosine g01 g02 g12); PI - acos (cosine g01 g12 g02); PI - acos (cosine g02 g12 g01)].
Proof.
  intros H0 H1 H2 g01 g02 g12. unfold neumann_angles. cbn [nth map]. pose proof PI_RGT_0.
  assert (E : forall x y z, 0 < x -> 0 < y -> radians (acos (- (x ^ 2 + y ^ 2 - z ^ 2) / 2 / x / y) * 180 / PI) = PI - acos (cosine x y z)).
  { intros x y z Hx Hy. unfold radians. replace (- (x ^ 2 + y ^ 2 - z ^ 2) / 2 / x / y) with (- cosine x y z) by (unfold cosine; field; lra). rewrite acos_opp. field. lra. }
  fold g01 g02 g12. assert (0 < g01) by (unfold g01; lra). assert (0 < g02) by (unfold g02; lra). assert (0 < g12) by (unfold g12; lra).
  rewrite !E by assumption. f_equal. f_equal. f_equal. f_equal. f_equal. unfold cosine. field. lra.
Qed.
Lemma balance_spec x y z : 0 < x -> 0 < y -> 0 < z -> z < x + y -> x < y + z -> y < z + x ->
  in_balance x y z (PI - acos (cosine x y z)) (PI - acos (cosine x z y)).
Proof.
  intros Hx Hy Hz H1 H2 H3. pose proof (cosine_bounds x y z Hx Hy H1 H2 H3). pose proof (cosine_bounds x z y Hx Hz ltac:(lra) ltac:(lra) ltac:(lra)).
  assert (N : forall a, cos (PI - a) = - cos a) by (intros a; unfold Rminus; rewrite Rplus_comm, neg_cos, cos_neg; reflexivity). split.
  - rewrite !N, !cos_acos by lra. unfold cosine. field. lra.
  - rewrite !sin_PI_x, !sine_formula by lra. replace (area2 x z y) with (area2 x y z) by (unfold area2; ring). field. lra.
Qed.

(* ---- channels ---- *)
Lemma flag_app {W} (l1 l2 : list (W * (list Z -> bool))) x : flag (l1 ++ l2) x = match flag l2 x with Some w => Some w | None => flag l1 x end.
Proof.
  unfold flag. rewrite fold_left_app.
  assert (G : forall (l : list (W * (list Z -> bool))) o, fold_left (fun o c => if (snd c : list Z -> bool) x then Some (fst c) else o) l o =
    match fold_left (fun o c => if (snd c : list Z -> bool) x then Some (fst c) else o) l None with Some w => Some w | None => o end).
  { induction l as [|c l IH]; intros o; [reflexivity|]. cbn [fold_left]. rewrite IH. rewrite (IH (if snd c x then Some (fst c) else None)). destruct (snd c x); destruct (fold_left _ l None); reflexivity. }
  apply G.
Qed.
Lemma wall_flags shape x : length shape = 2%nat \/ length shape = 3%nat -> in_array shape x ->
  flag (map (fun s => (ChannelWall, on_side shape s)) (if Nat.eqb (length shape) 3 then [North; South; Top; Bottom] else [North; South])) x =
  if sideways shape x then Some ChannelWall else None.
Proof.
  intros Hs [Hx P]. unfold sideways. destruct (dims_23 _ Hs) as [(n0 & n1 & ->)|(n0 & n1 & n2 & ->)].
  - destruct x as [|z0 [|z1 [|? ?]]]; try discriminate Hx. pose proof (P 0%nat ltac:(cbn; lia)). pose proof (P 1%nat ltac:(cbn; lia)). cbn [nth] in *.
    cbv [flag on_side side_axis side_high outside]. cbn -[Z.eqb Z.leb Z.add]. zcases.
  - destruct x as [|z0 [|z1 [|z2 [|? ?]]]]; try discriminate Hx. pose proof (P 0%nat ltac:(cbn; lia)). pose proof (P 1%nat ltac:(cbn; lia)). pose proof (P 2%nat ltac:(cbn; lia)). cbn [nth] in *.
    cbv [flag on_side side_axis side_high outside]. cbn -[Z.eqb Z.leb Z.add]. zcases.
Qed.

Lemma truth_absent p : absent p -> truth p = false.
Proof. unfold absent, truth. destruct p as [x|]; [|reflexivity]. intros H. rewrite (H x eq_refl). destruct (Req_EM_T 0 0); [reflexivity|contradiction]. Qed.
Lemma truth_false p : truth p = false -> absent p.
Proof. unfold absent, truth. intros H x ->. destruct (Req_EM_T x 0); [assumption|discriminate]. Qed.
Lemma truth_some x : x <> 0 -> truth (Some x) = true.
Proof. unfold truth. intros H. destruct (Req_EM_T x 0); [contradiction|reflexivity]. Qed.
Lemma not_driven force dp u : (forall d, ~ driven_by force dp u d) -> length (filter truth [force; dp; u]) <> 1%nat.
Proof.
  intros H. cbn [filter]. destruct (truth force) eqn:E1, (truth dp) eqn:E2, (truth u) eqn:E3; cbn; try lia; intros _.
  - destruct force as [F|]; [|discriminate]. apply (H (ByForce F)). cbn. repeat split; try (now apply truth_false). unfold truth in E1. destruct (Req_EM_T F 0); [discriminate|assumption].
  - destruct dp as [F|]; [|discriminate]. apply (H (ByPressure F)). cbn. repeat split; try (now apply truth_false). unfold truth in E2. destruct (Req_EM_T F 0); [discriminate|assumption].
  - destruct u as [F|]; [|discriminate]. apply (H (ByInflow F)). cbn. repeat split; try (now apply truth_false). unfold truth in E3. destruct (Req_EM_T F 0); [discriminate|assumption].
Qed.
Lemma channel_spec shape force dp u callback duct d : driven_by force dp u d -> length shape = 2%nat \/ length shape = 3%nat -> (0 < nth 0 shape 0)%Z ->
  (duct = true -> callback = None /\ forall v, d <> ByInflow v) ->
  let diameter := match callback with Some h => h | None => fun _ => IZR (minimum (tl shape)) end in
  exists c, create_channel shape force dp u callback duct = Ok c /\
    ch_periodic c = (match d with ByForce _ => true | _ => false end) :: repeat false (length shape - 1) /\
    ch_force c = match d with ByForce F => Some (F :: repeat 0 (length shape - 1)) | _ => None end /\
    forall x, in_array shape x -> flag (ch_calls c) x = if (sideways shape x || (negb duct && pipe_wall shape diameter x))%bool then Some ChannelWall else opening_at shape d diameter x.
Proof.
  intros Hd Hs Hp Hduct diameter.
  assert (HA : (Nat.eqb (length shape) 2 || Nat.eqb (length shape) 3)%bool = true) by (destruct Hs as [-> | ->]; reflexivity).
  assert (HW : forall x, in_array shape x -> forall first, flag (first ++ map (fun s => (ChannelWall, on_side shape s)) (if Nat.eqb (length shape) 3 then [North; South; Top; Bottom] else [North; South])) x =
    if sideways shape x then Some ChannelWall else flag first x).
  { intros x Hx first. rewrite flag_app, wall_flags by assumption. destruct (sideways shape x); reflexivity. }
  assert (HP : forall x, flag [(ChannelWall, pipe_wall shape diameter)] x = if pipe_wall shape diameter x then Some ChannelWall else None) by reflexivity.
  assert (HF : forall b (l : list opening), length (firstn (length shape) [b; false; false]) = length shape -> firstn (length shape) [b; false; false] = b :: repeat false (length shape - 1)) by (intros b _ _; destruct Hs as [-> | ->]; reflexivity).
  assert (HF' : forall F, firstn (length shape) [F; 0; 0] = F :: repeat 0 (length shape - 1)) by (intros F; destruct Hs as [-> | ->]; reflexivity).
  assert (HB : forall b, firstn (length shape) [b; false; false] = b :: repeat false (length shape - 1)) by (intros b; destruct Hs as [-> | ->]; reflexivity). clear HF.
  assert (Fin : forall x w e, in_array shape x -> flag [(w, on_side shape West); (e, on_side shape East)] x = if Z.eqb (nth 0 x 0%Z) 0 then Some w else if Z.eqb (nth 0 x 0%Z) (nth 0 shape 0 + 1)%Z then Some e else (None : option opening)).
  { intros x w e _. cbv [flag on_side side_axis side_high]. cbn -[Z.eqb Z.add]. zcases. }
  destruct d as [F|v|v]; cbn [driven_by] in Hd; destruct Hd as (-> & Hn & A1 & A2); unfold create_channel; cbn [filter];
    rewrite ?(truth_some _ Hn), ?(truth_absent _ A1), ?(truth_absent _ A2); cbn [length Nat.eqb negb]; rewrite HA; cbn [negb rbind].
  - destruct duct.
    + destruct (Hduct eq_refl) as [-> _]. eexists; split; [reflexivity|]. cbn [ch_periodic ch_force ch_calls fst snd]. rewrite HB, HF'. repeat split. intros x Hx. rewrite (HW x Hx []). cbn [negb andb]. rewrite orb_false_r. unfold opening_at. zcases.
    + eexists; split; [reflexivity|]. cbn [ch_periodic ch_force ch_calls fst snd]. rewrite HB, HF'. repeat split. intros x Hx. rewrite app_assoc, flag_app. fold diameter. rewrite HP, (HW x Hx []). cbn [negb andb]. unfold opening_at. destruct (pipe_wall shape diameter x), (sideways shape x); cbn [orb]; try reflexivity. zcases.
  - destruct duct.
    + destruct (Hduct eq_refl) as [-> _]. eexists; split; [reflexivity|]. cbn [ch_periodic ch_force ch_calls fst snd]. rewrite HB. repeat split. intros x Hx. rewrite (HW x Hx), Fin by exact Hx. cbn [negb andb]. rewrite orb_false_r. reflexivity.
    + eexists; split; [reflexivity|]. cbn [ch_periodic ch_force ch_calls fst snd]. rewrite HB. repeat split. intros x Hx. rewrite app_assoc, flag_app. fold diameter. rewrite HP, (HW x Hx), Fin by exact Hx. cbn [negb andb]. destruct (pipe_wall shape diameter x), (sideways shape x); reflexivity.
  - destruct duct; [destruct (Hduct eq_refl) as [_ N]; exfalso; now apply (N v)|]. cbn [rbind].
    eexists; split; [reflexivity|]. cbn [ch_periodic ch_force ch_calls fst snd]. rewrite HB. repeat split. intros x Hx. rewrite app_assoc, flag_app. fold diameter. rewrite HP, (HW x Hx), Fin by exact Hx. cbn [negb andb]. 
    assert (ED : match callback with Some h => h 0 | None => IZR (minimum (tl shape)) end = diameter 0) by (unfold diameter; destruct callback; reflexivity). rewrite ED.
    destruct (pipe_wall shape diameter x), (sideways shape x); reflexivity.
Qed.
