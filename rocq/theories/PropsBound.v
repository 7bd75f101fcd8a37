(* C19, C20, C21, C22, C23: boundary conditions. *)
From Coq Require Import String List ZArith Bool Arith Reals Lra Lia QArith Qreals.
From Verif Require Import StencilModel StencilSpec StencilProofs StencilProofs2 AccessModel AccessProofs StreamModel StreamSpec StreamProofs StreamProofs2 GridModel GridProofs RealLib
  EqModel EqSpec EqProofs CollModel MacroModel BoundModel BoundSpec BoundProofs BoundProofs2 BoundProofs3 BoundProofs4 BoundProofs5 BoundProofs6 BoundProofs7
  BoundProofs8 BoundProofs9 BoundProofs10.
Import ListNotations.
Local Open Scope R_scope.

(* ================= C19 ================= *)
(* setter, n times (bounce-back kernel, stream-collide kernel), getter: total mass is the initial one, for every fluid region, streaming
   pattern, order of cells and links and every collision that conserves the mass of a cell *)
Theorem C19_mass_conserved : forall (L : lattice) (S : stencil) p (fluid : cell L -> bool) cells xs0 xs links C B f0 t m_src m_tmp n,
  supported p (ldim L) S t ->
  NoDup cells -> (forall x, In x cells <-> fluid x = true) ->
  (forall x, fluid x = true -> In x xs0) ->
  (forall n, NoDup (xs n)) -> (forall n x, In x (xs n) <-> fluid x = true) ->
  (forall n l, In l (links n) <-> is_link S fluid l) ->
  (forall n x f, length f = length S -> length (C n x f) = length S /\ rsum (C n x f) = rsum f) ->
  (forall n x i, B n x i = no_slip S i) ->
  (forall x, length (f0 x) = length S) ->
  exists F, (forall x, fluid x = true -> simulate L R p t S xs0 xs links C B f0 m_src m_tmp n x = Ok (F x)) /\
    total_mass cells F = total_mass cells f0.
Proof. exact mass_conserved. Qed.
Print Assumptions C19_mass_conserved.

(* force_on_boundary = momentum the fluid loses in the boundary and streaming step, for no-slip and for every other boundary *)
Theorem C19_force_is_lost_momentum : forall (L : lattice) (S : stencil) p t (fluid : cell L -> bool) cells links B,
  supported p (ldim L) S t -> lists_geometry S fluid cells links ->
  (forall x i a, is_link S fluid (x, i) -> In a (b_reads (B x i)) -> readable S fluid x a) ->
  forall no_slip_class a s, (no_slip_class = true -> forall x i, B x i = no_slip S i) ->
  exists s' F f, force_on_boundary L no_slip_class p t S a B links s = Ok (s', F) /\
    boundary L R p t S B links s = Ok s' /\
    (forall x, fluid x = true -> getter L R p t S false (src s) x = Ok (f x)) /\
    F = total_momentum S a cells f - total_momentum S a cells (arriving S fluid B f).
Proof. exact force_correct. Qed.
Print Assumptions C19_force_is_lost_momentum.

(* the force vector written by the kernel: its sum over all links is the momentum lost *)
Theorem C19_force_vector : forall (L : lattice) (S : stencil) (fluid : cell L -> bool) cells links f a,
  symmetric_stencil (ldim L) S -> lists_geometry S fluid cells links ->
  rsum (map (fun l => no_slip_force S (snd l) a (nth (snd l) (f (fst l)) 0)) links)
    = total_momentum S a cells f - total_momentum S a cells (arriving S fluid (fun _ => no_slip S) f) /\
  (forall B, rsum (map (fun l => link_force S (snd l) a (nth (snd l) (f (fst l)) 0) (rule_value S f (fst l) (B (fst l) (snd l)))) links)
    = total_momentum S a cells f - total_momentum S a cells (arriving S fluid B f)).
Proof.
  intros L S fluid cells links f a HS HG. split; [|intros B].
  - rewrite (momentum_balance L S fluid cells links (fun _ => no_slip S) f HS HG a).
    match goal with |- _ = ?a - (?a - ?b) => replace (a - (a - b)) with b by ring end. apply rsum_ext. intros l _. rewrite no_slip_value by exact HS. unfold no_slip_force, offset_of, dir. ring.
  - rewrite (momentum_balance L S fluid cells links B f HS HG a).
    match goal with |- _ = ?a - (?a - ?b) => replace (a - (a - b)) with b by ring end. apply rsum_ext. intros l _. unfold link_force, offset_of, dir. ring.
Qed.
Print Assumptions C19_force_vector.

(* a 4 x 4 torus with an obstacle of two cells and a narrow gap meets the hypotheses *)
Definition ex19_N : list positive := [4; 4]%positive.
Definition ex19_fluid (x : cell (torus ex19_N)) : bool := negb (existsb (vec_eqb (proj1_sig x)) [[0; 0]; [2; 1]]%Z).
Example C19_example : lists_geometry D2Q9_walberla ex19_fluid (torus_fluid_cells ex19_N ex19_fluid) (torus_links ex19_N D2Q9_walberla ex19_fluid) /\
  length (torus_fluid_cells ex19_N ex19_fluid) = 14%nat /\ length (torus_links ex19_N D2Q9_walberla ex19_fluid) = 16%nat /\
  supported AA (ldim (torus ex19_N)) D2Q9_walberla EVEN.
Proof.
  split; [apply torus_geometry|]. split; [vm_compute; reflexivity|]. split; [vm_compute; reflexivity|].
  split; [|discriminate]. apply (predefined_wf "D2Q9" "walberla" D2Q9_walberla). vm_compute. reflexivity.
Qed.

(* ================= C20 ================= *)
(* linear interpolation: the assigned value *)
Theorem C20_bouzidi_formula : forall (L : lattice) (S : stencil) inv f (x : cell L) q i, symmetric_stencil (ldim L) S -> (i < length S)%nat ->
  inverse_dirs S = Ok inv ->
  let v := rule_value S f x (bouzidi S inv q i) in
  let fi := nth i (f x) 0 in let fo := nth (opp S i) (f x) 0 in let f2 := nth i (f (shift x (vneg (dir S i)))) 0 in
  (1 / 2 <= q -> v = 1 / (2 * q) * fi + (2 * q - 1) / (2 * q) * fo) /\
  (0 < q < 1 / 2 -> v = 2 * q * fi + (1 - 2 * q) * f2) /\
  (q <= 0 \/ q = 1 / 2 -> v = rule_value S f x (no_slip S i)) /\
  rule_value S f x (bouzidi S inv bouzidi_default_q i) = rule_value S f x (no_slip S i).
Proof.
  intros L S inv f x q i HS Hi Hinv v fi fo f2. unfold v. rewrite !(bouzidi_rule L S inv f x _ i HS Hi Hinv). fold fi fo f2. rewrite no_slip_value by exact HS. fold fi.
  split; [|split; [|split]].
  - intros Hq. unfold bouzidi_value. destruct (Rle_dec (1 / 2) q); [|lra]. field. lra.
  - intros Hq. unfold bouzidi_value. destruct (Rle_dec (1 / 2) q); [lra|]. destruct (Rlt_dec 0 q); [ring|lra].
  - intros [Hq| ->]; [now apply bouzidi_fallback|apply bouzidi_half].
  - apply bouzidi_fallback. unfold bouzidi_default_q. lra.
Qed.
Print Assumptions C20_bouzidi_formula.

(* continuous in the wall distance, across the switch at 1/2 in particular; nonnegative weights summing to one *)
Theorem C20_bouzidi_interpolation : forall a b c q, 0 < q ->
  continuity_pt (fun q => bouzidi_value q a b c) q /\
  (q <= 1 -> exists wa wb wc, 0 <= wa /\ 0 <= wb /\ 0 <= wc /\ wa + wb + wc = 1 /\ forall a b c, bouzidi_value q a b c = wa * a + wb * b + wc * c).
Proof. intros a b c q Hq. split; [now apply bouzidi_continuous|]. intros H. apply bouzidi_weights. lra. Qed.
Print Assumptions C20_bouzidi_interpolation.

(* Populations linear along the link are transported exactly.  Positions in units of the link, the cell at 0, the wall at q.
   Short distance: the outgoing population is g(s) at position s; the one arriving after reflection started at 2q - 1.
   Long distance: the reflected population is h(s); what left the cell is at 2q - 1, the cell behind at -1. *)
Theorem C20_bouzidi_linear_exact : forall q a b,
  let g s := a + b * s in
  (0 < q < 1 / 2 -> forall fo, bouzidi_value q (g 0) fo (g (-1)) = g (2 * q - 1)) /\
  (1 / 2 <= q -> forall f2, bouzidi_value q (g (2 * q - 1)) (g (-1)) f2 = g 0).
Proof.
  intros q a b g. unfold g, bouzidi_value. split; intros Hq r.
  - destruct (Rle_dec (1 / 2) q); [lra|]. destruct (Rlt_dec 0 q); [ring|lra].
  - destruct (Rle_dec (1 / 2) q); [|lra]. field. lra.
Qed.
Print Assumptions C20_bouzidi_linear_exact.

(* The documentation promises bounce back if the second fluid cell does not exist.  The kernel has no such case: with the cell behind
   not fluid the assigned value depends on populations of a non-fluid cell. *)
Definition ex20_N : list positive := [3; 3]%positive.
Definition ex20_fluid (x : cell (torus ex20_N)) : bool := vec_eqb (proj1_sig x) [1; 1]%Z.
Definition ex20_x : cell (torus ex20_N) := exist _ [1; 1]%Z eq_refl.
Definition ex20_f (c : R) (x : cell (torus ex20_N)) : list R := repeat (if ex20_fluid x then 1 else c) 9.
Theorem C20_bouzidi_second_cell_refuted : exists inv i, inverse_dirs D2Q9_walberla = Ok inv /\ is_link D2Q9_walberla ex20_fluid (ex20_x, i) /\
  (forall c c' x, ex20_fluid x = true -> ex20_f c x = ex20_f c' x) /\
  forall c, c <> 1 -> rule_value D2Q9_walberla (ex20_f c) ex20_x (bouzidi D2Q9_walberla inv (1 / 4) i) <> rule_value D2Q9_walberla (ex20_f c) ex20_x (no_slip D2Q9_walberla i).
Proof.
  assert (HS : symmetric_stencil (ldim (torus ex20_N)) D2Q9_walberla) by (apply (predefined_wf "D2Q9" "walberla" D2Q9_walberla); vm_compute; reflexivity).
  eexists. exists 1%nat. split; [apply (inverse_dirs_ok _ _ HS)|]. split; [split; [reflexivity|split; [cbn; lia|vm_compute; reflexivity]]|]. split.
  - intros c c' x E. unfold ex20_f. now rewrite E.
  - intros c Hc. rewrite (bouzidi_rule _ _ _ _ _ _ _ HS) by (try apply (inverse_dirs_ok _ _ HS); cbn; lia). rewrite (no_slip_value _ _ _ _ _ HS).
    unfold ex20_f. replace (ex20_fluid ex20_x) with true by reflexivity. replace (ex20_fluid (shift ex20_x (vneg (dir D2Q9_walberla 1)))) with false by (vm_compute; reflexivity).
    cbn [repeat nth]. unfold bouzidi_value. destruct (Rle_dec (1 / 2) (1 / 4)); [lra|]. destruct (Rlt_dec 0 (1 / 4)); [|lra]. lra.
Qed.
Print Assumptions C20_bouzidi_second_cell_refuted.

(* quadratic condition.  s: sum of the two populations of the link before the collision, relaxed with omega to the equilibrium of the
   cell; the value interpolates linearly between the outgoing population with its even part taken back before the collision (weight of
   the wall side) and the populations after it *)
Theorem C20_quadratic_formula : forall (L : lattice) (S : stencil) ws inv zc compr force f (x : cell L) i,
  symmetric_stencil (ldim L) S -> get_weights S = Ok ws -> inverse_dirs S = Ok inv -> length (f x) = length S -> (i < length S)%nat ->
  let rho := pdf_density zc (f x) in let u := equilibrium_velocity (dimD S) S zc compr force (f x) in
  forall q omega g s, omega <> 1 -> 1 + q <> 0 -> length u = dimD S -> hydro_maxwellian S compr zc (Some 2%Z) rho u (1 / 3) = Ok g ->
  nth i (f x) 0 + nth (opp S i) (f x) 0 = (1 - omega) * s + omega * (nth i g 0 + nth (opp S i) g 0) ->
  rule_value S f x (quadratic S inv (map Q2R ws) zc compr force omega q i) =
  ((1 - q) * ((s + nth i (f x) 0 - nth (opp S i) (f x) 0) / 2) + q * (nth i (f x) 0 + nth (opp S i) (f x) 0)) / (1 + q).
Proof. intros L S ws inv zc compr force f x i HS HW Hinv Hl Hi rho u. apply quadratic_rule; assumption. Qed.
Print Assumptions C20_quadratic_formula.

(* in an equilibrium cell the value interpolates between the two equilibrium populations of the link; at rest nothing changes *)
Theorem C20_quadratic_equilibrium : forall name ord (L : lattice) (S : stencil) ws inv zc compr f (x : cell L) i rho u g q omega,
  predefined_stencils name ord = Ok S -> dimD S = ldim L -> get_weights S = Ok ws -> inverse_dirs S = Ok inv ->
  length u = dimD S -> (compr = true -> rho <> 0) -> hydro_maxwellian S compr zc (Some 2%Z) rho u (1 / 3) = Ok g -> f x = g ->
  (i < length S)%nat -> omega <> 1 -> 1 + q <> 0 ->
  let v := rule_value S f x (quadratic S inv (map Q2R ws) zc compr None omega q i) in
  v = (nth i g 0 + q * nth (opp S i) g 0) / (1 + q) /\
  (u = repeat 0 (dimD S) -> v = nth (opp S i) g 0).
Proof.
  intros name ord L S ws inv zc compr f x i rho u g q omega HS HD HW Hinv Hu Hr Hg Hf Hi Ho Hq v.
  assert (E : v = (nth i g 0 + q * nth (opp S i) g 0) / (1 + q)) by (eapply quadratic_at_equilibrium; eauto). split; [exact E|].
  intros E0. destruct (predefined_wf _ _ _ HS) as (HSym & _).
  assert (EF : map Ropp u = u). { rewrite E0. clear. induction (dimD S) as [|n IH]; [reflexivity|]. cbn [repeat map]. rewrite Ropp_0, IH. reflexivity. }
  pose proof Hg as Hg'. rewrite <- EF in Hg'. pose proof (hydro_flip _ S ws compr zc _ rho u g g i HSym HW Hg Hg' Hi) as HF.
  rewrite E, HF. field. exact Hq.
Qed.
Print Assumptions C20_quadratic_equilibrium.

(* The warning for a missing callback says that the default wall distance is plain bounce back; it is not. *)
Theorem C20_quadratic_default_refuted : exists omega f finv feq, omega <> 1 /\ 0 < omega < 2 /\
  quadratic_value quadratic_default_q omega f finv feq <> f.
Proof. exists (1 / 2), 1, 0, 1. split; [lra|]. split; [lra|]. unfold quadratic_value, quadratic_default_q. lra. Qed.
Print Assumptions C20_quadratic_default_refuted.

Example C20_example : bouzidi_value (1 / 4) 3 7 1 = 2 /\ bouzidi_value (3 / 4) 3 7 1 = 13 / 3 /\ bouzidi_value (-1) 3 7 1 = 3.
Proof.
  unfold bouzidi_value. repeat match goal with |- context [Rle_dec ?a ?b] => destruct (Rle_dec a b); try lra end.
  repeat match goal with |- context [Rlt_dec ?a ?b] => destruct (Rlt_dec a b); try lra end.
Qed.

(* ================= C21 ================= *)
(* zero velocity is bounce back; a velocity with the wrong number of components is rejected *)
Theorem C21_zero_velocity : forall (L : lattice) (S : stencil) ws zc compr force density adapt f (x : cell L) i b,
  symmetric_stencil (ldim L) S -> length (f x) = length S -> (adapt = true -> force = None) ->
  ubb S ws zc compr force density adapt (repeat 0 (dimD S)) i = Ok b -> rule_value S f x b = rule_value S f x (no_slip S i).
Proof.
  intros L S ws zc compr force density adapt f x i b HS Hl Ha Hb. pose proof (ubb_rule L S ws zc compr force density adapt _ i b f x HS Hl Hb) as E. cbv zeta in E.
  rewrite E, no_slip_value by exact HS.
  replace (if adapt then _ else _) with (repeat 0 (dimD S)); [rewrite e_times_u_zero; ring|].
  destruct adapt; [|reflexivity]. rewrite Ha by reflexivity. symmetry. apply init_velocity_none, repeat_length.
Qed.
Print Assumptions C21_zero_velocity.
Theorem C21_errors : forall S ws zc compr force density adapt vel i,
  (length vel = dimD S -> exists b, ubb S ws zc compr force density adapt vel i = Ok b) /\
  (length vel <> dimD S -> ubb S ws zc compr force density adapt vel i = Err AssertionError).
Proof.
  intros. unfold ubb. destruct (Nat.eqb_spec (length vel) (dimD S)); cbn [negb]; split; intros; try contradiction; [|reflexivity]. eexists; reflexivity.
Qed.
Print Assumptions C21_errors.

(* An equilibrium of the wall velocity passes unchanged: the value is the equilibrium population of the reflected direction, exactly for
   second order equilibria, up to the cubic term otherwise *)
Theorem C21_equilibrium : forall name ord (L : lattice) (S : stencil) ws zc compr force density adapt order rho u g b f (x : cell L) i,
  predefined_stencils name ord = Ok S -> dimD S = ldim L -> get_weights S = Ok ws ->
  length u = dimD S -> hydro_maxwellian S compr zc order rho u (1 / 3) = Ok g -> f x = g ->
  (i < length S)%nat -> (adapt = true -> force = None) -> (density = None \/ density = Some rho) ->
  ubb S (map Q2R ws) zc compr force density adapt u i = Ok b ->
  let cu := e_times_u (dir S i) u in
  rule_value S f x b = nth (opp S i) g 0 +
    (if (match order with Some o => o | None => 4%Z end <=? 2)%Z then 0
     else nth i (map Q2R ws) 0 * (if compr then rho else 1) * (9 * cu * (cu ^ 2 - u_times_u u))).
Proof.
  intros name ord L S ws zc compr force density adapt order rho u g b f x i HS HD HW Hu Hg Hf Hi Ha Hd Hb cu.
  destruct (predefined_wf _ _ _ HS) as (HSym & _). rewrite HD in HSym.
  pose proof (hydro_length S ws _ _ _ _ _ _ HW Hg) as HL.
  assert (Er : pdf_density zc g = rho).
  { unfold pdf_density. rewrite <- (density_rsum g S HL), (hydro_density name ord S u rho _ compr zc g HS Hg). destruct zc; ring. }
  rewrite (ubb_equilibrium L S ws zc compr force density adapt order rho u g b f x i); try assumption.
  - destruct (_ <=? 2)%Z; [reflexivity|]. unfold cubic. fold cu. ring.
  - unfold ubb_density. destruct Hd as [-> | ->]; [exact Er|]. destruct (Req_EM_T rho 0); [exact Er|reflexivity].
Qed.
Print Assumptions C21_equilibrium.

(* A moving lid: below it every direction towards the wall (component s on axis a) is a velocity link with a velocity tangential to the
   wall; all other links bounce back.  Boundary and streaming step conserve the total mass. *)
Theorem C21_lid_conserves_mass : forall name ord (L : lattice) (S : stencil) ws (fluid : cell L -> bool) cells links zc compr force density adapt vel a s lid B f,
  predefined_stencils name ord = Ok S -> dimD S = ldim L -> get_weights S = Ok ws ->
  lists_geometry S fluid cells links -> (forall x, length (f x) = length S) -> (adapt = true -> force = None) ->
  length vel = ldim L -> nth a vel 0 = 0 ->
  (forall x i, fluid x = true -> (i < length S)%nat -> lid x = true -> nth a (dir S i) 0%Z = s ->
     is_link S fluid (x, i) /\ ubb S (map Q2R ws) zc compr force density adapt vel i = Ok (B x i)) ->
  (forall x i, is_link S fluid (x, i) -> (lid x = false \/ nth a (dir S i) 0%Z <> s) -> B x i = no_slip S i) ->
  total_mass cells (arriving S fluid B f) = total_mass cells f.
Proof.
  intros name ord L S ws fluid cells links zc compr force density adapt vel a s lid B f HS HD HW HG Hlen Ha Hv Hva Hlid Hrest.
  destruct (predefined_wf _ _ _ HS) as (HSym & _). rewrite HD in HSym.
  apply (lid_mass L S ws fluid cells links zc compr force density adapt vel a s lid B f); try assumption. apply (predefined_negate name ord S HS).
Qed.
Print Assumptions C21_lid_conserves_mass.

(* a prescribed density of zero is ignored: "if self._density" is false for it *)
Theorem C21_zero_density_refuted : exists zc f, ubb_density zc (Some 0) f <> 0.
Proof. exists false, [1]. unfold ubb_density. destruct (Req_EM_T 0 0); [|contradiction]. unfold pdf_density. cbn. lra. Qed.
Print Assumptions C21_zero_density_refuted.

(* a channel: 4 cells long, periodic, three fluid rows, solid row y = 0, lid above row 3 *)
Definition ex21_N : list positive := [4; 4]%positive.
Definition ex21_fluid (x : cell (torus ex21_N)) : bool := negb (Z.eqb (nth 1 (proj1_sig x) 0%Z) 0).
Definition ex21_lid (x : cell (torus ex21_N)) : bool := Z.eqb (nth 1 (proj1_sig x) 0%Z) 3.
Definition ex21_B ws (x : cell (torus ex21_N)) (i : nat) : brule R :=
  if (ex21_lid x && Z.eqb (nth 1 (dir D2Q9_walberla i) 0%Z) 1)%bool
  then match ubb D2Q9_walberla (map Q2R ws) true true None None false [1 / 10; 0] i with Ok b => b | Err _ => no_slip D2Q9_walberla i end
  else no_slip D2Q9_walberla i.
Example C21_lid_example : exists ws, get_weights D2Q9_walberla = Ok ws /\
  (forall x i, ex21_fluid x = true -> (i < 9)%nat -> ex21_lid x = true -> nth 1 (dir D2Q9_walberla i) 0%Z = 1%Z ->
     is_link D2Q9_walberla ex21_fluid (x, i) /\ ubb D2Q9_walberla (map Q2R ws) true true None None false [1 / 10; 0] i = Ok (ex21_B ws x i)) /\
  (forall x i, is_link D2Q9_walberla ex21_fluid (x, i) -> (ex21_lid x = false \/ nth 1 (dir D2Q9_walberla i) 0%Z <> 1%Z) -> ex21_B ws x i = no_slip D2Q9_walberla i) /\
  length (filter ex21_lid (torus_fluid_cells ex21_N ex21_fluid)) = 4%nat.
Proof.
  eexists. split; [vm_compute; reflexivity|]. split; [|split].
  - intros x i Fx Hi Hx Hd. split.
    + split; [exact Fx|]. split; [exact Hi|]. cbn [fst snd].
      assert (G : forallb (fun x => forallb (fun i => (negb (ex21_lid x && Z.eqb (nth 1 (dir D2Q9_walberla i) 0%Z) 1) || negb (ex21_fluid (shift x (dir D2Q9_walberla i))))%bool) (seq 0 9)) (torus_cells ex21_N) = true) by (vm_compute; reflexivity).
      rewrite forallb_forall in G. specialize (G x (torus_cells_all _ x)). rewrite forallb_forall in G. specialize (G i). rewrite in_seq in G. specialize (G ltac:(lia)).
      rewrite Hx, Hd in G. cbn [Z.eqb Pos.eqb andb negb orb] in G. now apply negb_true_iff in G.
    + unfold ex21_B. rewrite Hx, Hd. reflexivity.
  - intros x i _ H. unfold ex21_B. destruct H as [-> | H]; [reflexivity|]. apply Z.eqb_neq in H. rewrite H, andb_false_r. reflexivity.
  - vm_compute. reflexivity.
Qed.

(* ================= C22 ================= *)
(* pressure boundary: value plus outgoing population = sum of the two equilibrium populations of the link at the prescribed density *)
Theorem C22_fixed_density_anti_bounce_back : forall name ord L (S : stencil) ws compr dev order E rho force f (x : cell L) i,
  predefined_stencils name ord = Ok S -> dimD S = ldim L -> get_weights S = Ok ws ->
  (forall r u, hydro_maxwellian S compr dev order r u (1 / 3) = Ok (E r u)) -> (i < length S)%nat -> length (f x) = length S ->
  let u := fixed_density_velocity (dimD S) S compr force rho (f x) in
  rule_value S f x (fixed_density S E compr force rho i) + nth i (f x) 0 = nth i (E rho u) 0 + nth (opp S i) (E rho u) 0.
Proof. exact fixed_density_anti. Qed.
Print Assumptions C22_fixed_density_anti_bounce_back.
(* equilibria of the prescribed density are fixed points, whatever the velocity *)
Theorem C22_fixed_density_fixed_point : forall name ord L (S : stencil) ws compr dev order E rho u f (x : cell L) i,
  predefined_stencils name ord = Ok S -> dimD S = ldim L -> get_weights S = Ok ws ->
  (sizeQ S <> 7%nat \/ (match order with Some o => o | None => 4 end <= 2)%Z) ->
  (forall r u, hydro_maxwellian S compr dev order r u (1 / 3) = Ok (E r u)) -> (i < length S)%nat ->
  length u = dimD S -> (compr = true -> rho <> 0) -> f x = E rho u ->
  rule_value S f x (fixed_density S E compr None rho i) = nth (opp S i) (E rho u) 0.
Proof. exact fixed_density_fixed. Qed.
Print Assumptions C22_fixed_density_fixed_point.
Example C22_hydro_total : forall compr dev order, exists E, forall r u, hydro_maxwellian D3Q19_walberla compr dev order r u (1 / 3) = Ok (E r u).
Proof.
  intros. exists (fun r u => match hydro_maxwellian D3Q19_walberla compr dev order r u (1 / 3) with Ok g => g | Err _ => [] end). intros r u.
  assert (HW : exists ws, get_weights D3Q19_walberla = Ok ws) by (eexists; vm_compute; reflexivity). destruct HW as (ws & HW).
  unfold hydro_maxwellian, discrete_maxwellian_equilibrium. rewrite HW. cbn [rbind]. destruct dev; reflexivity.
Qed.

(* diffusion: rest equilibria of the prescribed concentration are fixed points; zero-centred storage is rejected *)
Theorem C22_diffusion_dirichlet : forall L (S : stencil) ws c f (x : cell L) i,
  symmetric_stencil (ldim L) S -> get_weights S = Ok ws -> (i < length S)%nat ->
  (exists b, diffusion_dirichlet S (map Q2R ws) false c None i = Ok b /\
     (forall f, rule_value S f x b + nth i (f x) 0 = c * nth i (map Q2R ws) 0 + c * nth (opp S i) (map Q2R ws) 0) /\
     (f x = map (fun w => c * Q2R w) ws -> rule_value S f x b = nth (opp S i) (f x) 0)) /\
  (forall v, diffusion_dirichlet S (map Q2R ws) true c v i = Err AssertionError).
Proof.
  intros L S ws c f x i HS HW Hi. split; [|reflexivity]. eexists. split; [reflexivity|].
  assert (E : forall f, rule_value S f x {| b_reads := [FOut (here S) i]; b_fun := fun l => 2 * nth i (map Q2R ws) 0 * c * diffusion_equilibrium (offset_of S i) None - nth 0 l 0 |}
    = 2 * nth i (map Q2R ws) 0 * c - nth i (f x) 0).
  { intros f'. unfold rule_value. cbn [b_fun b_reads map nth pacc_value]. unfold here. rewrite (dimD_D (ldim L) S HS), shift_zero. cbn [diffusion_equilibrium]. ring. }
  split.
  - intros f'. rewrite E, (weights_opp (ldim L) S ws i HS HW Hi). ring.
  - intros Hf. rewrite E, Hf.
    assert (N : forall k, nth k (map (fun w => c * Q2R w) ws) 0 = c * nth k (map Q2R ws) 0).
    { clear. induction ws as [|w ws IH]; intros [|k]; cbn [map nth]; try ring. apply IH. }
    rewrite !N, (weights_opp (ldim L) S ws i HS HW Hi). ring.
Qed.
Print Assumptions C22_diffusion_dirichlet.
(* With a velocity, the equilibrium of the method (c_s^2 = 1/3) of the prescribed concentration is not a fixed point: the rule
   uses 1/3 where the speed of sound belongs. *)
Theorem C22_diffusion_velocity_refuted : exists ws g b u i (f : cell (torus ex20_N) -> list R) x,
  get_weights D2Q9_walberla = Ok ws /\ hydro_maxwellian D2Q9_walberla true false (Some 2%Z) 1 u (1 / 3) = Ok g /\ f x = g /\
  diffusion_dirichlet D2Q9_walberla (map Q2R ws) false 1 (Some u) i = Ok b /\ (i < 9)%nat /\
  rule_value D2Q9_walberla f x b <> nth (opp D2Q9_walberla i) g 0.
Proof.
  assert (HW : exists ws, get_weights D2Q9_walberla = Ok ws) by (eexists; vm_compute; reflexivity). destruct HW as (ws & HW).
  assert (HG : exists g, hydro_maxwellian D2Q9_walberla true false (Some 2%Z) 1 [1 / 10; 0] (1 / 3) = Ok g).
  { unfold hydro_maxwellian, discrete_maxwellian_equilibrium. rewrite HW. cbn [rbind]. eexists; reflexivity. } destruct HG as (g & HG).
  eexists ws, g, _, [1 / 10; 0], 1%nat, (fun _ => g), ex20_x. split; [exact HW|]. split; [exact HG|]. split; [reflexivity|]. split; [reflexivity|]. split; [lia|].
  unfold rule_value. cbn [b_fun b_reads map nth pacc_value].
  replace (opp D2Q9_walberla 1) with 2%nat by (vm_compute; reflexivity).
  rewrite !(hydro_nth D2Q9_walberla ws true false (Some 2%Z) 1 [1 / 10; 0] g) by (try assumption; cbn; lia).
  replace (nth 2 (map Q2R ws) 0) with (nth 1 (map Q2R ws) 0) by (apply (weights_speed D2Q9_walberla); [exact HW|cbn; lia|cbn; lia|vm_compute; reflexivity]).
  assert (W : nth 1 (map Q2R ws) 0 = 1 / 9). { vm_compute in HW. injection HW as <-. cbn [map nth]. unfold Q2R. cbn [Qnum Qden]. lra. }
  rewrite W. unfold discrete_equilibrium, diffusion_equilibrium. change (dimD D2Q9_walberla) with 2%nat. cbn [firstn]. change (offset_of D2Q9_walberla 1) with (dir D2Q9_walberla 1).
  change (2 <=? 1)%Z with false. change (2 <=? 2)%Z with true. cbv iota zeta.
  replace (e_times_u (dir D2Q9_walberla 1) [1 / 10; 0]) with 0 by (unfold e_times_u; cbn; lra).
  replace (e_times_u (dir D2Q9_walberla 2) [1 / 10; 0]) with 0 by (unfold e_times_u; cbn; lra).
  replace (u_times_u [1 / 10; 0]) with (1 / 100) by (unfold u_times_u; cbn; lra). lra.
Qed.
Print Assumptions C22_diffusion_velocity_refuted.

(* simple outflow: the incoming population is copied from the tangential neighbour, so a uniform state passes unchanged *)
Theorem C22_simple_outflow : forall L (S : stencil) inv normal f (x : cell L) i, symmetric_stencil (ldim L) S -> inverse_dirs S = Ok inv -> (i < length S)%nat ->
  rule_value S f x (simple_outflow S inv normal i) = nth (opp S i) (f (shift x (vadd (dir S i) (vneg normal)))) 0 /\
  (forall g, (forall y, f y = g) -> rule_value S f x (simple_outflow S inv normal i) = nth (opp S i) g 0).
Proof.
  intros L S inv normal f x i HS Hinv Hi.
  assert (E : rule_value S f x (simple_outflow S inv normal i) = nth (opp S i) (f (shift x (vadd (dir S i) (vneg normal)))) 0).
  { unfold rule_value. cbn [simple_outflow b_fun b_reads map nth pacc_value]. rewrite (inverse_dirs_ok (ldim L) S HS) in Hinv. injection Hinv as <-. now rewrite tget_inverse. }
  split; [exact E|]. intros g Hg. now rewrite E, Hg.
Qed.
Print Assumptions C22_simple_outflow.

(* extrapolation outflow: for any nonzero dt and dx the weight is the speed of sound; n steps stay within the range of what was read;
   a steady inflow value is reached geometrically and is a fixed point *)
Theorem C22_extrapolation_outflow : forall dt dx, dt <> 0 -> dx <> 0 ->
  (forall d v, outflow_value dt dx (outflow_update dt dx d v) = sqrt (1 / 3) * v + (1 - sqrt (1 / 3)) * outflow_value dt dx d) /\
  (forall lo hi d vs n, lo <= o_pdf d <= hi -> lo <= o_pdf_nd d <= hi -> (forall k, lo <= vs k <= hi) ->
     lo <= outflow_value dt dx (outflow_run dt dx d vs n) <= hi) /\
  (forall c d n, o_pdf d = c ->
     outflow_value dt dx (outflow_run dt dx d (fun _ => c) n) - c = (1 - sqrt (1 / 3)) ^ (Datatypes.S n) * (o_pdf_nd d - c)) /\
  (forall c n, outflow_value dt dx (outflow_run dt dx (outflow_init None c) (fun _ => c) n) = c) /\
  0 < 1 - sqrt (1 / 3) < 1.
Proof.
  intros dt dx Ht Hx. split; [|split; [|split; [|split]]].
  - intros d v. unfold outflow_value at 1. cbn [outflow_update o_pdf o_pdf_nd]. rewrite outflow_weight_value by assumption. ring.
  - intros. now apply outflow_bounds.
  - intros. now apply outflow_converges.
  - intros c n. pose proof (outflow_converges dt dx c (outflow_init None c) n Ht Hx eq_refl) as E. cbn [outflow_init o_pdf_nd] in E.
    replace (c - c) with 0 in E by ring. rewrite Rmult_0_r in E. lra.
  - pose proof sqrt_third. lra.
Qed.
Print Assumptions C22_extrapolation_outflow.

(* NeumannByCopy: the population the next kernel reads is the outgoing one of the same direction, unless a fluid cell lies directly
   behind the wall cell; no population of a fluid cell changes *)
Theorem C22_neumann_by_copy_partial : forall (L : lattice) (S : stencil) p t fluid inv, supported p (ldim L) S t -> inverse_dirs S = Ok inv ->
  forall links s ins, (forall l, In l links -> is_link S fluid l) -> reads_of p (ts_next t) S = Ok ins ->
  exists s' f, multi_boundary L p t S (fun _ => neumann_by_copy S inv) links s = Ok s' /\ tmp s' = tmp s /\
    (forall y, getter L R p t S false (src s) y = Ok (f y)) /\
    (forall x i k a, In (x, i) links -> opposite S i k -> nth_error ins k = Some a ->
       (forall y, In (y, k) links -> shift (shift y (dir S k)) (dir S k) <> x) ->
       src s' (fst (slot x a)) (snd (slot x a)) = nth k (f x) 0) /\
    (forall x, fluid x = true -> getter L R p t S false (src s') x = getter L R p t S false (src s) x).
Proof. exact neumann_kernel. Qed.
Print Assumptions C22_neumann_by_copy_partial.
(* Across a wall one cell thick the second assignment overwrites the first of the other side.  Four columns of cells, two of them
   walls, populations 1 in column 2 and 0 elsewhere: column 0 receives the population of column 2. *)
Definition ex22_N : list positive := [4; 2]%positive.
Definition ex22_fluid (x : cell (torus ex22_N)) : bool := Z.eqb (Z.modulo (nth 0 (proj1_sig x) 0%Z) 2) 0.
Definition ex22_x : cell (torus ex22_N) := exist _ [0; 0]%Z eq_refl.
Definition ex22_m : mem (torus ex22_N) R := fun x _ => if Z.eqb (nth 0 (proj1_sig x) 0%Z) 2 then 1 else 0.
Theorem C22_neumann_thin_wall_refuted : exists inv ins a i k,
  inverse_dirs D2Q9_walberla = Ok inv /\ reads_of PULL (ts_next BOTH) D2Q9_walberla = Ok ins /\ opposite D2Q9_walberla i k /\ nth_error ins k = Some a /\
  In (ex22_x, i) (torus_links ex22_N D2Q9_walberla ex22_fluid) /\
  getter (torus ex22_N) R PULL BOTH D2Q9_walberla false ex22_m ex22_x = Ok (repeat 0 9) /\
  match multi_boundary (torus ex22_N) PULL BOTH D2Q9_walberla (fun _ => neumann_by_copy D2Q9_walberla inv) (torus_links ex22_N D2Q9_walberla ex22_fluid) {| src := ex22_m; tmp := ex22_m |} with
  | Ok s' => src s' (fst (slot ex22_x a)) (snd (slot ex22_x a)) = 1
  | Err _ => False
  end.
Proof.
  eexists _, _, _, 4%nat, 3%nat. split; [vm_compute; reflexivity|]. split; [vm_compute; reflexivity|].
  split; [exists [1; 0]%Z; split; vm_compute; reflexivity|]. split; [vm_compute; reflexivity|].
  split; [apply torus_links_spec; split; [reflexivity|split; [cbn; lia|vm_compute; reflexivity]]|]. split; vm_compute; reflexivity.
Qed.
Print Assumptions C22_neumann_thin_wall_refuted.
(* StreamInConstant: the population the next kernel reads is the constant, for every geometry *)
Theorem C22_stream_in_constant : forall (L : lattice) (S : stencil) p t fluid inv, supported p (ldim L) S t -> inverse_dirs S = Ok inv ->
  forall c links s ins, (forall l, In l links -> is_link S fluid l) -> reads_of p (ts_next t) S = Ok ins ->
  exists s', multi_boundary L p t S (fun _ => stream_in_constant S inv c) links s = Ok s' /\ tmp s' = tmp s /\
    (forall x i k a, In (x, i) links -> opposite S i k -> nth_error ins k = Some a -> src s' (fst (slot x a)) (snd (slot x a)) = c) /\
    (forall x, fluid x = true -> getter L R p t S false (src s') x = getter L R p t S false (src s) x).
Proof. exact stream_in_kernel. Qed.
Print Assumptions C22_stream_in_constant.

(* ================= C23 ================= *)
(* the table of mirrored directions: the direction reflected on the axis, an involution *)
Theorem C23_mirrored_directions : forall name ord S a, predefined_stencils name ord = Ok S -> (a < dimD S)%nat ->
  exists M, mirrored_dirs S a = Ok M /\ length M = length S /\
    forall i, (i < length S)%nat -> (tget M i < length S)%nat /\ reflected a (dir S i) (dir S (tget M i)) /\ tget M (tget M i) = i.
Proof.
  intros name ord S a HS Ha. destruct (predefined_wf _ _ _ HS) as (HSym & _).
  destruct (mirrored_ok (dimD S) S a HSym (fun d => predefined_negate name ord S HS d a) Ha) as (M & E & HL & HM). exists M. split; [exact E|]. split; [exact HL|].
  intros i Hi. destruct (HM i Hi) as [H1 H2]. split; [exact H1|]. split; [rewrite H2; apply negate_at_reflected|].
  destruct (HM _ H1) as [H3 H4]. apply (dir_inj _ S HSym); auto. rewrite H4, H2. apply negate_at_invol.
Qed.
Print Assumptions C23_mirrored_directions.
(* an axis beyond the dimension is rejected *)
Theorem C23_mirror_errors : forall D S a, symmetric_stencil D S ->
  (a = D -> mirrored_dirs S a = Err IndexError) /\ ((D < a)%nat -> mirrored_dirs S a = Err AssertionError).
Proof.
  intros D S a (Hne & _ & HL & _). destruct S as [|d S]; [contradiction|]. assert (Ld : length d = D) by (apply HL; left; reflexivity).
  unfold mirrored_dirs. cbn [mapM]. unfold mirror_stencil. rewrite Ld. split; intros H.
  - subst a. rewrite Nat.ltb_irrefl. reflexivity.
  - apply Nat.ltb_lt in H. rewrite H. reflexivity.
Qed.
Print Assumptions C23_mirror_errors.
(* accepted normals: exactly the unit vectors of the axes, in both orientations *)
Theorem C23_normals : forall n a, free_slip_axis n = Ok a <-> exists s, (s = 1 \/ s = -1)%Z /\ (a < length n)%nat /\ n = axis_vec (length n) a s.
Proof.
  intros n a. split; [apply free_slip_axis_inv|]. intros (s & Hs & Ha & E). rewrite E. now apply free_slip_axis_ok.
Qed.
Print Assumptions C23_normals.

(* Plane walls orthogonal to axis a, any number of them, the normal pointing back to the fluid: mass and tangential momentum
   are conserved, the wall takes twice the outgoing normal momentum *)
Theorem C23_plane_walls : forall name ord (L : lattice) (S : stencil) (fluid : cell L -> bool) a inv M cells links f B,
  predefined_stencils name ord = Ok S -> dimD S = ldim L -> (a < ldim L)%nat -> plane_walls a fluid ->
  inverse_dirs S = Ok inv -> mirrored_dirs S a = Ok M ->
  lists_geometry S fluid cells links -> (forall x, length (f x) = length S) ->
  (forall x i, is_link S fluid (x, i) -> B x i = free_slip S inv M (axis_vec (ldim L) a (- nth a (dir S i) 0)%Z) i) ->
  total_mass cells (arriving S fluid B f) = total_mass cells f /\
  (forall b, b <> a -> total_momentum S b cells (arriving S fluid B f) = total_momentum S b cells f) /\
  total_momentum S a cells (arriving S fluid B f) =
    total_momentum S a cells f - 2 * rsum (map (fun l => IZR (nth a (dir S (snd l)) 0%Z) * nth (snd l) (f (fst l)) 0) links).
Proof.
  intros name ord L S fluid a inv M cells links f B HS HD Ha HF Hinv HM HG Hlen HB.
  destruct (predefined_wf _ _ _ HS) as (HSym & _). rewrite HD in HSym. pose proof (fun d => predefined_negate name ord S HS d a) as HN. split; [|split].
  - apply (plane_mass L S fluid a HSym Ha HN HF inv M Hinv HM cells links f HG Hlen B HB).
  - intros b Hb. eapply plane_tangential with (a := a); eauto.
  - eapply plane_normal; eauto.
Qed.
Print Assumptions C23_plane_walls.

(* the value: population of the mirror direction of the tangential neighbour *)
Theorem C23_specular : forall name ord (L : lattice) (S : stencil) inv M a s f (x : cell L) i,
  predefined_stencils name ord = Ok S -> dimD S = ldim L -> (a < ldim L)%nat -> inverse_dirs S = Ok inv -> mirrored_dirs S a = Ok M -> (i < length S)%nat ->
  exists k, (k < length S)%nat /\ reflected a (vneg (dir S i)) (dir S k) /\
    rule_value S f x (free_slip S inv M (axis_vec (ldim L) a s) i) = nth k (f (shift x (vadd (dir S i) (axis_vec (ldim L) a s)))) 0.
Proof.
  intros name ord L S inv M a s f x i HS HD Ha Hinv HM Hi. destruct (predefined_wf _ _ _ HS) as (HSym & _). rewrite HD in HSym.
  destruct (src_dir L S a HSym Ha (fun d => predefined_negate name ord S HS d a) inv M Hinv HM i Hi) as [H1 H2].
  exists (tget inv (tget M i)). split; [exact H1|]. split; [|reflexivity]. rewrite H2.
  split; [rewrite !vneg_length; apply negate_at_length|]. intros b. rewrite !nth_vneg, enum_nth_negate. destruct (Nat.eqb b a); lia.
Qed.
Print Assumptions C23_specular.

(* without a given normal: on plane walls the data computed from the geometry is that of the fixed normal *)
Theorem C23_normal_from_geometry : forall name ord (L : lattice) (S : stencil) fluid links a x i inv M,
  predefined_stencils name ord = Ok S -> dimD S = ldim L -> (forall d z, In d S -> In z d -> (Z.abs z <= 1)%Z) -> (a < ldim L)%nat -> plane_walls a fluid ->
  (forall l, In l links <-> is_link S fluid l) -> inverse_dirs S = Ok inv -> mirrored_dirs S a = Ok M -> is_link S fluid (x, i) ->
  exists data, free_slip_init L S links (x, i) = Ok data /\ free_slip_data S data i = free_slip S inv M (axis_vec (ldim L) a (- nth a (dir S i) 0)%Z) i.
Proof.
  intros name ord L S fluid links a x i inv M HS HD H1 Ha HF HL Hinv HM Hl. destruct (predefined_wf _ _ _ HS) as (HSym & _). rewrite HD in HSym.
  eapply plane_init; eauto; [apply (predefined_negate name ord S HS)|apply (predefined_axes name ord S HS H1)].
Qed.
Print Assumptions C23_normal_from_geometry.

(* whole simulations with free slip walls whose normals come from the geometry conserve mass: every two-dimensional geometry,
   plane walls in every dimension *)
Theorem C23_simulation_conserves_mass_partial : forall name ord (L : lattice) (S : stencil) p (fluid : cell L -> bool) cells links0 xs0 xs links C B f0 t m_src m_tmp n,
  predefined_stencils name ord = Ok S -> dimD S = ldim L -> (forall d z, In d S -> In z d -> (Z.abs z <= 1)%Z) -> supported p (ldim L) S t ->
  (ldim L = 2%nat \/ exists a, (a < ldim L)%nat /\ plane_walls a fluid) ->
  lists_geometry S fluid cells links0 ->
  (forall x, fluid x = true -> In x xs0) ->
  (forall n, NoDup (xs n)) -> (forall n x, In x (xs n) <-> fluid x = true) ->
  (forall n l, In l (links n) <-> is_link S fluid l) ->
  (forall n x f, length f = length S -> length (C n x f) = length S /\ rsum (C n x f) = rsum f) ->
  (forall n x i, is_link S fluid (x, i) -> exists data, free_slip_init L S links0 (x, i) = Ok data /\ B n x i = free_slip_data S data i) ->
  (forall x, length (f0 x) = length S) ->
  exists F, (forall x, fluid x = true -> simulate L R p t S xs0 xs links C B f0 m_src m_tmp n x = Ok (F x)) /\
    total_mass cells F = total_mass cells f0.
Proof.
  intros name ord L S p fluid cells links0 xs0 xs links C B f0 t m_src m_tmp n HS HD H1 HP Hgeo HG H0 Hnd Hxs Hl HC HB Hf.
  eapply free_slip_simulation; eauto; [apply (predefined_negate name ord S HS)|apply (predefined_axes name ord S HS H1)|].
  intros x i Hlk. destruct Hgeo as [H2|(a & Ha & HF)]; [apply (smooth_2d L S fluid x i (proj1 HP) H2 Hlk)|apply (plane_smooth L S fluid a x i (proj1 HP) Ha HF Hlk)].
Qed.
Print Assumptions C23_simulation_conserves_mass_partial.
Example C23_example : exists data, free_slip_init (torus ex19_N) D2Q9_walberla (torus_links ex19_N D2Q9_walberla ex19_fluid) (exist _ [1; 0]%Z eq_refl, 5%nat) = Ok data /\
  (forall d z, In d D2Q9_walberla -> In z d -> (Z.abs z <= 1)%Z).
Proof.
  eexists. split; [vm_compute; reflexivity|]. intros d z Hd Hz.
  assert (G : forallb (forallb (fun z => Z.leb (Z.abs z) 1)) D2Q9_walberla = true) by (vm_compute; reflexivity).
  rewrite forallb_forall in G. specialize (G d Hd). rewrite forallb_forall in G. specialize (G z Hz). now apply Z.leb_le.
Qed.

(* In three dimensions a diagonal link at an edge can take its population from a cell that is not fluid. *)
Definition ex23_N : list positive := [4; 4; 4]%positive.
Definition ex23_fluid (x : cell (torus ex23_N)) : bool := existsb (vec_eqb (proj1_sig x)) [[0; 0; 0]; [1; 0; 0]; [0; 1; 0]]%Z.
Definition ex23_x : cell (torus ex23_N) := exist _ [0; 0; 0]%Z eq_refl.
Theorem C23_edge_3d_refuted : exists i data o k,
  predefined_stencils "D3Q27" "walberla" = Ok D3Q27_walberla /\ is_link D3Q27_walberla ex23_fluid (ex23_x, i) /\
  free_slip_init (torus ex23_N) D3Q27_walberla (torus_links ex23_N D3Q27_walberla ex23_fluid) (ex23_x, i) = Ok data /\
  b_reads (free_slip_data D3Q27_walberla data i) = [FOut o k] /\ ex23_fluid (shift ex23_x o) = false.
Proof.
  eexists 19%nat, _, _, _. split; [vm_compute; reflexivity|]. split; [split; [reflexivity|split; [apply Nat.ltb_lt; vm_compute; reflexivity|vm_compute; reflexivity]]|].
  split; [vm_compute; reflexivity|]. split; [reflexivity|]. vm_compute. reflexivity.
Qed.
Print Assumptions C23_edge_3d_refuted.
(* A free slip wall meeting another boundary: only the links of this boundary are known to the initialisation, so the cell behind
   the other wall is taken for fluid.  Cell (2,2): wall to the right and corner cell free slip, wall above no-slip. *)
Definition ex23b_N : list positive := [4; 4]%positive.
Definition ex23b_fluid (x : cell (torus ex23b_N)) : bool := (Z.ltb (nth 0 (proj1_sig x) 0%Z) 3 && Z.ltb (nth 1 (proj1_sig x) 0%Z) 3)%bool.
Definition ex23b_free_slip (x : cell (torus ex23b_N)) : bool := Z.eqb (nth 0 (proj1_sig x) 0%Z) 3.
Definition ex23b_links := filter (fun l => ex23b_free_slip (shift (fst l) (dir D2Q9_walberla (snd l)))) (torus_links ex23b_N D2Q9_walberla ex23b_fluid).
Definition ex23b_x : cell (torus ex23b_N) := exist _ [2; 2]%Z eq_refl.
Theorem C23_mixed_corner_refuted : exists i data o k, In (ex23b_x, i) ex23b_links /\
  free_slip_init (torus ex23b_N) D2Q9_walberla ex23b_links (ex23b_x, i) = Ok data /\
  b_reads (free_slip_data D2Q9_walberla data i) = [FOut o k] /\ ex23b_fluid (shift ex23b_x o) = false.
Proof.
  eexists 6%nat, _, _, _. split.
  - unfold ex23b_links. apply filter_In. split; [|vm_compute; reflexivity]. apply torus_links_spec. split; [reflexivity|]. split; [cbn; lia|vm_compute; reflexivity].
  - split; [vm_compute; reflexivity|]. split; [reflexivity|]. vm_compute. reflexivity.
Qed.
Print Assumptions C23_mixed_corner_refuted.
