(* C63: concentrations carried by a prescribed flow stay within their bounds *)
From Coq Require Import String List ZArith QArith Qreals Bool Arith Reals Lra Lia.
From Verif Require Import StencilModel StencilProofs StencilProofs2 AccessModel AccessProofs StreamModel StreamSpec StreamProofs StreamProofs2 GridModel GridProofs InbProofs RealLib LinLib TransSpec TransModel TransProofs EqModel EqSpec MomModel ModeModel ModeSpec CollModel CollSpec CollProofs CollProofs4 CollProofs5 PropsEq PropsTrans PropsColl IniModel BoundModel BoundSpec BoundProofs BoundProofs2 BoundProofs4 BoundProofs6 BoundProofs9 PropsBound ChanSpec ChanProofs5 PropsChan StabProofs2 AdvSpec AdvProofs AdvProofs2.
Import ListNotations.
Local Open Scope string_scope.
Local Open Scope R_scope.

(* the collision with a velocity field as input, one rate and an equilibrium of first or second order *)
Theorem C63_collision : forall name ord S ws exps ps P Minv Pinv Mpinv zc dev (second : bool) fwd bwd omega v f,
  method_setup name ord S ws exps ps P Minv Pinv Mpinv ->
  raw_transform S exps ps P Minv Pinv Mpinv (background S ws zc dev) fwd bwd -> (dev = true -> zc = true) -> length f = length S -> length v = dimD S ->
  exists f', raw_input_collision (dimD S) S ps zc true (discrete_raw_moments S true dev (Some (if second then 2 else 1)%Z)) fwd bwd (repeat omega (length ps)) None (Some v) f = Ok f' /\
    length f' = length S /\ concentration zc f' = concentration zc f /\
    (forall i, (i < length S)%nat -> population zc (map Q2R ws) f' i =
       (1 - omega) * population zc (map Q2R ws) f i + omega * (nth i (map Q2R ws) 0 * (concentration zc f * share second (nth i S []) v))).
Proof.
  intros name ord S ws exps ps P Minv Pinv Mpinv zc dev second fwd bwd omega v f HM HT Hdz Hf Hv. pose proof HM as [X1 X2 _ _ _ _ _].
  destruct (prescribed_velocity_collision name ord S ws X1 X2 exps ps P Minv Pinv Mpinv HM zc dev true second fwd bwd omega v f HT Hdz Hf Hv) as (f' & E1 & E2 & E3).
  exists f'. split; [exact E1|]. split; [exact E2|]. split; [|exact E3]. destruct (weights_isotropic _ _ _ _ X1 X2) as [_ Hiso].
  rewrite <- (population_sum _ S _ zc f' Hiso E2), <- (population_sum _ S _ zc f Hiso Hf).
  rewrite <- (relaxed_sum (length S) (fun i => nth i (map Q2R ws) 0 * share second (nth i S []) v) omega (share_sum (dimD S) S _ second v Hiso Hv) (population zc (map Q2R ws) f)).
  apply rsum_ext. intros i Hi. apply in_seq in Hi. rewrite E3 by lia. unfold relaxed. rewrite (population_sum _ S _ zc f Hiso Hf). cbn [equilibrium_share]. ring.
Qed.
Print Assumptions C63_collision.

(* which rates and velocities are admissible: any rate up to one and slow flows *)
Theorem C63_slow_flows : forall name ord S ws (second : bool) omega v, predefined_stencils name ord = Ok S -> get_weights S = Ok ws -> 0 <= omega <= 1 ->
  (if second then square v <= 1 / 3 else rsum (map Rabs v) <= 1 / 3) -> admissible second S (map Q2R ws) omega v.
Proof.
  intros name ord S ws second omega v HS HW Ho Hv. split; [lra|]. intros i Hi.
  assert (P : 0 <= share second (nth i S []) v).
  { apply slow_share; [|exact Hv]. intros a. apply (predefined_near name ord S ws a HS HW). apply nth_In. exact Hi. }
  split; [exact P|]. pose proof (weights_nonneg S ws i HW) as W. assert (0 <= nth i (map Q2R ws) 0 * share second (nth i S []) v) by (now apply Rmult_le_pos). nra.
Qed.
Print Assumptions C63_slow_flows.

(* the condition is sharp: otherwise some cell without negative populations gets one *)
Theorem C63_rates_sharp : forall name ord S ws exps ps P Minv Pinv Mpinv zc dev (second : bool) fwd bwd omega v,
  method_setup name ord S ws exps ps P Minv Pinv Mpinv ->
  raw_transform S exps ps P Minv Pinv Mpinv (background S ws zc dev) fwd bwd -> (dev = true -> zc = true) -> length v = dimD S -> 0 < omega ->
  ((forall f f', length f = length S -> (forall i, (i < length S)%nat -> 0 <= population zc (map Q2R ws) f i) ->
      raw_input_collision (dimD S) S ps zc true (discrete_raw_moments S true dev (Some (if second then 2 else 1)%Z)) fwd bwd (repeat omega (length ps)) None (Some v) f = Ok f' ->
      forall i, (i < length S)%nat -> 0 <= population zc (map Q2R ws) f' i)
   <-> forall i, (i < length S)%nat -> 0 <= nth i (map Q2R ws) 0 * share second (nth i S []) v /\ omega * (1 - nth i (map Q2R ws) 0 * share second (nth i S []) v) <= 1).
Proof.
  intros name ord S ws exps ps P Minv Pinv Mpinv zc dev second fwd bwd omega v HM HT Hdz Hv Ho. pose proof HM as [X1 X2 _ _ _ _ _]. destruct (weights_isotropic _ _ _ _ X1 X2) as [_ Hiso].
  pose proof (proj1 Hiso) as Lw. split.
  - intros H. assert (K : forall k i, (k < length S)%nat -> (i < length S)%nat -> 0 <= (1 - omega) * (if Nat.eqb i k then 1 else 0) + omega * (nth i (map Q2R ws) 0 * share second (nth i S []) v)).
    { intros k i Hk Hi. set (f := map (fun j => (if Nat.eqb j k then 1 else 0) - offset zc (map Q2R ws) j) (seq 0 (length S))).
      assert (Lf : length f = length S) by (unfold f; now rewrite map_length, seq_length).
      assert (Pf : forall j, (j < length S)%nat -> population zc (map Q2R ws) f j = if Nat.eqb j k then 1 else 0) by (intros j Hj; unfold population, f; rewrite nth_map_seq by exact Hj; ring).
      assert (Cf : concentration zc f = 1).
      { rewrite <- (population_sum _ S _ zc f Hiso Lf). rewrite (rsum_ext _ (fun j => 1 * delta j k)) by (intros j Hj; apply in_seq in Hj; rewrite Pf by lia; unfold delta; ring). apply (CollProofs2.rsum_delta (fun _ => 1)). exact Hk. }
      destruct (C63_collision name ord S ws exps ps P Minv Pinv Mpinv zc dev second fwd bwd omega v f HM HT Hdz Lf Hv) as (f' & E1 & _ & _ & E2).
      assert (Pos : 0 <= population zc (map Q2R ws) f' i) by (apply (H f f' Lf); auto; intros j Hj; rewrite Pf by exact Hj; destruct (Nat.eqb j k); lra).
      rewrite E2, Pf, Cf in Pos by exact Hi. rewrite Rmult_1_l in Pos. exact Pos. }
    intros i Hi. split.
    + assert (exists k, (k < length S)%nat /\ k <> i) as (k & Hk & Nk).
      { pose proof (predefined_two name ord S X1).
        destruct i as [|i]; [exists 1%nat; lia|exists 0%nat; lia]. }
      pose proof (K k i Hk Hi) as Kk. destruct (Nat.eqb_spec i k); [congruence|]. apply Rmult_le_reg_l with omega; [exact Ho|]. lra.
    + pose proof (K i i Hi Hi) as Ki. rewrite Nat.eqb_refl in Ki. lra.
  - intros H f f' Lf Pf E i Hi. destruct (C63_collision name ord S ws exps ps P Minv Pinv Mpinv zc dev second fwd bwd omega v f HM HT Hdz Lf Hv) as (f'' & E1 & _ & _ & E2).
    rewrite E in E1. injection E1 as <-. rewrite E2 by exact Hi.
    pose proof (relaxed_nonneg (length S) (fun i => nth i (map Q2R ws) 0 * share second (nth i S []) v) omega (fun i Hi => proj1 (H i Hi)) ltac:(lra) (fun i Hi => proj2 (H i Hi)) _ Pf i Hi) as R.
    unfold relaxed in R. rewrite (population_sum _ S _ zc f Hiso Lf) in R. lra.
Qed.
Print Assumptions C63_rates_sharp.

(* ---------- simulations ---------- *)
(* a simulation of a concentration: velocities and rates may differ from cell to cell and step to step *)
Record transport (name ord : string) (L : lattice) (S : stencil) (ws : list Q) (exps : list (list nat)) (ps : list poly) (P Minv Pinv Mpinv : mat) (zc dev second : bool)
  (fwd bwd : list R -> res (list R)) (omega : nat -> cell L -> R) (v : nat -> cell L -> list R) (p : pattern) (t : timestep) (fluid : cell L -> bool)
  (xs0 : list (cell L)) (xs : nat -> list (cell L)) (links : nat -> list (link L)) (C : nat -> cell L -> list R -> list R) (B : nat -> cell L -> nat -> brule R) : Prop := {
  t_method : method_setup name ord S ws exps ps P Minv Pinv Mpinv;
  t_transform : raw_transform S exps ps P Minv Pinv Mpinv (background S ws zc dev) fwd bwd;
  t_storage : dev = true -> zc = true;
  t_pattern : supported p (ldim L) S t;
  t_initial : forall x, fluid x = true -> In x xs0;
  t_once : forall n, NoDup (xs n);
  t_cells : forall n x, In x (xs n) <-> fluid x = true;
  t_links : forall n l, In l (links n) <-> is_link S fluid l;
  t_velocity : forall n x, length (v n x) = dimD S;
  t_admissible : forall n x, fluid x = true -> admissible second S (map Q2R ws) (omega n x) (v n x);
  t_collision : forall n x f, length f = length S ->
    raw_input_collision (dimD S) S ps zc true (discrete_raw_moments S true dev (Some (if second then 2 else 1)%Z)) fwd bwd (repeat (omega n x) (length ps)) None (Some (v n x)) f = Ok (C n x f);
  t_walls : forall n, passes_on S (map Q2R ws) fluid (B n) }.
Lemma transport_collision name ord L S ws exps ps P Minv Pinv Mpinv zc dev second fwd bwd omega v p t fluid xs0 xs links C B :
  transport name ord L S ws exps ps P Minv Pinv Mpinv zc dev second fwd bwd omega v p t fluid xs0 xs links C B ->
  forall n x f, length f = length S -> length (C n x f) = length S /\
    forall i, (i < length S)%nat -> population zc (map Q2R ws) (C n x f) i = (1 - omega n x) * population zc (map Q2R ws) f i + omega n x * (nth i (map Q2R ws) 0 * (concentration zc f * share second (nth i S []) (v n x))).
Proof.
  intros [HM HT Hdz HP H0 Hnd Hxs Hl Hv Ha HC HB] n x f Hf.
  destruct (C63_collision name ord S ws exps ps P Minv Pinv Mpinv zc dev second fwd bwd (omega n x) (v n x) f HM HT Hdz Hf (Hv n x)) as (f' & E1 & E2 & _ & E3).
  rewrite (HC n x f Hf) in E1. injection E1 as <-. split; [exact E2|exact E3].
Qed.
Lemma transport_simulates name ord L S ws exps ps P Minv Pinv Mpinv zc dev second fwd bwd omega v p t fluid xs0 xs links C B f0 m_src m_tmp :
  transport name ord L S ws exps ps P Minv Pinv Mpinv zc dev second fwd bwd omega v p t fluid xs0 xs links C B -> (forall x, length (f0 x) = length S) ->
  forall n x, fluid x = true -> simulate L R p t S xs0 xs links C B f0 m_src m_tmp n x = Ok (post 0 S fluid C B f0 n x).
Proof.
  intros HX Hf n x Hx. pose proof (transport_collision _ _ _ _ _ _ _ _ _ _ _ _ _ _ _ _ _ _ _ _ _ _ _ _ _ _ HX) as HC'. destruct HX as [HM HT Hdz HP H0 Hnd Hxs Hl Hv Ha HC HB].
  apply simulate_correct; auto.
  - intros m y f Lf. now apply HC'.
  - intros m y i a Hy Hin. destruct (HB m y i Hy) as (a' & Ea & Ra & _). rewrite Ea in Hin. destruct Hin as [<-|[]]. exact Ra.
Qed.

(* the walls: bounce back, and outflow and mirror walls where the cells they read are fluid *)
Theorem C63_walls : forall (L : lattice) (S : stencil) ws inv mirrored a (fluid : cell L -> bool) (B : cell L -> nat -> brule R), symmetric_stencil (ldim L) S -> get_weights S = Ok ws ->
  inverse_dirs S = Ok inv -> (forall d, In d S -> In (negate_at a d) S) -> (a < ldim L)%nat -> mirrored_dirs S a = Ok mirrored ->
  (forall x i, is_link S fluid (x, i) -> B x i = no_slip S i \/
    (exists normal, B x i = simple_outflow S inv normal i /\ length normal = ldim L /\ fluid (shift x (tangential S normal i)) = true) \/
    (exists normal, B x i = free_slip S inv mirrored normal i /\ length normal = ldim L /\ fluid (shift x (vadd (offset_of S i) normal)) = true)) ->
  passes_on S (map Q2R ws) fluid B.
Proof.
  intros L S ws inv mirrored a fluid B HS HW Hinv Hneg Ha Hmir HB x i Hl. rewrite (inverse_dirs_ok (ldim L) S HS) in Hinv. injection Hinv as <-.
  assert (Inv : forall k, (k < length S)%nat -> tget (map (opp S) (seq 0 (length S))) k = opp S k) by (intros k Hk; now apply tget_inverse).
  pose proof Hl as (Fx & Hi & _). cbn [fst snd] in *. assert (Ld : length (offset_of S i) = ldim L) by (apply HS, nth_In; exact Hi).
  destruct (HB x i Hl) as [E|[(normal & E & Ln & Hf)|(normal & E & Ln & Hf)]]; rewrite E.
  - exists (FOut (here S) i). split; [reflexivity|]. split; [|split; reflexivity]. cbn [readable]. unfold here. rewrite (dimD_D (ldim L) S HS), shift_zero. repeat split; auto. apply vzero_length.
  - exists (FOut (tangential S normal i) (tget (map (opp S) (seq 0 (length S))) i)). split; [reflexivity|]. rewrite (Inv i Hi). split; [|split; [|reflexivity]].
    + cbn [readable]. repeat split; [apply (opp_lt (ldim L) S HS i Hi)| |exact Hf]. unfold tangential. rewrite vadd_length by (rewrite vneg_length; congruence). exact Ld.
    + cbn [acc_index]. apply (weights_opp (ldim L) S ws i HS HW Hi).
  - destruct (mirrored_ok (ldim L) S a HS Hneg Ha) as (M & EM & LM & HMi). rewrite Hmir in EM. injection EM as <-. destruct (HMi i Hi) as [M1 M2].
    exists (FOut (vadd (offset_of S i) normal) (tget (map (opp S) (seq 0 (length S))) (tget mirrored i))). split; [reflexivity|]. rewrite (Inv _ M1). split; [|split; [|reflexivity]].
    + cbn [readable]. repeat split; [apply (opp_lt (ldim L) S HS _ M1)| |exact Hf]. rewrite vadd_length by congruence. exact Ld.
    + cbn [acc_index]. rewrite (weights_opp (ldim L) S ws _ HS HW M1). apply (weights_speed S ws); auto. rewrite M2. apply abs_sum_negate.
Qed.
Print Assumptions C63_walls.

(* no negative populations and no negative concentrations, ever *)
Theorem C63_positive : forall name ord L S ws exps ps P Minv Pinv Mpinv zc dev second fwd bwd omega v p t fluid xs0 xs links C B f0 m_src m_tmp,
  transport name ord L S ws exps ps P Minv Pinv Mpinv zc dev second fwd bwd omega v p t fluid xs0 xs links C B -> (forall x, length (f0 x) = length S) ->
  (forall x i, fluid x = true -> (i < length S)%nat -> 0 <= population zc (map Q2R ws) (f0 x) i) ->
  forall n x, fluid x = true -> exists f, simulate L R p t S xs0 xs links C B f0 m_src m_tmp n x = Ok f /\
    0 <= concentration zc f /\ forall i, (i < length S)%nat -> 0 <= population zc (map Q2R ws) f i.
Proof.
  intros name ord L S ws exps ps P Minv Pinv Mpinv zc dev second fwd bwd omega v p t fluid xs0 xs links C B f0 m_src m_tmp HX Hf Hpos n x Hx.
  exists (post 0 S fluid C B f0 n x). split; [apply (transport_simulates _ _ _ _ _ _ _ _ _ _ _ _ _ _ _ _ _ _ _ _ _ _ _ _ _ _ _ _ _ HX Hf n x Hx)|].
  pose proof (transport_collision _ _ _ _ _ _ _ _ _ _ _ _ _ _ _ _ _ _ _ _ _ _ _ _ _ _ HX) as HC'. pose proof HX as [HM HT Hdz HP H0 Hnd Hxs Hl Hv Ha HC HB]. pose proof HM as [X1 X2 _ _ _ _ _].
  destruct (weights_isotropic _ _ _ _ X1 X2) as [_ Hiso].
  assert (A : forall i, (i < length S)%nat -> 0 <= population zc (map Q2R ws) (post 0 S fluid C B f0 n x) i).
  { intros i Hi. pose proof (envelope name ord L S ws X1 X2 (proj1 HP) zc second fluid omega v C B HC' Ha (repeat 0 (dimD S)) 1 0 f0 HB Hf (repeat_length _ _) (or_introl eq_refl)) as E.
    replace (population zc (map Q2R ws) (post 0 S fluid C B f0 n x) i) with (1 * (population zc (map Q2R ws) (post 0 S fluid C B f0 n x) i - 0 * (nth i (map Q2R ws) 0 * share second (nth i S []) (repeat 0 (dimD S))))) by ring.
    apply E; auto. intros y j Fy Hj. specialize (Hpos y j Fy Hj). lra. }
  split; [|exact A]. rewrite <- (population_sum _ S _ zc _ Hiso); [apply rsum_nonneg; intros i Hi; apply in_seq in Hi; apply A; lia|].
  apply post_length; auto. intros m y g Hg. now apply HC'.
Qed.
Print Assumptions C63_positive.

(* larger concentrations stay larger *)
Theorem C63_comparison : forall name ord L S ws exps ps P Minv Pinv Mpinv zc dev second fwd bwd omega v p t fluid xs0 xs links C B f0 g0 m_src m_tmp,
  transport name ord L S ws exps ps P Minv Pinv Mpinv zc dev second fwd bwd omega v p t fluid xs0 xs links C B ->
  (forall x, length (f0 x) = length S) -> (forall x, length (g0 x) = length S) ->
  (forall x i, fluid x = true -> (i < length S)%nat -> nth i (f0 x) 0 <= nth i (g0 x) 0) ->
  forall n x, fluid x = true -> exists f g, simulate L R p t S xs0 xs links C B f0 m_src m_tmp n x = Ok f /\ simulate L R p t S xs0 xs links C B g0 m_src m_tmp n x = Ok g /\
    concentration zc f <= concentration zc g /\ forall i, (i < length S)%nat -> nth i f 0 <= nth i g 0.
Proof.
  intros name ord L S ws exps ps P Minv Pinv Mpinv zc dev second fwd bwd omega v p t fluid xs0 xs links C B f0 g0 m_src m_tmp HX Hf Hg Hle n x Hx.
  exists (post 0 S fluid C B f0 n x), (post 0 S fluid C B g0 n x).
  split; [apply (transport_simulates _ _ _ _ _ _ _ _ _ _ _ _ _ _ _ _ _ _ _ _ _ _ _ _ _ _ _ _ _ HX Hf n x Hx)|]. split; [apply (transport_simulates _ _ _ _ _ _ _ _ _ _ _ _ _ _ _ _ _ _ _ _ _ _ _ _ _ _ _ _ _ HX Hg n x Hx)|].
  pose proof (transport_collision _ _ _ _ _ _ _ _ _ _ _ _ _ _ _ _ _ _ _ _ _ _ _ _ _ _ HX) as HC'. pose proof HX as [HM HT Hdz HP H0 Hnd Hxs Hl Hv Ha HC HB]. pose proof HM as [X1 X2 _ _ _ _ _].
  assert (A : forall i, (i < length S)%nat -> nth i (post 0 S fluid C B f0 n x) 0 <= nth i (post 0 S fluid C B g0 n x) 0).
  { intros i Hi. apply (comparison L S ws X2 (proj1 HP) zc second fluid omega v C B HC' Ha f0 g0 HB Hf Hg Hle n x i Hx Hi). }
  split; [|exact A]. unfold concentration. apply Rplus_le_compat_r.
  rewrite <- (rsum_nth (post 0 S fluid C B f0 n x) (length S)), <- (rsum_nth (post 0 S fluid C B g0 n x) (length S)) by (apply post_length; auto; intros m y g Lg; now apply HC').
  apply rsum_le. intros i Hi. apply in_seq in Hi. apply A. lia.
Qed.
Print Assumptions C63_comparison.

(* maximum principle: between walls without flow, and in a uniform flow without walls, the concentration never leaves the range of the initial state *)
Theorem C63_range : forall name ord L S ws exps ps P Minv Pinv Mpinv zc dev second fwd bwd omega v p t fluid xs0 xs links C B f0 u0 lo hi m_src m_tmp,
  transport name ord L S ws exps ps P Minv Pinv Mpinv zc dev second fwd bwd omega v p t fluid xs0 xs links C B -> (forall x, length (f0 x) = length S) -> length u0 = dimD S ->
  (forall n x, fluid x = true -> v n x = u0) -> (u0 = repeat 0 (dimD S) \/ forall x, fluid x = true) ->
  (forall x i, fluid x = true -> (i < length S)%nat ->
     lo * (nth i (map Q2R ws) 0 * share second (nth i S []) u0) <= population zc (map Q2R ws) (f0 x) i <= hi * (nth i (map Q2R ws) 0 * share second (nth i S []) u0)) ->
  forall n x, fluid x = true -> exists f, simulate L R p t S xs0 xs links C B f0 m_src m_tmp n x = Ok f /\ lo <= concentration zc f <= hi /\
    forall i, (i < length S)%nat -> lo * (nth i (map Q2R ws) 0 * share second (nth i S []) u0) <= population zc (map Q2R ws) f i <= hi * (nth i (map Q2R ws) 0 * share second (nth i S []) u0).
Proof.
  intros name ord L S ws exps ps P Minv Pinv Mpinv zc dev second fwd bwd omega v p t fluid xs0 xs links C B f0 u0 lo hi m_src m_tmp HX Hf Lu Hvu Hu Hin n x Hx.
  exists (post 0 S fluid C B f0 n x). split; [apply (transport_simulates _ _ _ _ _ _ _ _ _ _ _ _ _ _ _ _ _ _ _ _ _ _ _ _ _ _ _ _ _ HX Hf n x Hx)|].
  pose proof (transport_collision _ _ _ _ _ _ _ _ _ _ _ _ _ _ _ _ _ _ _ _ _ _ _ _ _ _ HX) as HC'. pose proof HX as [HM HT Hdz HP H0 Hnd Hxs Hl Hv Ha HC HB]. pose proof HM as [X1 X2 _ _ _ _ _].
  destruct (weights_isotropic _ _ _ _ X1 X2) as [_ Hiso].
  assert (Hcase : forall c : R, c = 0 \/ (forall n x, fluid x = true -> v n x = u0) /\ (u0 = repeat 0 (dimD S) \/ forall l : link L, ~ is_link S fluid l)).
  { intros c. right. split; [exact Hvu|]. destruct Hu as [->|Hall]; [now left|]. right. intros l (_ & _ & E). rewrite Hall in E. discriminate. }
  pose proof (fun sigma c => envelope name ord L S ws X1 X2 (proj1 HP) zc second fluid omega v C B HC' Ha u0 sigma c f0 HB Hf Lu (Hcase c)) as E.
  assert (A : forall i, (i < length S)%nat -> lo * (nth i (map Q2R ws) 0 * share second (nth i S []) u0) <= population zc (map Q2R ws) (post 0 S fluid C B f0 n x) i <= hi * (nth i (map Q2R ws) 0 * share second (nth i S []) u0)).
  { intros i Hi. split.
    - assert (G : 0 <= 1 * (population zc (map Q2R ws) (post 0 S fluid C B f0 n x) i - lo * (nth i (map Q2R ws) 0 * share second (nth i S []) u0))) by (apply E; auto; intros y j Fy Hj; destruct (Hin y j Fy Hj); lra). lra.
    - assert (G : 0 <= (-1) * (population zc (map Q2R ws) (post 0 S fluid C B f0 n x) i - hi * (nth i (map Q2R ws) 0 * share second (nth i S []) u0))) by (apply E; auto; intros y j Fy Hj; destruct (Hin y j Fy Hj); lra). lra. }
  split; [|exact A]. rewrite <- (population_sum _ S _ zc (post 0 S fluid C B f0 n x) Hiso) by (apply post_length; auto; intros m y g Lg; now apply HC').
  pose proof (share_sum (dimD S) S (map Q2R ws) second u0 Hiso Lu) as One.
  split.
  - rewrite <- (Rmult_1_r lo), <- One, <- rsum_scal. apply rsum_le. intros i Hi. apply in_seq in Hi. apply A. lia.
  - rewrite <- (Rmult_1_r hi), <- One, <- rsum_scal. apply rsum_le. intros i Hi. apply in_seq in Hi. apply A. lia.
Qed.
Print Assumptions C63_range.

(* two runs between bounce-back walls never move apart *)
Theorem C63_contraction : forall name ord L S ws exps ps P Minv Pinv Mpinv zc dev second fwd bwd omega v p t fluid xs0 xs links C B cells f0 g0 m_src m_tmp,
  transport name ord L S ws exps ps P Minv Pinv Mpinv zc dev second fwd bwd omega v p t fluid xs0 xs links C B ->
  (forall n x i, is_link S fluid (x, i) -> B n x i = no_slip S i) -> NoDup cells -> (forall x, In x cells <-> fluid x = true) ->
  (forall x, length (f0 x) = length S) -> (forall x, length (g0 x) = length S) ->
  exists F G : nat -> cell L -> list R, F 0%nat = f0 /\ G 0%nat = g0 /\
    (forall n x, fluid x = true -> simulate L R p t S xs0 xs links C B f0 m_src m_tmp n x = Ok (F n x) /\ simulate L R p t S xs0 xs links C B g0 m_src m_tmp n x = Ok (G n x)) /\
    forall n, distance S cells (F (Datatypes.S n)) (G (Datatypes.S n)) <= distance S cells (F n) (G n).
Proof.
  intros name ord L S ws exps ps P Minv Pinv Mpinv zc dev second fwd bwd omega v p t fluid xs0 xs links C B cells f0 g0 m_src m_tmp HX HB' Hnc Hcl Hf Hg.
  exists (post 0 S fluid C B f0), (post 0 S fluid C B g0). split; [reflexivity|]. split; [reflexivity|].
  split; [intros n x Hx; split; [apply (transport_simulates _ _ _ _ _ _ _ _ _ _ _ _ _ _ _ _ _ _ _ _ _ _ _ _ _ _ _ _ _ HX Hf n x Hx)|apply (transport_simulates _ _ _ _ _ _ _ _ _ _ _ _ _ _ _ _ _ _ _ _ _ _ _ _ _ _ _ _ _ HX Hg n x Hx)]|].
  pose proof (transport_collision _ _ _ _ _ _ _ _ _ _ _ _ _ _ _ _ _ _ _ _ _ _ _ _ _ _ HX) as HC'. destruct HX as [HM HT Hdz HP H0 Hnd Hxs Hl Hv Ha HC HB]. pose proof HM as [X1 X2 _ _ _ _ _].
  set (links' := nodup (link_eq_dec L) (links 0%nat)).
  assert (HG : lists_geometry S fluid cells links') by (split; [exact Hnc|]; split; [exact Hcl|]; split; [apply NoDup_nodup|]; intros l; unfold links'; rewrite nodup_In; apply Hl).
  intros n. apply (contraction name ord L S ws X1 X2 (proj1 HP) zc second fluid omega v C B HC' Hv Ha cells links' f0 g0 HG HB' Hf Hg n).
Qed.
Print Assumptions C63_contraction.

(* a wall of fixed concentration does not keep the bounds: a cell surrounded by such walls ends up with a multiple of its concentration, counted from the other side *)
Theorem C63_dirichlet_refuted : forall name ord L S ws p t fluid xs0 xs links C B f0 (x : cell L) c phi m_src m_tmp,
  predefined_stencils name ord = Ok S -> get_weights S = Ok ws -> supported p (ldim L) S t -> (forall y, fluid y = true -> In y xs0) -> (forall n, NoDup (xs n)) ->
  (forall n y, In y (xs n) <-> fluid y = true) -> (forall n l, In l (links n) <-> is_link S fluid l) ->
  (forall n y f, length f = length S -> length (C n y f) = length S /\ rsum (C n y f) = rsum f) -> (forall y, length (f0 y) = length S) ->
  (forall y, fluid y = true <-> y = x) -> (forall i, (0 < i < length S)%nat -> fluid (shift x (dir S i)) = false) ->
  (forall n y i, (i < length S)%nat -> diffusion_dirichlet S (map Q2R ws) false c None i = Ok (B n y i)) ->
  (forall i, (i < length S)%nat -> nth i (f0 x) 0 = phi * nth i (map Q2R ws) 0) ->
  exists f, simulate L R p t S xs0 xs links C B f0 m_src m_tmp 1 x = Ok f /\
    concentration false f = 2 * (1 - nth 0 (map Q2R ws) 0) * c - (1 - 2 * nth 0 (map Q2R ws) 0) * phi.
Proof.
  intros name ord L S ws p t fluid xs0 xs links C B f0 x c phi m_src m_tmp HS HW HP H0 Hnd Hxs Hl HC Lf Hx Hwall HB Hf.
  pose proof (proj1 HP) as HSy. assert (ED : dimD S = ldim L) by (apply (dimD_D (ldim L) S HSy)). destruct (predefined_wf _ _ _ HS) as (_ & Hz & _). rewrite ED in Hz.
  assert (LS : (0 < length S)%nat) by (destruct S; [discriminate|cbn; lia]). assert (D0 : dir S 0 = vzero (ldim L)) by (destruct S; [discriminate|cbn in *; congruence]).
  assert (Fx : fluid x = true) by (now apply Hx).
  assert (EB : forall n y i, (i < length S)%nat -> B n y i = {| b_reads := [FOut (here S) i]; b_fun := fun l => 2 * nth i (map Q2R ws) 0 * c * 1 - nth 0 l 0 |}) by (intros n y i Hi; pose proof (HB n y i Hi) as E; cbn in E; now injection E as <-).
  exists (post 0 S fluid C B f0 1 x). split.
  { apply simulate_correct; auto.
    - intros n y f Hlf. now apply HC.
    - intros n y i a (Hy & Hi & _) Hin. cbn [fst snd] in *. rewrite (EB n y i Hi) in Hin. destruct Hin as [<-|[]]. cbn [readable]. unfold here. rewrite ED, shift_zero. repeat split; auto. apply vzero_length. }
  unfold concentration. change (post 0 S fluid C B f0 1 x) with (C 0%nat x (arriving S fluid (B 0%nat) f0 x)). rewrite (proj2 (HC _ _ _ (arriving_length _ _ _ _ _ _))). unfold arriving, rule_value.
  rewrite (rsum_ext _ (fun j => (2 * c - phi) * nth j (map Q2R ws) 0 + (2 * phi - 2 * c) * (nth j (map Q2R ws) 0 * delta j 0%nat))).
  - rewrite rsum_plus, !rsum_scal, (CollProofs2.rsum_delta (fun j => nth j (map Q2R ws) 0)) by exact LS.
    destruct (weights_isotropic _ _ _ _ HS HW) as [_ (Lw & W1 & _)]. rewrite (rsum_nth (map Q2R ws) (length S) Lw). rewrite (weights_sum S _ Lw W1). ring.
  - intros j Hj. apply in_seq in Hj. unfold delta. destruct (Nat.eqb_spec j 0) as [->|Nj].
    + assert (Vz : vneg (dir S 0) = vzero (ldim L)) by (rewrite D0; apply vneg_vzero). rewrite Vz, shift_zero, Fx. rewrite Hf by exact LS. ring.
    + assert (Ho : (opp S j < length S)%nat) by (apply (opp_lt (ldim L) S HSy j); lia).
      assert (No : opp S j <> 0%nat).
      { intros E. apply Nj. apply (dir_inj (ldim L) S HSy); [lia|exact LS|]. rewrite D0, <- (vneg_involutive (dir S j)), <- (dir_opp (ldim L) S HSy j), E, D0 by lia. apply vneg_vzero. }
      rewrite <- (dir_opp (ldim L) S HSy j) by lia. rewrite Hwall by lia. rewrite (EB _ _ _ Ho). cbn [b_fun b_reads map nth pacc_value]. unfold here. rewrite ED, shift_zero.
      rewrite Hf by exact Ho. rewrite (weights_opp (ldim L) S ws j HSy HW) by lia. ring.
Qed.
Print Assumptions C63_dirichlet_refuted.

(* methods that are not compressible add the same momentum whatever the concentration: out of nothing, negative concentrations are carried upstream *)
Theorem C63_incompressible_refuted : forall name ord S ws exps ps P Minv Pinv Mpinv zc dev fwd bwd omega v f,
  method_setup name ord S ws exps ps P Minv Pinv Mpinv ->
  raw_transform S exps ps P Minv Pinv Mpinv (background S ws zc dev) fwd bwd -> (dev = true -> zc = true) -> length f = length S -> length v = dimD S ->
  (forall i, (i < length S)%nat -> population zc (map Q2R ws) f i = 0) ->
  exists f', raw_input_collision (dimD S) S ps zc false (discrete_raw_moments S false dev (Some 1%Z)) fwd bwd (repeat omega (length ps)) None (Some v) f = Ok f' /\
    concentration zc f = 0 /\ concentration zc f' = 0 /\ (forall i, (i < length S)%nat -> population zc (map Q2R ws) f' i = 3 * omega * nth i (map Q2R ws) 0 * along (nth i S []) v) /\
    (sizeQ S <> 7%nat -> 0 < omega -> (exists a, nth a v 0 <> 0) -> exists i, (i < length S)%nat /\ population zc (map Q2R ws) f' i < 0).
Proof.
  intros name ord S ws exps ps P Minv Pinv Mpinv zc dev fwd bwd omega v f HM HT Hdz Hf Hv Hpop. pose proof HM as [X1 X2 _ _ _ _ _].
  destruct (prescribed_velocity_collision name ord S ws X1 X2 exps ps P Minv Pinv Mpinv HM zc dev false false fwd bwd omega v f HT Hdz Hf Hv) as (f' & E1 & E2 & E3).
  destruct (weights_isotropic _ _ _ _ X1 X2) as [Hdim Hiso].
  assert (C0 : concentration zc f = 0).
  { rewrite <- (population_sum _ S _ zc f Hiso Hf). rewrite (rsum_ext _ (fun _ => 0)) by (intros i Hi; apply in_seq in Hi; apply Hpop; lia). apply rsum_zero. }
  assert (Pf : forall i, (i < length S)%nat -> population zc (map Q2R ws) f' i = 3 * omega * nth i (map Q2R ws) 0 * along (nth i S []) v).
  { intros i Hi. rewrite E3, Hpop, C0 by exact Hi. unfold equilibrium_share, share. ring. }
  exists f'. split; [exact E1|]. split; [exact C0|]. split; [|split; [exact Pf|]].
  - rewrite <- (population_sum _ S _ zc f' Hiso E2).
    rewrite (rsum_ext _ (fun i => omega * (nth i (map Q2R ws) 0 * share false (nth i S []) v) - omega * nth i (map Q2R ws) 0)) by (intros i Hi; apply in_seq in Hi; rewrite Pf by lia; unfold share; ring).
    rewrite rsum_minus, !rsum_scal, (share_sum (dimD S) S _ false v Hiso Hv). destruct Hiso as (Lw & W1 & _). rewrite (rsum_nth (map Q2R ws) (length S) Lw), (weights_sum S _ Lw W1). ring.
  - intros H7 Ho (a & Ha). destruct (predefined_wf _ _ _ X1) as (HSy & _ & _).
    assert (La : (a < dimD S)%nat) by (destruct (Nat.lt_ge_cases a (dimD S)) as [G|G]; [exact G|exfalso; apply Ha, nth_overflow; lia]).
    destruct (upstream name ord S v a X1 Hv La Ha) as (i & Hi & Hneg). exists i. split; [exact Hi|]. rewrite Pf by exact Hi.
    pose proof (weights_positive S ws i X2 H7 Hi) as Wp. assert (0 < 3 * omega * nth i (map Q2R ws) 0) by (apply Rmult_lt_0_compat; lra). nra.
Qed.
Print Assumptions C63_incompressible_refuted.

(* ---------- concrete cases ---------- *)
(* a channel between walls, on eight by six cells, with a flow along it and any rate between 0 and 1 *)
Definition ex63_v (x : cell (torus ex57_N)) : list R := [IZR (nth 1 (proj1_sig x) 0%Z * (5 - nth 1 (proj1_sig x) 0%Z)) / 20; 0].
Definition ex63_Col (fwd bwd : list R -> res (list R)) (omega : R) (v : list R) (f : list R) : list R :=
  match raw_input_collision 2 D2Q9_walberla (map mono_poly exps_D2Q9) true true (discrete_raw_moments D2Q9_walberla true true (Some 1%Z)) fwd bwd (repeat omega 9) None (Some v) f with Ok g => g | Err _ => [] end.
Example C63_example : exists ws P Minv Pinv Mpinv fwd bwd,
  transport "D2Q9" "walberla" (torus ex57_N) D2Q9_walberla ws exps_D2Q9 (map mono_poly exps_D2Q9) P Minv Pinv Mpinv true true false fwd bwd (fun _ _ => 9 / 10) (fun _ x => ex63_v x) AA EVEN
    (wall_fluid ex57_N 1 4) (torus_cells ex57_N) (fun _ => torus_fluid_cells ex57_N (wall_fluid ex57_N 1 4)) (fun _ => torus_links ex57_N D2Q9_walberla (wall_fluid ex57_N 1 4))
    (fun _ x => ex63_Col fwd bwd (9 / 10) (ex63_v x)) (fun _ _ i => no_slip D2Q9_walberla i) /\
  (forall f0, (forall x, length (f0 x) = 9%nat) -> (forall x i, wall_fluid ex57_N 1 4 x = true -> (i < 9)%nat -> 0 <= population true (map Q2R ws) (f0 x) i) ->
    forall n x, wall_fluid ex57_N 1 4 x = true -> exists f,
      simulate (torus ex57_N) R AA EVEN D2Q9_walberla (torus_cells ex57_N) (fun _ => torus_fluid_cells ex57_N (wall_fluid ex57_N 1 4)) (fun _ => torus_links ex57_N D2Q9_walberla (wall_fluid ex57_N 1 4))
        (fun _ x => ex63_Col fwd bwd (9 / 10) (ex63_v x)) (fun _ _ i => no_slip D2Q9_walberla i) f0 (fun _ _ => 0) (fun _ _ => 0) n x = Ok f /\ 0 <= concentration true f).
Proof.
  destruct method_setup_D2Q9 as (ws & Minv & P & Pinv & Mpinv & HS & _). pose proof HS as [Hpre Hwt _ _ _ _ _].
  pose proof (raw_by_chimera D2Q9_walberla exps_D2Q9 (map mono_poly exps_D2Q9) P Minv Pinv Mpinv (background D2Q9_walberla ws true true)) as HT. cbv zeta in HT.
  set (fwd := fun f => _) in HT. set (bwd := fun m => _) in HT. exists ws, P, Minv, Pinv, Mpinv, fwd, bwd.
  assert (HSy : symmetric_stencil 2 D2Q9_walberla) by (apply (predefined_wf _ _ _ Hpre)).
  destruct (torus_fluid_cells_spec ex57_N (wall_fluid ex57_N 1 4)) as [Nd Sp].
  assert (T : transport "D2Q9" "walberla" (torus ex57_N) D2Q9_walberla ws exps_D2Q9 (map mono_poly exps_D2Q9) P Minv Pinv Mpinv true true false fwd bwd (fun _ _ => 9 / 10) (fun _ x => ex63_v x) AA EVEN
    (wall_fluid ex57_N 1 4) (torus_cells ex57_N) (fun _ => torus_fluid_cells ex57_N (wall_fluid ex57_N 1 4)) (fun _ => torus_links ex57_N D2Q9_walberla (wall_fluid ex57_N 1 4))
    (fun _ x => ex63_Col fwd bwd (9 / 10) (ex63_v x)) (fun _ _ i => no_slip D2Q9_walberla i)).
  { split; auto.
    - split; [exact HSy|discriminate].
    - intros x ?. apply torus_cells_all.
    - intros ? l. apply torus_links_spec.
    - intros _ x Hx. apply (C63_slow_flows "D2Q9" "walberla" D2Q9_walberla ws); auto; [lra|]. unfold ex63_v. unfold wall_fluid in Hx. apply andb_prop in Hx as [X1 X2]. apply Z.leb_le in X1, X2.
      set (y := nth 1 (proj1_sig x) 0%Z) in *. change (Z.of_nat 4) with 4%Z in X2. cbn [map]. rewrite !rsum_cons. cbn [rsum fold_right].
      assert (y = 1 \/ y = 2 \/ y = 3 \/ y = 4)%Z as Y by lia. rewrite Rabs_R0. assert (Z6 : (0 <= y * (5 - y) <= 6)%Z) by (destruct Y as [Y|[Y|[Y|Y]]]; rewrite Y; lia). destruct Z6 as [Z1 Z2]. apply IZR_le in Z1, Z2. rewrite Rabs_right by lra. lra.
    - intros _ x i (Hx & Hi & _). exists (FOut (here D2Q9_walberla) i). split; [reflexivity|]. split; [|split; reflexivity]. cbn [fst snd] in *. cbn [readable]. unfold here.
      change (dimD D2Q9_walberla) with (ldim (torus ex57_N)). rewrite shift_zero. repeat split; [exact Hi|exact Hx]. }
  split; [exact T|]. intros f0 L0 P0 n x Hx. destruct (C63_positive _ _ _ _ _ _ _ _ _ _ _ _ _ _ _ _ _ _ _ _ _ _ _ _ _ _ f0 (fun _ _ => 0) (fun _ _ => 0) T L0 P0 n x Hx) as (f & E & C & _). exists f. split; [exact E|exact C].
Qed.
(* a single cell of 3 x 3 cells, concentration 1, closed by walls of concentration 0: after one step its concentration is -1/9 *)
Definition ex63_N : list positive := [3; 3]%positive.
Definition ex63_fluid (x : cell (torus ex63_N)) : bool := ((nth 0 (proj1_sig x) 0 =? 1) && (nth 1 (proj1_sig x) 0 =? 1))%Z.
Example C63_dirichlet_case : exists ws B, get_weights D2Q9_walberla = Ok ws /\ (forall i, (i < 9)%nat -> diffusion_dirichlet D2Q9_walberla (map Q2R ws) false 0 None i = Ok (B i)) /\
  forall x, ex63_fluid x = true -> exists f,
    simulate (torus ex63_N) R PULL BOTH D2Q9_walberla (torus_cells ex63_N) (fun _ => torus_fluid_cells ex63_N ex63_fluid) (fun _ => torus_links ex63_N D2Q9_walberla ex63_fluid)
      (fun _ _ f => f) (fun _ _ i => B i) (fun _ => map Q2R ws) (fun _ _ => 0) (fun _ _ => 0) 1 x = Ok f /\ concentration false f = - (1 / 9).
Proof.
  destruct method_setup_D2Q9 as (ws & Minv & P & Pinv & Mpinv & HS & _). pose proof HS as [Hpre Hwt _ _ _ _ _].
  exists ws, (fun i => {| b_reads := [FOut (here D2Q9_walberla) i]; b_fun := fun l => 2 * nth i (map Q2R ws) 0 * 0 * 1 - nth 0 l 0 |}). split; [exact Hwt|]. split; [reflexivity|]. intros x Hx.
  assert (HSy : symmetric_stencil 2 D2Q9_walberla) by (apply (predefined_wf _ _ _ Hpre)).
  destruct (torus_fluid_cells_spec ex63_N ex63_fluid) as [Nd Sp].
  assert (W0 : nth 0 (map Q2R ws) 0 = 4 / 9).
  { vm_compute in Hwt. injection Hwt as <-. cbn [map nth]. unfold Q2R. cbn. lra. }
  assert (Lw : length (map Q2R ws) = 9%nat) by (vm_compute in Hwt; injection Hwt as <-; reflexivity).
  assert (Ex : proj1_sig x = [1; 1]%Z).
  { unfold ex63_fluid in Hx. apply andb_prop in Hx as [X1 X2]. apply Z.eqb_eq in X1, X2. destruct x as [x Px]. cbn [proj1_sig] in *. pose proof (in_grid_length _ _ Px) as Lx. destruct x as [|a [|b [|]]]; try discriminate Lx. cbn in X1, X2. now rewrite X1, X2. }
  destruct (C63_dirichlet_refuted "D2Q9" "walberla" (torus ex63_N) D2Q9_walberla ws PULL BOTH ex63_fluid (torus_cells ex63_N) (fun _ => torus_fluid_cells ex63_N ex63_fluid) (fun _ => torus_links ex63_N D2Q9_walberla ex63_fluid)
    (fun _ _ f => f) (fun _ _ i => {| b_reads := [FOut (here D2Q9_walberla) i]; b_fun := fun l => 2 * nth i (map Q2R ws) 0 * 0 * 1 - nth 0 l 0 |}) (fun _ => map Q2R ws) x 0 1 (fun _ _ => 0) (fun _ _ => 0)) as (f & E1 & E2); auto.
  - split; [exact HSy|exact I].
  - intros y ?. apply torus_cells_all.
  - intros ? l. apply torus_links_spec.
  - intros y. split; [|intros ->; exact Hx]. intros Hy. apply gcell_eq. rewrite Ex. unfold ex63_fluid in Hy. apply andb_prop in Hy as [X1 X2]. apply Z.eqb_eq in X1, X2.
    destruct y as [y Py]. cbn [proj1_sig] in *. pose proof (in_grid_length _ _ Py) as Lx. destruct y as [|a [|b [|]]]; try discriminate Lx. cbn in X1, X2. now rewrite X1, X2.
  - intros i Hi. unfold ex63_fluid, torus, grid, shift, gshift. cbn [proj1_sig]. rewrite Ex. change (length D2Q9_walberla) with 9%nat in Hi.
    do 9 (destruct i as [|i]; [first [lia|reflexivity]|]). lia.
  - intros i Hi. ring.
  - exists f. split; [exact E1|]. rewrite E2, W0. lra.
Qed.
