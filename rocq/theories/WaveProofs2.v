(* Reduction of a periodic flow in plane layers to the amplitudes of a wave. *)
From Coq Require Import String List ZArith QArith Qreals Bool Arith Reals Lra Lia.
From Verif Require Import StencilModel StencilProofs AccessModel AccessProofs GridModel GridProofs StreamModel StreamSpec StreamProofs StreamProofs2 RealLib LinLib EqSpec CollSpec CollProofs CollProofs2 EqProofs ChProofs2
  BoundModel BoundSpec BoundProofs BoundProofs2 InbProofs ChanSpec ChanProofs ChanProofs2 ChanProofs3 ChanProofs4 ChanProofs5 EqModel StencilProofs2 TransSpec TransModel MomModel CollModel CollProofs4 CollProofs5 PropsEq PropsColl WaveSpec WaveProofs.
Import ListNotations.
Local Open Scope R_scope.

Section Periodic.
  Context (N : list positive) (St : stencil) (b : nat) (q we wo : R) (Col : list R -> list R).
  Notation L := (torus N).
  Notation D := (ldim (torus N)).
  Hypothesis HSym : symmetric_stencil D St.
  Hypothesis Hb : (b < length N)%nat.
  Hypothesis Hnear : forall c, In c St -> (-1 <= nth b c 0 <= 1)%Z.
  Hypothesis Hcol : shear_collision D St b q we wo (rzero D) Col.
  Definition planes : Z := nth b (map Zpos N) 0%Z.
  Lemma planes_pos : (0 < planes)%Z.
  Proof. unfold planes. rewrite (nth_indep _ 0%Z (Zpos 1)) by (now rewrite map_length). rewrite map_nth. lia. Qed.
  Definition parr (t : Z -> list R) (k : Z) : list R := map (fun j => nth j (t ((k - nth b (dir St j) 0) mod planes)%Z) 0) (seq 0 (length St)).
  Fixpoint pline (t : Z -> list R) (n : nat) : Z -> list R := match n with O => t | S n' => fun k => Col (parr (pline t n') k) end.
  Definition plane (x : cell L) : Z := nth b (proj1_sig x) 0%Z.
  Lemma plane_shift x v : length v = D -> plane (shift x v) = ((plane x + nth b v 0) mod planes)%Z.
  Proof. intros Hv. unfold plane. change (proj1_sig (shift x v)) with (gshift_raw (torus_shape N) (proj1_sig x) v). rewrite gshift_nth by exact Hb. reflexivity. Qed.
  Lemma post_pline B f0 t n : (forall x, f0 x = t (plane x)) -> forall x, post 0 St (fun _ => true) (fun _ _ => Col) B f0 n x = pline t n (plane x).
  Proof.
    intros H0. induction n as [|n IH]; intros x; [apply H0|]. cbn [post pline]. f_equal. unfold parr. apply map_ext_in. intros j Hj. apply in_seq in Hj. cbv zeta.
    rewrite IH, plane_shift by (unfold vneg; rewrite map_length; apply HSym, dir_In; lia). rewrite nth_vneg. f_equal.
  Qed.
  Lemma parr_length t k : length (parr t k) = length St.
  Proof. unfold parr. now rewrite map_length, seq_length. Qed.
  Lemma lay_parr s g t k : length (t ((k - s) mod planes)%Z) = length St -> lay St b s g (parr t k) = lay St b s g (t ((k - s) mod planes)%Z).
  Proof.
    intros Hl. unfold lay. rewrite !fsum_index by (try exact Hl; apply parr_length). apply rsum_ext. intros j Hj. apply in_seq in Hj.
    change (nth j St []) with (dir St j). destruct (Z.eqb_spec (nth b (dir St j) 0%Z) s) as [E|E]; [|ring]. f_equal. unfold parr. set (G := fun j => _). rewrite (nth_indep _ 0 (G 0%nat)) by (rewrite map_length, seq_length; lia).
    rewrite (map_nth G), seq_nth by lia. unfold G. cbn [Nat.add]. now rewrite E.
  Qed.

  Context (kappa phi : R) (m : Z) (U A : list R).
  Hypothesis Hk : kappa * IZR planes = 2 * PI * IZR m.
  Definition angle (k : Z) : R := kappa * IZR k + phi.
  Lemma angle_mod k : cos (angle (k mod planes)) = cos (angle k) /\ sin (angle (k mod planes)) = sin (angle k).
  Proof.
    pose proof planes_pos as Hp. pose proof (Z.div_mod k planes ltac:(lia)) as E. set (d := (k / planes)%Z) in *. set (r := (k mod planes)%Z) in *.
    assert (EA : angle k = angle r + 2 * IZR (m * d) * PI).
    { unfold angle. rewrite E, plus_IZR, !mult_IZR. transitivity (kappa * IZR planes * IZR d + kappa * IZR r + phi); [ring|]. rewrite Hk. ring. }
    rewrite EA. clear. assert (P : forall z x, cos (x + 2 * IZR z * PI) = cos x /\ sin (x + 2 * IZR z * PI) = sin x).
    { assert (PN : forall (z : nat) x, cos (x + 2 * IZR (Z.of_nat z) * PI) = cos x /\ sin (x + 2 * IZR (Z.of_nat z) * PI) = sin x).
      { intros z x. rewrite <- INR_IZR_INZ. split; [apply cos_period|apply sin_period]. }
      intros z x. destruct (Z_le_gt_dec 0 z) as [H|H]; [rewrite <- (Z2Nat.id z H); apply PN|]. specialize (PN (Z.to_nat (- z)) (x + 2 * IZR z * PI)). rewrite Z2Nat.id in PN by lia. rewrite opp_IZR in PN.
      replace (x + 2 * IZR z * PI + 2 * - IZR z * PI) with x in PN by ring. destruct PN as [-> ->]. auto. }
    destruct (P (m * d)%Z (angle r)) as [-> ->]. auto.
  Qed.
  Definition is_wave (v : amp) (k : Z) (f : list R) : Prop :=
    at_rest_across St b q f /\ forall a, (a < D)%nat -> a <> b ->
      momentum f St a = nth a U 0 + nth a A 0 * (aj v * cos (angle k)) /\
      second_moment f St a b = nth a A 0 * (ap v * sin (angle k)) /\
      third_moment f St a b = nth a U 0 / 3 + nth a A 0 * (ak v * cos (angle k)).
  Lemma is_wave_mod v k f : is_wave v (k mod planes)%Z f <-> is_wave v k f.
  Proof. unfold is_wave. destruct (angle_mod k) as [-> ->]. reflexivity. Qed.
  Lemma wave_step v t : (forall k, (0 <= k < planes)%Z -> is_wave v k (t k)) -> forall k, (0 <= k < planes)%Z -> is_wave (wstep we wo (cos kappa) (sin kappa) v) k (Col (parr t k)).
  Proof.
    intros Ht k Hkr. pose proof planes_pos as Hp.
    assert (Hs : forall s, is_wave v (k - s)%Z (t ((k - s) mod planes)%Z)) by (intros s; apply is_wave_mod; apply Ht, Z.mod_pos_bound; lia).
    assert (Hl : forall s g, lay St b s g (parr t k) = lay St b s g (t ((k - s) mod planes)%Z)) by (intros s g; apply lay_parr; apply (Hs s)).
    assert (Hrest : at_rest_across St b q (parr t k)).
    { apply (rest_layers St b Hnear). rewrite !Hl. destruct (proj1 (rest_layers St b Hnear q _) (proj1 (Hs 1%Z))) as (_ & R1 & _ & _). destruct (proj1 (rest_layers St b Hnear q _) (proj1 (Hs 0%Z))) as (_ & _ & R0 & _).
      destruct (proj1 (rest_layers St b Hnear q _) (proj1 (Hs (-1)%Z))) as (_ & _ & _ & R2). split; [apply parr_length|]. auto. }
    destruct (Hcol _ Hrest) as [Hr' Hc]. split; [exact Hr'|]. intros a Ha Hab. destruct (Hc a Ha Hab) as (-> & -> & ->). rewrite nth_rzero.
    set (G := fun c => comp c a).
    assert (EJ : momentum (parr t k) St a = lay St b 1 G (parr t k) + lay St b 0 G (parr t k) + lay St b (-1) G (parr t k)) by (apply (lay_sum St b Hnear G)).
    assert (EP : second_moment (parr t k) St a b = lay St b 1 G (parr t k) - lay St b (-1) G (parr t k)) by (apply (lay_first St b Hnear G)).
    assert (EK : third_moment (parr t k) St a b = lay St b 1 G (parr t k) + lay St b (-1) G (parr t k)) by (apply (lay_second St b Hnear G)).
    rewrite EJ, EP, EK, !Hl.
    assert (M1 : forall f, lay St b 1 G f = (third_moment f St a b + second_moment f St a b) / 2).
    { intros f. rewrite (lay_moments St b Hnear 1 G f) by auto. unfold third_moment, second_moment, G. field. }
    assert (M2 : forall f, lay St b (-1) G f = (third_moment f St a b - second_moment f St a b) / 2).
    { intros f. rewrite (lay_moments St b Hnear (-1) G f) by auto. unfold third_moment, second_moment, G. field. }
    assert (M0 : forall f, lay St b 0 G f = momentum f St a - third_moment f St a b) by (intros f; apply (lay_zero St b Hnear G f)).
    rewrite M1, M2, M0. destruct (proj2 (Hs 1%Z) a Ha Hab) as (_ & -> & ->). destruct (proj2 (Hs 0%Z) a Ha Hab) as (-> & _ & ->). destruct (proj2 (Hs (-1)%Z) a Ha Hab) as (_ & -> & ->).
    assert (A0 : angle (k - 0) = angle k) by (f_equal; lia). assert (A1 : angle (k - 1) = angle k - kappa) by (unfold angle; rewrite minus_IZR; ring). assert (A2 : angle (k - -1) = angle k + kappa) by (unfold angle; rewrite minus_IZR; ring).
    rewrite A0, A1, A2, cos_minus, sin_minus, cos_plus, sin_plus. unfold wstep. cbn [aj ap ak]. repeat split; field.
  Qed.
  Lemma wave_line t n : (forall k, (0 <= k < planes)%Z -> is_wave {| aj := 1; ap := 0; ak := 1 / 3 |} k (t k)) ->
    forall k, (0 <= k < planes)%Z -> is_wave (waves we wo (cos kappa) (sin kappa) n) k (pline t n k).
  Proof. intros Ht. induction n as [|n IH]; [exact Ht|]. cbn [waves pline]. apply wave_step. exact IH. Qed.
End Periodic.

(* populations of an equilibrium with velocity along the planes *)
Lemma equilibrium_start name ord S ws b (zc compr dev : bool) order rho u p : predefined_stencils name ord = Ok S -> get_weights S = Ok ws -> sizeQ S <> 7%nat -> (PropsEq.eq_order order <= 2)%Z -> (b < dimD S)%nat ->
  (dev = true -> zc = true) -> length u = dimD S -> nth b u 0 = 0 -> EqModel.hydro_maxwellian S compr dev order rho u (1 / 3) = Ok p -> length p = length S ->
  shear_start (dimD S) S b (rho - (if zc then 1 else 0)) (map (Rmult (CollModel.reference_density compr rho)) u) (rsub p (PropsColl.background S ws zc dev)).
Proof.
  intros HS Hw H7 Ho Hb Hdz Hu Hub Hp Lp. destruct (StencilProofs2.predefined_wf _ _ _ HS) as (HSy & _ & _). assert (HD : Forall (fun c => length c = dimD S) S) by (apply Forall_forall; intros c Hc; apply HSy; exact Hc).
  pose proof (discrete_shear name ord S ws b compr dev order HS Hw H7 Ho Hb) as [Hy He]. destruct (Hy rho u Hu) as [Y0 Y1]. destruct (He rho u Hu Hub) as [Z1 Z2].
  assert (EV : forall e, CollProofs5.discrete_raw_moments S compr dev order rho u e = central_moment p S (rzero (dimD S)) e) by (intros e; unfold CollProofs5.discrete_raw_moments; now rewrite Hp). rewrite EV in Y0, Z1.
  pose proof (predefined_wall name ord S ws b HS Hw H7 Hb) as [[I0 [I1 [I2 [I3 I4]]]] _ _ _].
  set (bg := PropsColl.background S ws zc dev). set (k := if zc && negb dev then 1 else 0).
  assert (Lb : length bg = length S) by (unfold bg, PropsColl.background; destruct (zc && negb dev); [exact I0|apply rzero_length]).
  assert (BG : forall g, fsum bg S g = k * fsum (map Q2R ws) S g) by (intros g; unfold bg, k, PropsColl.background; destruct (zc && negb dev); [ring|rewrite CollProofs5.fsum_rzero; ring]).
  assert (FS : forall g, fsum (rsub p bg) S g = fsum p S g - k * fsum (map Q2R ws) S g) by (intros g; rewrite CollProofs7.fsum_rsub by congruence; now rewrite BG).
  assert (Kd : k + (if dev then 1 else 0) = if zc then 1 else 0) by (unfold k; destruct zc, dev; cbn; try ring; discriminate Hdz; reflexivity).
  assert (R0 : density p S = rho - (if dev then 1 else 0)) by (rewrite <- (raw_zero (dimD S) S p); exact Y0).
  assert (R2 : second_moment p S b b = (rho - (if dev then 1 else 0)) / 3) by (rewrite <- (raw_two (dimD S) S HD p b b Hb Hb); exact Z1).
  assert (R1 : forall a, (a < dimD S)%nat -> momentum p S a = (if compr then rho else 1) * nth a u 0) by (intros a Ha; rewrite <- (raw_one (dimD S) S HD p a Ha); rewrite <- EV; apply (Y1 a Ha)).
  split; [split; [rewrite rsub_length; lia|split; [|split]]|].
  - unfold density in *. rewrite FS, R0, I1. lra.
  - unfold momentum in *. rewrite FS, R1, Hub by exact Hb. fold (momentum (map Q2R ws) S b). unfold momentum. rewrite (I2 b Hb). ring.
  - unfold second_moment in *. rewrite FS, R2, (I3 b b Hb Hb). unfold delta. rewrite Nat.eqb_refl. lra.
  - intros a Ha Hab. destruct (Z2 a Ha Hab) as [Z3 Z4]. rewrite EV in Z3, Z4. rewrite (raw_two (dimD S) S HD p a b Ha Hb) in Z3. rewrite (raw_three (dimD S) S HD p a b Ha Hb) in Z4.
    assert (EN : nth a (map (Rmult (CollModel.reference_density compr rho)) u) 0 = (if compr then rho else 1) * nth a u 0).
    { rewrite (nth_indep _ 0 (Rmult (CollModel.reference_density compr rho) 0)) by (rewrite map_length; lia). rewrite map_nth. unfold CollModel.reference_density. destruct compr; ring. }
    rewrite EN. split; [|split].
    + unfold momentum in *. rewrite FS, R1, (I2 a Ha) by exact Ha. ring.
    + unfold second_moment in *. rewrite FS, Z3, (I3 a b Ha Hb). unfold delta. destruct (Nat.eqb_spec a b); [contradiction|]. lra.
    + unfold third_moment in *. rewrite FS, Z4, (I4 a b b Ha Hb Hb). ring.
Qed.
(* equilibrium populations of a method with moments *)
Lemma method_start name ord S ws exps ps P Minv Pinv Mpinv zc dev compr eqm fwd bwd b rho u :
  method_setup name ord S ws exps ps P Minv Pinv Mpinv -> raw_transform S exps ps P Minv Pinv Mpinv (background S ws zc dev) fwd bwd ->
  (dev = true -> zc = true) -> sizeQ S <> 7%nat -> (b < dimD S)%nat -> shear_equilibrium (dimD S) b compr dev eqm ->
  In (zero_tuple (dimD S)) exps -> (forall a, (a < dimD S)%nat -> In (CollModel.unit_tuple (dimD S) a) exps) -> In (exp_ab (dimD S) b b) exps ->
  (forall a, (a < dimD S)%nat -> a <> b -> In (exp_ab (dimD S) a b) exps /\ In (exp_abb (dimD S) a b) exps) -> length u = dimD S -> nth b u 0 = 0 ->
  exists p, raw_equilibrium_populations ps eqm bwd rho u = Ok p /\ shear_start (dimD S) S b (rho - (if zc then 1 else 0)) (map (Rmult (reference_density compr rho)) u) p.
Proof.
  intros HS HT Hdz H7 Hb HE X1 X2 X3 X4 Hu Hub. destruct (eq_terms name ord S ws exps ps P Minv Pinv Mpinv zc dev eqm fwd bwd HS HT rho u Hu) as (p & Hp & Lp & Ep). exists p. split; [exact Hp|].
  destruct (background_moments name ord S ws exps ps P Minv Pinv Mpinv zc dev compr eqm fwd bwd b HS HT Hdz H7 Hb HE) as (B0 & B1 & B2 & B3). set (bg := background S ws zc dev) in *.
  destruct (setup_facts _ _ _ _ _ _ _ _ _ _ HS) as (HD & _ & _).
  assert (Lb : length bg = length S) by (destruct HS; eapply background_length; eauto).
  assert (V : forall e, In e exps -> central_moment p S (rzero (dimD S)) e = eqm rho u e - central_moment bg S (rzero (dimD S)) e).
  { intros e He. rewrite <- (determined name ord S ws exps ps P Minv Pinv Mpinv zc dev fwd bwd HS HT (radd p bg) (eqm rho u) e) by (auto; rewrite radd_length; unfold sizeQ in *; lia).
    rewrite !(raw_fsum (dimD S) S HD), fsum_radd by (unfold sizeQ in *; congruence). ring. }
  destruct HE as [Hy He]. destruct (Hy rho u Hu) as [Y0 Y1]. destruct (He rho u Hu Hub) as [Z1 Z2].
  pose proof (V _ X1) as V0. rewrite !raw_zero in V0. change (zero_tuple (dimD S)) with (zero_exponents (dimD S)) in V0. rewrite Y0, B0 in V0.
  assert (V1 : forall a, (a < dimD S)%nat -> momentum p S a = (if compr then rho else 1) * nth a u 0 - momentum bg S a).
  { intros a Ha. pose proof (V _ (X2 a Ha)) as W. rewrite !(raw_one (dimD S) S HD) in W by exact Ha. change (CollModel.unit_tuple (dimD S) a) with (unit_exponents (dimD S) a) in W. now rewrite (Y1 a Ha) in W. }
  split; [split; [exact Lp|split; [lra|split]]|].
  - rewrite V1, Hub, B1 by exact Hb. ring.
  - pose proof (V _ X3) as W. rewrite !(raw_two (dimD S) S HD) in W by exact Hb. rewrite W, Z1, B2. field.
  - intros a Ha Hab. destruct (B3 a Ha Hab) as (C1 & C2 & C3). destruct (Z2 a Ha Hab) as [Z3 Z4]. destruct (X4 a Ha Hab) as [I1 I2].
    pose proof (V _ I1) as W. rewrite !(raw_two (dimD S) S HD) in W by auto. pose proof (V _ I2) as W'. rewrite !(raw_three (dimD S) S HD) in W' by auto.
    assert (EN : nth a (map (Rmult (reference_density compr rho)) u) 0 = (if compr then rho else 1) * nth a u 0).
    { rewrite (nth_indep _ 0 (Rmult (reference_density compr rho) 0)) by (rewrite map_length; lia). rewrite map_nth. unfold reference_density. destruct compr; ring. }
    rewrite EN, V1, C1, W, W', Z3, Z4, C2, C3 by exact Ha. repeat split; ring.
Qed.
