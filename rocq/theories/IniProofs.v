(* Proofs about collisions with prescribed density and velocity. *)
From Coq Require Import List ZArith Bool Arith Reals Lra Lia.
From Verif Require Import StencilModel RealLib LinLib TransSpec TransModel EqSpec CollModel CollSpec CollProofs CollProofs2 CollProofs3 IniModel IniSpec.
Import ListNotations.
Local Open Scope R_scope.

Lemma overwrite_all D u v : length u = D -> (D <= length v)%nat -> overwrite u v = firstn D v.
Proof. intros Hu Hv. unfold overwrite. rewrite Hu, skipn_all2 by lia. apply app_nil_r. Qed.
Lemma nth_firstn_lt (v : list R) : forall D a, (a < D)%nat -> nth a (firstn D v) 0 = nth a v 0.
Proof. induction v as [|x v IH]; intros [|D] [|a] Ha; cbn; auto; try lia. apply IH. lia. Qed.
Lemma mass_pdf zc S g : length g = length S -> mass zc S g = pdf_density zc g.
Proof. intros Hg. unfold mass, pdf_density. rewrite density_rsum by exact Hg. reflexivity. Qed.

Section Step.
  Variables (D n : nat) (S : stencil) (ps : list poly) (zc dev compr : bool) (w d f : list R).
  Hypothesis Hdim : Forall (fun c => length c = D) S.
  Hypothesis Hq : length S = n.
  Hypothesis Hps : length ps = n.
  Hypothesis Hd : length d = n.
  Hypothesis Hf : length f = n.
  Hypothesis Hdz : dev = true -> zc = true.
  Hypothesis Hw : storage_background D n S zc dev w.

  Lemma stored g : density g S + density w S = mass zc S g - (if dev then 1 else 0).
  Proof. destruct Hw as (_ & -> & _). unfold mass. destruct dev; [rewrite Hdz by reflexivity|]; destruct zc; cbn; lra. Qed.

  Lemma input_moments u0 eqs r v f' : length u0 = D -> length eqs = n -> length f' = n ->
    (forall i, nth_error ps i = Some (mono_poly (zero_tuple D)) -> nth i eqs 0 = r - (if dev then 1 else 0)) ->
    (forall i a, (a < D)%nat -> nth_error ps i = Some (mono_poly (unit_tuple D a)) ->
       nth i eqs 0 = carrier compr r * nth a v 0 - nth a u0 0 * (r - (if dev then 1 else 0))) ->
    map (poly_moment (radd f' w) S u0) ps = radd (relax d eqs (map (poly_moment (radd f w) S u0) ps)) (rzero n) ->
    (forall i, nth_error ps i = Some (mono_poly (zero_tuple D)) -> mass zc S f' = mass zc S f + nth i d 0 * (r - mass zc S f)) /\
    (forall i j a, (a < D)%nat -> nth_error ps i = Some (mono_poly (unit_tuple D a)) -> nth_error ps j = Some (mono_poly (zero_tuple D)) ->
       momentum f' S a = momentum f S a + nth i d 0 * (carrier compr r * nth a v 0 - momentum f S a)
         + nth a u0 0 * (nth j d 0 - nth i d 0) * (r - mass zc S f)).
  Proof.
    intros Hu0 He Hf' E0 E1 Hk. pose proof Hw as (Lw & _ & Mw). pose proof (stored f) as SF. pose proof (stored f') as SF'.
    assert (M : forall i, nth_error ps i = Some (mono_poly (zero_tuple D)) -> mass zc S f' = mass zc S f + nth i d 0 * (r - mass zc S f)).
    { intros i Hi. pose proof (mass_change D n S ps w u0 Hps Lw Hu0 d eqs (rzero n) f f' Hd He (rzero_length n) Hf Hf' Hk i Hi) as E.
      rewrite (E0 i Hi), SF, nth_rzero in E. unfold mass in *. rewrite E. ring. }
    split; [exact M|]. intros i j a Ha Hi Hj.
    pose proof (component D n S ps w u0 Hps Lw Hu0 d eqs (rzero n) f f' Hd He (rzero_length n) Hf Hf' Hk i _ Hi) as E.
    rewrite !poly_moment_mono, !(central_unit D) in E by auto. rewrite (E1 i a Ha Hi), nth_rzero in E. specialize (M j Hj).
    specialize (Mw a Ha). unfold density, momentum in *. rewrite !fsum_radd in E by congruence.
    rewrite Mw, SF', SF, M in E. clear - E. set (X := fsum f' S _) in *. set (Y := fsum f S _) in *. lra.
  Qed.
End Step.

Section Collisions.
  Variables (D n : nat) (S : stencil) (ps : list poly) (zc dev compr : bool) (w d f : list R).
  Hypothesis Hdim : Forall (fun c => length c = D) S.
  Hypothesis Hq : length S = n.
  Hypothesis Hps : length ps = n.
  Hypothesis Hd : length d = n.
  Hypothesis Hf : length f = n.
  Hypothesis Hdz : dev = true -> zc = true.
  Hypothesis Hw : storage_background D n S zc dev w.
  Variables (rho_in : option R) (v : list R).
  Hypothesis Hv : (D <= length v)%nat.
  Let r := match rho_in with Some r => r | None => mass zc S f end.

  Lemma used_quantities : input_quantities D S zc compr rho_in (Some v) f = Ok (r, firstn D v).
  Proof.
    unfold input_quantities, r. rewrite mass_pdf by congruence.
    rewrite (overwrite_all D) by (auto; apply velocity_length; discriminate). destruct rho_in; reflexivity.
  Qed.
  Lemma firstn_D : length (firstn D v) = D. Proof. rewrite firstn_length. lia. Qed.

  Lemma raw_input_step eqm fwd bwd : moment_transform n S ps w (rzero D) fwd bwd -> hydro_moments D compr dev eqm ->
    exists f', raw_input_collision D S ps zc compr eqm fwd bwd d rho_in (Some v) f = Ok f' /\ length f' = n /\
      (forall i p, nth_error ps i = Some p -> poly_moment (radd f' w) S (rzero D) p =
         poly_moment (radd f w) S (rzero D) p + nth i d 0 * (poly_value (eqm r (firstn D v)) p - poly_moment (radd f w) S (rzero D) p)) /\
      (forall i, nth_error ps i = Some (mono_poly (zero_tuple D)) -> mass zc S f' = mass zc S f + nth i d 0 * (r - mass zc S f)) /\
      ((exists j, nth_error ps j = Some (mono_poly (zero_tuple D))) ->
       forall i a, (a < D)%nat -> nth_error ps i = Some (mono_poly (unit_tuple D a)) ->
         momentum f' S a = momentum f S a + nth i d 0 * (carrier compr r * nth a v 0 - momentum f S a)).
  Proof.
    intros HT Heq. pose proof Hw as (Lw & _). pose proof firstn_D as Lv. unfold raw_input_collision. rewrite used_quantities. cbn [rbind fst snd].
    assert (Le : length (equilibrium_values ps (eqm r (firstn D v))) = n) by now rewrite values_length.
    rewrite Hq. destruct (collide_defined D n S ps w (rzero D) fwd bwd HT Hps Lw (rzero_length D) d (equilibrium_values ps (eqm r (firstn D v))) (rzero n) f) as (f' & E1 & E2 & E3);
      auto using rzero_length. exists f'. split; [exact E1|]. split; [exact E2|]. split.
    - intros i p Hi. rewrite (component D n S ps w (rzero D) Hps Lw (rzero_length D) d _ (rzero n) f f' Hd Le (rzero_length n) Hf E2 E3 i p Hi).
      rewrite (nth_values _ _ _ _ Hi), nth_rzero. ring.
    - destruct (Heq r (firstn D v) Lv) as [V0 V1].
      destruct (input_moments D n S ps zc dev compr w d f Hdim Hps Hd Hf Hdz Hw (rzero D) (equilibrium_values ps (eqm r (firstn D v))) r v f') as [M1 M2]; auto using rzero_length.
      + intros i Hi. now rewrite (nth_values _ _ _ _ Hi), poly_value_mono.
      + intros i a Ha Hi. rewrite (nth_values _ _ _ _ Hi), poly_value_mono, nth_rzero. etransitivity; [exact (V1 a Ha)|]. rewrite nth_firstn_lt by auto. unfold carrier. ring.
      + split; [exact M1|]. intros [j Hj] i a Ha Hi. rewrite (M2 i j a Ha Hi Hj), nth_rzero. ring.
  Qed.
  Lemma central_input_step eqc fwd bwd : (forall u, length u = D -> moment_transform n S ps w u (fwd u) (bwd u)) -> hydro_central_moments D compr dev eqc ->
    exists f', central_input_collision D S ps zc compr eqc fwd bwd d rho_in (Some v) f = Ok f' /\ length f' = n /\
      (forall i p, nth_error ps i = Some p -> poly_moment (radd f' w) S (firstn D v) p =
         poly_moment (radd f w) S (firstn D v) p + nth i d 0 * (poly_value (eqc r (firstn D v)) p - poly_moment (radd f w) S (firstn D v) p)) /\
      (forall i, nth_error ps i = Some (mono_poly (zero_tuple D)) -> mass zc S f' = mass zc S f + nth i d 0 * (r - mass zc S f)) /\
      (forall i j a, (a < D)%nat -> nth_error ps i = Some (mono_poly (unit_tuple D a)) -> nth_error ps j = Some (mono_poly (zero_tuple D)) ->
         momentum f' S a = momentum f S a + nth i d 0 * (carrier compr r * nth a v 0 - momentum f S a)
           + nth a v 0 * (nth j d 0 - nth i d 0) * (r - mass zc S f)).
  Proof.
    intros HT Heq. pose proof Hw as (Lw & _). pose proof firstn_D as Lv. unfold central_input_collision. rewrite used_quantities. cbn [rbind fst snd].
    assert (Le : length (equilibrium_values ps (eqc r (firstn D v))) = n) by now rewrite values_length.
    rewrite Hq. destruct (collide_defined D n S ps w (firstn D v) (fwd (firstn D v)) (bwd (firstn D v)) (HT _ Lv) Hps Lw Lv d (equilibrium_values ps (eqc r (firstn D v))) (rzero n) f) as (f' & E1 & E2 & E3);
      auto using rzero_length. exists f'. split; [exact E1|]. split; [exact E2|]. split.
    - intros i p Hi. rewrite (component D n S ps w (firstn D v) Hps Lw Lv d _ (rzero n) f f' Hd Le (rzero_length n) Hf E2 E3 i p Hi).
      rewrite (nth_values _ _ _ _ Hi), nth_rzero. ring.
    - destruct (Heq r (firstn D v) Lv) as [V0 V1].
      destruct (input_moments D n S ps zc dev compr w d f Hdim Hps Hd Hf Hdz Hw (firstn D v) (equilibrium_values ps (eqc r (firstn D v))) r v f') as [M1 M2]; auto.
      + intros i Hi. now rewrite (nth_values _ _ _ _ Hi), poly_value_mono.
      + intros i a Ha Hi. rewrite (nth_values _ _ _ _ Hi), poly_value_mono. etransitivity; [exact (V1 a Ha)|]. rewrite nth_firstn_lt by auto. unfold carrier. ring.
      + split; [exact M1|]. intros i j a Ha Hi Hj. rewrite (M2 i j a Ha Hi Hj), nth_firstn_lt by auto. reflexivity.
  Qed.
End Collisions.

(* ---- relaxation rates of the velocity setter ---- *)
Lemma is_monomial_spec e p : is_monomial e p = true <-> p = mono_poly e.
Proof.
  unfold is_monomial, mono_poly. destruct p as [|[c e'] [|t p]]; try (split; [discriminate|discriminate]).
  destruct (Req_EM_T c 1) as [->|N], (list_eq_dec Nat.eq_dec e' e) as [->|N']; cbn; split; intros H; try reflexivity; try discriminate; injection H; intros; congruence.
Qed.
Lemma is_first_spec D p : is_first D p = true <-> exists a, (a < D)%nat /\ p = mono_poly (unit_tuple D a).
Proof.
  unfold is_first. rewrite existsb_exists. split.
  - intros (a & Ha & E). apply in_seq in Ha. exists a. split; [lia|]. now apply is_monomial_spec.
  - intros (a & Ha & E). exists a. split; [apply in_seq; lia|]. now apply is_monomial_spec.
Qed.
Lemma first_rates D ps d rate : length d = length ps -> (forall a, (a < D)%nat -> In (mono_poly (unit_tuple D a)) ps) ->
  exists d', set_first_moment_relaxation_rate D ps d rate = Ok d' /\ length d' = length ps /\
    forall i p, nth_error ps i = Some p -> nth i d' 0 = if is_first D p then rate else nth i d 0.
Proof.
  intros Hd H. unfold set_first_moment_relaxation_rate.
  replace (forallb _ _) with true.
  - eexists. split; [reflexivity|]. split; [rewrite map_length, combine_length; lia|]. intros i p Hi.
    assert (Hn : nth_error (combine ps d) i = Some (p, nth i d 0)).
    { revert i d Hd Hi. clear. induction ps as [|q ps IH]; intros [|i] [|x d] Hd Hi; try discriminate; cbn in *; [congruence|]. apply IH; auto. }
    rewrite (nth_error_nth _ _ _ (map_nth_error (fun p => if is_first D (fst p) then rate else snd p) _ _ Hn)). reflexivity.
  - symmetry. apply forallb_forall. intros a Ha. apply in_seq in Ha. apply existsb_exists. exists (mono_poly (unit_tuple D a)). split; [apply H; lia|now apply is_monomial_spec].
Qed.
Lemma first_rates_rejected D ps d rate a : (a < D)%nat -> ~ In (mono_poly (unit_tuple D a)) ps -> set_first_moment_relaxation_rate D ps d rate = Err AssertionError.
Proof.
  intros Ha H. unfold set_first_moment_relaxation_rate. destruct (forallb _ _) eqn:E; [|reflexivity]. exfalso. apply H.
  rewrite forallb_forall in E. specialize (E a ltac:(apply in_seq; lia)). apply existsb_exists in E as (p & Hp & E). apply is_monomial_spec in E. now subst.
Qed.
(* ---- geometric decay ---- *)
Lemma repeat_step_decay {A} (step : A -> res A) (I : A -> Prop) (m : A -> R) target rate :
  (forall x, I x -> exists y, step x = Ok y /\ I y /\ m y = m x + rate * (target - m x)) ->
  forall t x, I x -> exists y, repeat_step step t x = Ok y /\ I y /\ m y = target + (1 - rate) ^ t * (m x - target).
Proof.
  intros H. induction t as [|t IH]; intros x Hx; [exists x; cbn; repeat split; auto; lra|].
  cbn [repeat_step]. destruct (H x Hx) as (y & -> & Hy & E). destruct (IH y Hy) as (z & E1 & E2 & E3). exists z. split; [exact E1|]. split; [exact E2|].
  rewrite E3, E. cbn [pow]. ring.
Qed.

(* ---- the velocity setter ---- *)
Section Setter.
  Variables (D n : nat) (S : stencil) (ps : list poly) (zc dev compr : bool) (w d : list R).
  Hypothesis Hdim : Forall (fun c => length c = D) S.
  Hypothesis Hq : length S = n.
  Hypothesis Hps : length ps = n.
  Hypothesis Hd : length d = n.
  Hypothesis Hdz : dev = true -> zc = true.
  Hypothesis Hw : storage_background D n S zc dev w.
  Hypothesis Hmodes : has_conserved_modes D ps.
  Variables (rate : R) (v : list R).
  Hypothesis Hv : (D <= length v)%nat.
  Lemma has_zero : exists j, nth_error ps j = Some (mono_poly (zero_tuple D)).
  Proof. destruct Hmodes as [Hz _]. apply In_nth_error in Hz as [i Hi]. now exists i. Qed.
  Lemma has_unit a : (a < D)%nat -> exists j, nth_error ps j = Some (mono_poly (unit_tuple D a)).
  Proof. intros Ha. destruct Hmodes as [_ Hz]. specialize (Hz a Ha). apply In_nth_error in Hz as [i Hi]. now exists i. Qed.
  Lemma new_rates : exists d', set_first_moment_relaxation_rate D ps d rate = Ok d' /\ length d' = n /\
    (forall i p, nth_error ps i = Some p -> nth i d' 0 = if is_first D p then rate else nth i d 0) /\
    (forall i a, (a < D)%nat -> nth_error ps i = Some (mono_poly (unit_tuple D a)) -> nth i d' 0 = rate).
  Proof.
    destruct (first_rates D ps d rate) as (d' & E1 & E2 & E3); [congruence|apply Hmodes|].
    exists d'. split; [exact E1|]. split; [congruence|]. split; [exact E3|]. intros i a Ha Hi. rewrite (E3 i _ Hi).
    replace (is_first D _) with true; [reflexivity|]. symmetry. apply is_first_spec. eauto.
  Qed.
  Lemma not_first p : (forall a, (a < D)%nat -> p <> mono_poly (unit_tuple D a)) -> is_first D p = false.
  Proof. intros H. destruct (is_first D p) eqn:E; [|reflexivity]. apply is_first_spec in E as (a & Ha & ->). exfalso. now apply (H a Ha). Qed.

  Lemma setter_raw_step eqm fwd bwd f : length f = n -> moment_transform n S ps w (rzero D) fwd bwd -> hydro_moments D compr dev eqm ->
    exists f', velocity_setter_raw D S ps zc compr eqm fwd bwd d rate v f = Ok f' /\ length f' = n /\ density f' S = density f S /\
      (forall a, (a < D)%nat -> momentum f' S a = momentum f S a + rate * (carrier compr (mass zc S f) * nth a v 0 - momentum f S a)) /\
      (forall i p, nth_error ps i = Some p -> (forall a, (a < D)%nat -> p <> mono_poly (unit_tuple D a)) ->
         poly_moment (radd f' w) S (rzero D) p = poly_moment (radd f w) S (rzero D) p
           + nth i d 0 * (poly_value (eqm (mass zc S f) (firstn D v)) p - poly_moment (radd f w) S (rzero D) p)).
  Proof.
    intros Hf HT He. destruct new_rates as (d' & E1 & L & E2 & E3). unfold velocity_setter_raw. rewrite E1. cbn [rbind].
    destruct (raw_input_step D n S ps zc dev compr w d' f Hdim Hq Hps L Hf Hdz Hw None v Hv eqm fwd bwd HT He) as (f' & F1 & F2 & F3 & F4 & F5).
    exists f'. split; [exact F1|]. split; [exact F2|]. destruct has_zero as [j Hj]. split.
    { specialize (F4 j Hj). unfold mass in F4. lra. } split.
    - intros a Ha. destruct (has_unit a Ha) as [i Hi]. rewrite (F5 (ex_intro _ j Hj) i a Ha Hi), (E3 i a Ha Hi). reflexivity.
    - intros i p Hi N. rewrite (F3 i p Hi), (E2 i p Hi), not_first by exact N. reflexivity.
  Qed.
  Lemma setter_central_step eqc fwd bwd f : length f = n -> (forall u, length u = D -> moment_transform n S ps w u (fwd u) (bwd u)) -> hydro_central_moments D compr dev eqc ->
    exists f', velocity_setter_central D S ps zc compr eqc fwd bwd d rate v f = Ok f' /\ length f' = n /\ density f' S = density f S /\
      (forall a, (a < D)%nat -> momentum f' S a = momentum f S a + rate * (carrier compr (mass zc S f) * nth a v 0 - momentum f S a)) /\
      (forall i p, nth_error ps i = Some p -> (forall a, (a < D)%nat -> p <> mono_poly (unit_tuple D a)) ->
         poly_moment (radd f' w) S (firstn D v) p = poly_moment (radd f w) S (firstn D v) p
           + nth i d 0 * (poly_value (eqc (mass zc S f) (firstn D v)) p - poly_moment (radd f w) S (firstn D v) p)).
  Proof.
    intros Hf HT He. destruct new_rates as (d' & E1 & L & E2 & E3). unfold velocity_setter_central. rewrite E1. cbn [rbind].
    destruct (central_input_step D n S ps zc dev compr w d' f Hdim Hq Hps L Hf Hdz Hw None v Hv eqc fwd bwd HT He) as (f' & F1 & F2 & F3 & F4 & F5).
    exists f'. split; [exact F1|]. split; [exact F2|]. destruct has_zero as [j Hj]. split.
    { specialize (F4 j Hj). unfold mass in F4. lra. } split.
    - intros a Ha. destruct (has_unit a Ha) as [i Hi]. rewrite (F5 i j a Ha Hi Hj), (E3 i a Ha Hi). ring.
    - intros i p Hi N. rewrite (F3 i p Hi), (E2 i p Hi), not_first by exact N. reflexivity.
  Qed.
End Setter.
