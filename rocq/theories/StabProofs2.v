(* Collisions with an equilibrium of first order dissipate energy. *)
From Coq Require Import String List ZArith QArith Qreals Bool Arith Reals Lra Lia Permutation.
From Verif Require Import StencilModel StencilProofs StencilProofs2 AccessModel StreamModel StreamSpec RealLib LinLib TransSpec TransModel TransProofs EqModel EqSpec EqProofs CollModel CollSpec CollProofs CollProofs4 CollProofs5 CollProofs7 PropsEq PropsTrans PropsColl BoundSpec StabSpec StabProofs.
Import ListNotations.
Local Open Scope R_scope.

Lemma weight_positive n d q : n <> 7%nat -> weight_for_direction n d = Ok q -> 0 < Q2R q.
Proof.
  intros Hn H. unfold weight_for_direction in H. destruct (weight_table n) as [t|] eqn:Et; [|discriminate]. destruct (find _ t) as [[k v]|] eqn:Ef; [|discriminate]. injection H as <-. apply find_some in Ef as [Hin _].
  replace 0 with (Q2R 0) by (unfold Q2R; cbn; field). apply Qlt_Rlt. cbn [snd].
  unfold weight_table in Et. do 28 (destruct n as [|n]; [try discriminate; try congruence; injection Et as <-; cbn in Hin; repeat (destruct Hin as [E|Hin]; [injection E as <- <-; reflexivity|]); destruct Hin|]). discriminate.
Qed.
Lemma weights_positive S ws i : get_weights S = Ok ws -> sizeQ S <> 7%nat -> (i < length S)%nat -> 0 < nth i (map Q2R ws) 0.
Proof.
  intros Hw H7 Hi. unfold get_weights in Hw. destruct (nth_error S i) as [d|] eqn:Ed; [|apply nth_error_None in Ed; lia]. 
  pose proof (mapM_Ok_length _ _ _ Hw) as Hl. destruct (nth_error ws i) as [q|] eqn:Eq; [|apply nth_error_None in Eq; lia].
  rewrite (nth_error_nth _ _ 0 (map_nth_error Q2R _ _ Eq)). apply (weight_positive (sizeQ S) d q H7).
  clear - Hw Ed Eq. revert Hw. generalize (weight_for_direction (sizeQ S)). intros h Hw. revert i ws Hw Ed Eq; induction S as [|c S IH]; intros i ws Hw Ed Eq; [destruct i; discriminate|].
  cbn [mapM] in Hw. destruct (h c) as [b|] eqn:Eb; [|discriminate]. cbn [rbind] in Hw. destruct (mapM h S) as [bs|] eqn:Ebs; [|discriminate]. cbn [rbind] in Hw. injection Hw as <-.
  destruct i as [|i]; cbn in Ed, Eq; [congruence|]. apply (IH i bs); auto.
Qed.

Lemma linear_length D S w f : length w = length S -> length (linear_equilibrium D S w f) = length S.
Proof. intros H. unfold linear_equilibrium. rewrite map_length, combine_length. lia. Qed.
Lemma nth_linear D S w f i : length w = length S -> (i < length S)%nat ->
  nth i (linear_equilibrium D S w f) 0 = nth i w 0 * (density f S + 3 * rsum (map (fun a => comp (nth i S []) a * momentum f S a) (seq 0 D))).
Proof.
  intros Hl Hi. unfold linear_equilibrium. set (g := fun wc : R * vec => _). rewrite (nth_indep _ 0 (g (0, []))) by (rewrite map_length, combine_length; lia). rewrite map_nth, combine_nth by exact Hl. reflexivity.
Qed.
(* sums over the populations by index *)
Lemma fsum_seq f S h : length f = length S -> fsum f S h = rsum (map (fun i => nth i f 0 * h (nth i S [])) (seq 0 (length S))).
Proof.
  unfold fsum. revert S; induction f as [|a f IH]; intros [|c S] H; try discriminate; [reflexivity|]. cbn [combine map length seq]. rewrite !rsum_cons. cbn [fst snd nth]. f_equal.
  rewrite IH by (cbn in H; lia). rewrite <- seq_shift, map_map. reflexivity.
Qed.
Lemma e_times_u_seq c u D : length c = D -> length u = D -> e_times_u c u = rsum (map (fun a => comp c a * nth a u 0) (seq 0 D)).
Proof.
  intros <-. unfold e_times_u. revert u; induction c as [|z c IH]; intros [|x u] H; try discriminate; [reflexivity|]. cbn [combine map length seq]. rewrite !rsum_cons. cbn [fst snd nth]. f_equal.
  rewrite IH by (cbn in H; lia). rewrite <- seq_shift, map_map. reflexivity.
Qed.

Section Linear.
  Context (name ord : string) (S : stencil) (ws : list Q).
  Hypothesis HSt : predefined_stencils name ord = Ok S.
  Hypothesis HW : get_weights S = Ok ws.
  Notation D := (dimD S).
  Notation w := (map Q2R ws).
  Let Hdim : Forall (fun c => length c = D) S.
  Proof. destruct (weights_isotropic _ _ _ _ HSt HW). assumption. Qed.
  Let Hiso : isotropic_weights D S w.
  Proof. destruct (weights_isotropic _ _ _ _ HSt HW). assumption. Qed.
  Lemma w_length : length w = length S.
  Proof. apply Hiso. Qed.

  Lemma linear_populations zc dev compr f : length f = length S -> (dev = true -> zc = true) -> (compr = true -> pdf_density zc f <> 0) ->
    exists p, hydro_maxwellian S compr dev (Some 1%Z) (pdf_density zc f) (equilibrium_velocity D S zc compr None f) (1 / 3) = Ok p /\ length p = length S /\
      rsub p (background S ws zc dev) = linear_equilibrium D S w f.
  Proof.
    intros Hf Hdz Hr. set (rho := pdf_density zc f). set (u := equilibrium_velocity D S zc compr None f).
    assert (Lu : length u = D) by (apply velocity_length; discriminate).
    assert (Hu : forall a, (a < D)%nat -> (if compr then rho else 1) * nth a u 0 = momentum f S a).
    { intros a Ha. pose proof (velocity_nth D S zc compr None f a Ha ltac:(discriminate)) as E. cbv zeta in E. change (reference_density compr (pdf_density zc f) * nth a (equilibrium_velocity D S zc compr None f) 0 = momentum f S a). rewrite E by (apply reference_nonzero; exact Hr). ring. }
    assert (Hrho : rho - (if zc then 1 else 0) = density f S) by (rewrite density_rsum by exact Hf; unfold rho, pdf_density; destruct zc; ring).
    pose proof w_length as Lw. rewrite map_length in Lw.
    set (g := fun wc : Q * vec => discrete_equilibrium (snd wc) (firstn D u) rho (Q2R (fst wc)) 1 (1 / 3) compr).
    set (g0 := fun wc : Q * vec => discrete_equilibrium (snd wc) (firstn D (repeat 0 D)) 1 (Q2R (fst wc)) 0 (1 / 3) false).
    assert (Hg : forall i, (i < length S)%nat -> nth i (map g (combine ws S)) 0 = nth i w 0 * (rho + 3 * rsum (map (fun a => comp (nth i S []) a * momentum f S a) (seq 0 D)))).
    { intros i Hi. rewrite (nth_indep _ 0 (g (0%Q, []))) by (rewrite map_length, combine_length; lia). rewrite map_nth, combine_nth by exact Lw. unfold g. cbn [fst snd].
      replace (nth i w 0) with (Q2R (nth i ws 0%Q)) by (rewrite (nth_indep w 0 (Q2R 0%Q)) by (rewrite map_length; lia); symmetry; apply map_nth).
      rewrite firstn_all2 by lia. unfold discrete_equilibrium. cbv zeta. cbn [Z.leb Z.compare Pos.compare Pos.compare_cont]. rewrite (e_times_u_seq _ u D) by (auto; apply (proj1 (Forall_forall _ _) Hdim); apply nth_In; exact Hi).
      set (q := Q2R (nth i ws 0%Q)).
      assert (E : rsum (map (fun a => comp (nth i S []) a * momentum f S a) (seq 0 D)) = (if compr then rho else 1) * rsum (map (fun a => comp (nth i S []) a * nth a u 0) (seq 0 D))).
      { rewrite <- rsum_scal. apply rsum_ext. intros a Ha. apply in_seq in Ha. rewrite <- Hu by lia. ring. }
      rewrite E. set (X := rsum (map (fun a => comp (nth i S []) a * nth a u 0) (seq 0 D))). match goal with |- context [rsum (map ?h (seq 0 D)) / _] => change (rsum (map h (seq 0 D))) with X end. destruct compr; field. }
    assert (Hg0 : forall i, (i < length S)%nat -> nth i (map g0 (combine ws S)) 0 = nth i w 0).
    { intros i Hi. rewrite (nth_indep _ 0 (g0 (0%Q, []))) by (rewrite map_length, combine_length; lia). rewrite map_nth, combine_nth by exact Lw. unfold g0. cbn [fst snd].
      replace (nth i w 0) with (Q2R (nth i ws 0%Q)) by (rewrite (nth_indep w 0 (Q2R 0%Q)) by (rewrite map_length; lia); symmetry; apply map_nth).
      rewrite firstn_all2 by (rewrite repeat_length; lia). unfold discrete_equilibrium. cbv zeta. cbn [Z.leb Z.compare]. rewrite (e_times_u_seq _ _ D) by (rewrite ?repeat_length; auto; apply (proj1 (Forall_forall _ _) Hdim); apply nth_In; exact Hi).
      rewrite (rsum_ext _ (fun _ => 0)), rsum_zero; [field|]. intros a _. rewrite nth_repeat. ring. }
    assert (Lg : length (map g (combine ws S)) = length S) by (rewrite map_length, combine_length; lia).
    assert (Lg0 : length (map g0 (combine ws S)) = length S) by (rewrite map_length, combine_length; lia).
    exists (if dev then rsub (map g (combine ws S)) (map g0 (combine ws S)) else map g (combine ws S)).
    split; [unfold hydro_maxwellian, discrete_maxwellian_equilibrium; rewrite HW; cbn [rbind]; destruct dev; reflexivity|].
    split; [destruct dev; rewrite ?rsub_length; lia|].
    assert (Lb : length (background S ws zc dev) = length S) by (eapply background_length; eauto).
    assert (Lp : length (if dev then rsub (map g (combine ws S)) (map g0 (combine ws S)) else map g (combine ws S)) = length S) by (destruct dev; rewrite ?rsub_length; lia).
    apply list_ext; [rewrite rsub_length, linear_length by apply w_length; lia|]. rewrite rsub_length, Lp, Lb, Nat.min_id. intros i Hi.
    rewrite nth_rsub by lia. rewrite nth_linear by (auto using w_length). rewrite <- Hrho.
    unfold background. destruct dev.
    - rewrite (Hdz eq_refl). cbn [negb andb]. rewrite nth_rzero, nth_rsub, Hg, Hg0 by lia. ring.
    - destruct zc; cbn [negb andb]; [|rewrite nth_rzero]; rewrite Hg by lia; ring.
  Qed.

  (* mass and momentum of the linear equilibrium *)
  Lemma linear_density f : density (linear_equilibrium D S w f) S = density f S.
  Proof.
    pose proof w_length as Lw. destruct Hiso as (_ & W0 & W1 & _ & _). unfold density at 1. rewrite fsum_seq by (apply linear_length; exact Lw).
    rewrite (rsum_ext _ (fun i => density f S * (nth i w 0 * 1) + 3 * rsum (map (fun a => momentum f S a * (nth i w 0 * comp (nth i S []) a)) (seq 0 D)))).
    - rewrite rsum_plus, !rsum_scal, <- (fsum_seq w S (fun _ => 1) Lw). fold (density w S). rewrite W0.
      rewrite (rsum_swap (fun i a => momentum f S a * (nth i w 0 * comp (nth i S []) a))). rewrite (rsum_ext _ (fun _ => 0)), rsum_zero; [ring|].
      intros a Ha. apply in_seq in Ha. rewrite rsum_scal, <- (fsum_seq w S (fun c => comp c a) Lw). fold (momentum w S a). rewrite W1 by lia. ring.
    - intros i Hi. apply in_seq in Hi. rewrite nth_linear by (auto; lia).
      rewrite (rsum_ext (fun a => momentum f S a * (nth i w 0 * comp (nth i S []) a)) (fun a => nth i w 0 * (comp (nth i S []) a * momentum f S a))) by (intros; ring). rewrite rsum_scal. ring.
  Qed.
  Lemma linear_momentum f a : (a < D)%nat -> momentum (linear_equilibrium D S w f) S a = momentum f S a.
  Proof.
    intros Ha. pose proof w_length as Lw. destruct Hiso as (_ & _ & W1 & W2 & _). unfold momentum at 1. rewrite fsum_seq by (apply linear_length; exact Lw).
    rewrite (rsum_ext _ (fun i => density f S * (nth i w 0 * comp (nth i S []) a) + 3 * rsum (map (fun b => momentum f S b * (nth i w 0 * (comp (nth i S []) a * comp (nth i S []) b))) (seq 0 D)))).
    - rewrite rsum_plus, !rsum_scal, <- (fsum_seq w S (fun c => comp c a) Lw). fold (momentum w S a). rewrite W1 by exact Ha.
      rewrite (rsum_swap (fun i b => momentum f S b * (nth i w 0 * (comp (nth i S []) a * comp (nth i S []) b)))).
      rewrite (rsum_ext _ (fun b => / 3 * (if Nat.eqb a b then momentum f S a else 0))).
      + rewrite rsum_scal. assert (P : forall n, (a < n)%nat -> rsum (map (fun b => if Nat.eqb a b then momentum f S a else 0) (seq 0 n)) = momentum f S a).
        { intros n Hn. replace n with (a + Datatypes.S (n - Datatypes.S a))%nat by lia. rewrite seq_app, map_app, rsum_app. cbn [seq map plus]. rewrite rsum_cons, Nat.eqb_refl.
          rewrite (rsum_ext _ (fun _ => 0) (seq 0 a)) by (intros b Hb; apply in_seq in Hb; destruct (Nat.eqb_spec a b); [lia|reflexivity]).
          rewrite (rsum_ext _ (fun _ => 0) (seq (Datatypes.S a) _)) by (intros b Hb; apply in_seq in Hb; destruct (Nat.eqb_spec a b); [lia|reflexivity]). rewrite !rsum_zero. ring. }
        rewrite P by exact Ha. field.
      + intros b Hb. apply in_seq in Hb. rewrite rsum_scal, <- (fsum_seq w S (fun c => comp c a * comp c b) Lw). fold (second_moment w S a b). rewrite W2 by lia. unfold delta. destruct (Nat.eqb_spec a b) as [->|]; field.
    - intros i Hi. apply in_seq in Hi. rewrite nth_linear by (auto; lia).
      rewrite (rsum_ext (fun b => momentum f S b * (nth i w 0 * (comp (nth i S []) a * comp (nth i S []) b))) (fun b => (nth i w 0 * comp (nth i S []) a) * (comp (nth i S []) b * momentum f S b))) by (intros; ring).
      rewrite rsum_scal. ring.
  Qed.

  Hypothesis H7 : sizeQ S <> 7%nat.
  (* Pythagoras *)
  Lemma energy_split f f' : length f = length S -> length f' = length S -> conserves D S f f' ->
    energy w f' = energy w (linear_equilibrium D S w f) + energy w (rsub f' (linear_equilibrium D S w f)).
  Proof.
    intros Hf Hf' [C0 C1]. pose proof w_length as Lw. set (e := linear_equilibrium D S w f). assert (Le : length e = length S) by (apply linear_length; exact Lw).
    assert (O : rsum (map (fun i => (density f S + 3 * rsum (map (fun a => comp (nth i S []) a * momentum f S a) (seq 0 D))) * (nth i f' 0 - nth i e 0)) (seq 0 (length S))) = 0).
    { rewrite (rsum_ext _ (fun i => density f S * (nth i (rsub f' e) 0 * 1) + rsum (map (fun a => (3 * momentum f S a) * (nth i (rsub f' e) 0 * comp (nth i S []) a)) (seq 0 D)))).
      - assert (Lr : length (rsub f' e) = length S) by (rewrite rsub_length; lia).
        rewrite rsum_plus, rsum_scal, <- (fsum_seq _ S (fun _ => 1) Lr). fold (density (rsub f' e) S).
        rewrite (rsum_swap (fun i a => 3 * momentum f S a * (nth i (rsub f' e) 0 * comp (nth i S []) a))).
        assert (Z : forall h, fsum (rsub f' e) S h = fsum f' S h - fsum e S h).
        { intros h. rewrite !fsum_seq by auto. rewrite <- rsum_minus. apply rsum_ext. intros i Hi. rewrite nth_rsub by lia. ring. }
        assert (DZ : density (rsub f' e) S = 0) by (change (fsum (rsub f' e) S (fun _ => 1) = 0); rewrite Z; change (density f' S - density e S = 0); unfold e; rewrite linear_density, C0; ring).
        rewrite DZ. rewrite (rsum_ext _ (fun _ => 0)), rsum_zero; [ring|]. intros a Ha. apply in_seq in Ha. rewrite rsum_scal, <- (fsum_seq _ S (fun c => comp c a) Lr), Z. change (3 * momentum f S a * (momentum f' S a - momentum e S a) = 0). unfold e. rewrite linear_momentum, C1 by lia. ring.
      - intros i Hi. rewrite nth_rsub by lia. rewrite (rsum_ext (fun a => 3 * momentum f S a * ((nth i f' 0 - nth i e 0) * comp (nth i S []) a)) (fun a => (3 * (nth i f' 0 - nth i e 0)) * (comp (nth i S []) a * momentum f S a))) by (intros; ring). rewrite rsum_scal. ring. }
    unfold energy. rewrite Lw. rewrite <- rsum_plus.
    rewrite (rsum_ext (fun i => nth i f' 0 * nth i f' 0 / nth i w 0) (fun i => (nth i e 0 * nth i e 0 / nth i w 0 + nth i (rsub f' e) 0 * nth i (rsub f' e) 0 / nth i w 0) +
      2 * ((density f S + 3 * rsum (map (fun a => comp (nth i S []) a * momentum f S a) (seq 0 D))) * (nth i f' 0 - nth i e 0)))).
    - rewrite rsum_plus, (rsum_scal 2). rewrite O. ring.
    - intros i Hi. apply in_seq in Hi. pose proof (weights_positive S ws i HW H7 ltac:(lia)) as P. rewrite nth_rsub by lia. set (A := density f S + _). assert (Ee : nth i e 0 = nth i w 0 * A) by (unfold e; rewrite nth_linear by (auto; lia); reflexivity).
      rewrite Ee. field. lra.
  Qed.

  Context (exps : list (list nat)) (ps : list poly) (P Minv Pinv Mpinv : mat).
  Hypothesis HS : method_setup name ord S ws exps ps P Minv Pinv Mpinv.
  Lemma conserved_value g p : length g = length S -> conserved_mode D p -> density g S = 0 -> (forall a, (a < D)%nat -> momentum g S a = 0) -> poly_moment g S (rzero D) p = 0.
  Proof.
    intros Hg [->|(a & Ha & ->)] G0 G1.
    - change ([(1, zero_exponents D)]) with (mono_poly (zero_tuple D)). rewrite poly_moment_mono, central_zero. exact G0.
    - change ([(1, unit_exponents D a)]) with (mono_poly (unit_tuple D a)). rewrite poly_moment_mono, (central_unit D) by (auto using rzero_length). rewrite nth_rzero, G1 by exact Ha. ring.
  Qed.
  Lemma deviation_conserved x f p : length x = length S -> conserves D S f x -> conserved_mode D p -> poly_moment (rsub x (linear_equilibrium D S w f)) S (rzero D) p = 0.
  Proof.
    intros Hx [C0 C1] Hc. pose proof w_length as Lw. set (e := linear_equilibrium D S w f). assert (Le : length e = length S) by (apply linear_length; exact Lw).
    assert (Lg : length (rsub x e) = length S) by (rewrite rsub_length; lia).
    assert (Z : forall h, fsum (rsub x e) S h = fsum x S h - fsum e S h) by (intros h; rewrite !fsum_seq by auto; rewrite <- rsum_minus; apply rsum_ext; intros i Hi; rewrite nth_rsub by lia; ring).
    apply conserved_value; auto.
    - change (fsum (rsub x e) S (fun _ => 1) = 0). rewrite Z. change (density x S - density e S = 0). unfold e. rewrite linear_density, C0. ring.
    - intros a Ha. change (fsum (rsub x e) S (fun c => comp c a) = 0). rewrite Z. change (momentum x S a - momentum e S a = 0). unfold e. rewrite linear_momentum, C1 by exact Ha. ring.
  Qed.
  Lemma collision_relaxes zc dev compr fwd bwd d f :
    raw_transform S exps ps P Minv Pinv Mpinv (background S ws zc dev) fwd bwd -> (dev = true -> zc = true) -> length d = length ps ->
    length f = length S -> (compr = true -> pdf_density zc f <> 0) ->
    exists f', moment_collision D S ps zc compr (discrete_raw_moments S compr dev (Some 1%Z)) w (moment_matrix ps S (rzero D)) fwd bwd d None f = Ok f' /\
      length f' = length S /\ conserves D S f f' /\
      forall k q, nth_error ps k = Some q -> poly_moment (rsub f' (linear_equilibrium D S w f)) S (rzero D) q = (1 - nth k d 0) * poly_moment (rsub f (linear_equilibrium D S w f)) S (rzero D) q.
  Proof.
    clear H7. intros HT Hdz Ld Hf Hrho. destruct (setup_facts _ _ _ _ _ _ _ _ _ _ HS) as (F1 & F2 & F3). pose proof HS as [X1 X2 X3 X4 X5 X6 X7]. pose proof w_length as Lw.
    destruct (linear_populations zc dev compr f Hf Hdz Hrho) as (p & Ep & Lp & El). set (e := linear_equilibrium D S w f) in *. assert (Le : length e = length S) by (apply linear_length; exact Lw).
    pose proof (background_length _ _ _ _ zc dev X1 X2) as Lb. unfold sizeQ in Lb, F3, X6.
    assert (HMT : moment_transform (length S) S ps (background S ws zc dev) (rzero D) fwd bwd) by (eapply raw_transform_ok; eauto).
    assert (Eq : equilibrium_values ps (discrete_raw_moments S compr dev (Some 1%Z) (pdf_density zc f) (equilibrium_velocity D S zc compr None f)) = map (poly_moment (radd e (background S ws zc dev)) S (rzero D)) ps).
    { replace (radd e (background S ws zc dev)) with p by (rewrite <- El; symmetry; apply radd_rsub_cancel; congruence).
      unfold equilibrium_values. apply map_ext. intros q. rewrite poly_moment_value. unfold poly_value. apply rsum_ext. intros t _. unfold discrete_raw_moments. now rewrite Ep. }
    destruct (C11_raw_moments_conserve name ord S ws exps ps P Minv Pinv Mpinv zc dev compr (discrete_raw_moments S compr dev (Some 1%Z)) fwd bwd d f HS) as (f' & E1 & E2 & E3); auto.
    { apply (discrete_hydro name ord S ws compr dev (Some 1%Z) X1 X2). right. cbn. lia. }
    { unfold sizeQ. lia. }
    exists f'. split; [exact E1|]. split; [exact E2|]. split; [exact E3|]. unfold sizeQ in E2.
    unfold moment_collision in E1. cbn [rbind] in E1. rewrite Eq in E1.
    destruct (collide_defined D (length S) S ps (background S ws zc dev) (rzero D) fwd bwd HMT F3 Lb (rzero_length D) d (map (poly_moment (radd e (background S ws zc dev)) S (rzero D)) ps) (rzero (length S)) f) as (f'' & C1 & C2 & C3); rewrite ?map_length, ?rzero_length; try lia; auto.
    rewrite C1 in E1. injection E1 as ->.
    assert (Lg : length (rsub f e) = length S) by (rewrite rsub_length; lia). assert (Lg' : length (rsub f' e) = length S) by (rewrite rsub_length; lia).
    assert (Psub : forall x q, length x = length S -> poly_moment (rsub x e) S (rzero D) q = poly_moment x S (rzero D) q - poly_moment e S (rzero D) q).
    { intros x q Hx. rewrite <- (radd_rsub_cancel x e) at 2 by congruence. rewrite poly_moment_radd by (rewrite rsub_length; lia). ring. }
    intros k q Eq'. rewrite !Psub by auto. assert (N : forall h : list R, nth k (map (poly_moment h S (rzero D)) ps) 0 = poly_moment h S (rzero D) q) by (intros h; now apply nth_error_nth, map_nth_error).
      pose proof (component D (length S) S ps (background S ws zc dev) (rzero D) F3 Lb (rzero_length D) d (map (poly_moment (radd e (background S ws zc dev)) S (rzero D)) ps) (rzero (length S)) f f' ltac:(lia) ltac:(rewrite map_length; lia) (rzero_length _) Hf E2 C3 k q Eq') as C4. rewrite N, nth_rzero in C4.
        rewrite !poly_moment_radd in C4 by congruence. lra.
  Qed.
  Lemma collision_dissipates zc dev compr fwd bwd d r c f :
    raw_transform S exps ps P Minv Pinv Mpinv (background S ws zc dev) fwd bwd -> (dev = true -> zc = true) ->
    separated_rates D S w ps d r -> (forall k, (k < length ps)%nat -> c <= nth k r 0 * (2 - nth k r 0)) ->
    length f = length S -> (compr = true -> pdf_density zc f <> 0) ->
    exists f', moment_collision D S ps zc compr (discrete_raw_moments S compr dev (Some 1%Z)) w (moment_matrix ps S (rzero D)) fwd bwd d None f = Ok f' /\
      length f' = length S /\ conserves D S f f' /\ energy w f' + c * energy w (deviation D S w f) <= energy w f.
  Proof.
    intros HT Hdz (Ld & Lr & Hr & Ho) Hc Hf Hrho. destruct (setup_facts _ _ _ _ _ _ _ _ _ _ HS) as (F1 & F2 & F3). pose proof HS as [X1 X2 X3 X4 X5 X6 X7]. pose proof w_length as Lw. unfold sizeQ in F3, X6.
    destruct (collision_relaxes zc dev compr fwd bwd d f HT Hdz Ld Hf Hrho) as (f' & E1 & E2 & E3 & E4). exists f'. split; [exact E1|]. split; [exact E2|]. split; [exact E3|].
    unfold deviation. set (e := linear_equilibrium D S w f) in *. assert (Le : length e = length S) by (apply linear_length; exact Lw).
    assert (Lg : length (rsub f e) = length S) by (rewrite rsub_length; lia). assert (Lg' : length (rsub f' e) = length S) by (rewrite rsub_length; lia).
    assert (Mom : forall k, (k < length S)%nat -> nth k (mv (moment_matrix ps S (rzero D)) (rsub f' e)) 0 = (1 - nth k r 0) * nth k (mv (moment_matrix ps S (rzero D)) (rsub f e)) 0).
    { intros k Hk. destruct (nth_error ps k) as [q|] eqn:Eq'; [|apply nth_error_None in Eq'; lia]. rewrite !mv_moment_matrix, !(nth_error_nth _ _ 0 (map_nth_error (poly_moment _ S (rzero D)) _ _ Eq')).
      rewrite (E4 k q Eq'). destruct (Hr k q Eq') as [Hcons|Edr]; [|rewrite Edr; reflexivity].
      unfold e. rewrite (deviation_conserved f f q Hf) by (auto; split; reflexivity). ring. }
    pose proof (relax_energy (length S) (moment_matrix ps S (rzero D)) Mpinv w r X6 Lw (fun i Hi => weights_positive S ws i HW H7 Hi)) as RE.
    assert (Or : forall k l, (k < length S)%nat -> (l < length S)%nat -> nth k r 0 <> nth l r 0 -> gram (length S) (moment_matrix ps S (rzero D)) w k l = 0).
    { intros k l Hk Hl Hn. destruct (nth_error ps k) as [q|] eqn:Ek; [|apply nth_error_None in Ek; lia]. destruct (nth_error ps l) as [q'|] eqn:El'; [|apply nth_error_None in El'; lia].
      rewrite <- (Ho k l q q' Ek El' Hn). unfold gram, overlap.
      assert (Me : forall j i s, nth_error ps j = Some s -> (i < length S)%nat -> me (moment_matrix ps S (rzero D)) j i = peval s (vecR (nth i S []))).
      { intros j i s Ej Hi. unfold me, moment_matrix. rewrite (nth_error_nth _ _ [] (map_nth_error _ _ _ Ej)). set (h := fun c => peval s _). rewrite (nth_indep _ 0 (h [])) by (rewrite map_length; exact Hi). rewrite map_nth. unfold h.
        pose proof (proj1 (Forall_forall _ _) F1 (nth i S []) (nth_In _ _ Hi)) as Hl'. cbv beta in Hl'. rewrite <- Hl', rsub_vecR_zero. reflexivity. }
      transitivity (fsum w S (fun c => peval q (vecR c) * peval q' (vecR c))).
      - rewrite (fsum_seq w S _ Lw). apply rsum_ext. intros i Hi. apply in_seq in Hi. rewrite (Me k i q Ek), (Me l i q' El') by lia. ring.
      - unfold fsum. apply rsum_ext. intros; ring. }
    specialize (RE Or (rsub f e) (rsub f' e) c Lg Lg' Mom). rewrite (energy_split f f' Hf E2 E3), (energy_split f f Hf Hf) by (split; reflexivity). fold e.
    assert (RE' : energy w (rsub f' e) + c * energy w (rsub f e) <= energy w (rsub f e)) by (apply RE; intros k Hk; apply Hc; lia). lra.
  Qed.
End Linear.
