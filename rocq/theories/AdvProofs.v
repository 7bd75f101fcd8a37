(* Advection and diffusion: the collision. *)
From Coq Require Import String List ZArith QArith Qreals Bool Arith Reals Lra Lia.
From Verif Require Import StencilModel StencilProofs StencilProofs2 AccessModel AccessProofs StreamModel StreamSpec StreamProofs RealLib LinLib TransSpec TransModel TransProofs EqModel EqSpec MomModel CollModel CollSpec CollProofs CollProofs4 CollProofs5 CollProofs7 PropsEq PropsTrans PropsColl IniModel IniSpec PropsIni BoundModel BoundSpec BoundProofs BoundProofs2 BoundProofs4 StabSpec StabProofs StabProofs2 AdvSpec.
Import ListNotations.
Local Open Scope R_scope.

Lemma weight_nonneg n d q : weight_for_direction n d = Ok q -> 0 <= Q2R q.
Proof.
  intros H. unfold weight_for_direction in H. destruct (weight_table n) as [t|] eqn:Et; [|discriminate]. destruct (find _ t) as [[k v]|] eqn:Ef; [|discriminate]. injection H as <-. apply find_some in Ef as [Hin _].
  replace 0 with (Q2R 0) by (unfold Q2R; cbn; field). apply Qle_Rle. cbn [snd].
  unfold weight_table in Et. do 28 (destruct n as [|n]; [try discriminate; try congruence; injection Et as <-; cbn in Hin; repeat (destruct Hin as [E|Hin]; [injection E as <- <-; discriminate|]); destruct Hin|]). discriminate.
Qed.
Lemma weights_nonneg S ws i : get_weights S = Ok ws -> 0 <= nth i (map Q2R ws) 0.
Proof.
  intros Hw. destruct (le_lt_dec (length ws) i) as [H|H]; [rewrite nth_overflow by (now rewrite map_length); lra|].
  unfold get_weights in Hw. revert H Hw. generalize (sizeQ S) as m. intros m. revert i ws. induction S as [|c S IH]; intros i ws H Hw.
  - injection Hw as <-. cbn in H. lia.
  - cbn [mapM] in Hw. destruct (weight_for_direction m c) as [b|] eqn:Eb; [|discriminate]. cbn [rbind] in Hw. destruct (mapM (weight_for_direction m) S) as [bs|] eqn:Ebs; [|discriminate]. cbn [rbind] in Hw. injection Hw as <-.
    destruct i as [|i]; cbn [map nth]; [apply (weight_nonneg m c b Eb)|]. apply (IH i bs); auto. cbn in H. lia.
Qed.

Lemma along_e c v : length c = length v -> e_times_u c v = along c v.
Proof. intros H. unfold along. apply e_times_u_seq; auto. Qed.

Lemma poly_moment_rscal c f S u p : poly_moment (rscal c f) S u p = c * poly_moment f S u p.
Proof.
  unfold poly_moment. rewrite <- rsum_scal. unfold rscal. f_equal. revert f. induction S as [|s S IH]; intros [|a f]; cbn [map combine]; auto. f_equal; [cbn; ring|apply IH].
Qed.
Definition equilibrium_share (compr second : bool) (phi : R) (c : vec) (v : list R) : R := if compr then phi * share second c v else phi + (share second c v - 1).
Definition order_of (second : bool) : Z := if second then 2%Z else 1%Z.

Section Collision.
  Context (name ord : string) (S : stencil) (ws : list Q).
  Hypothesis HSt : predefined_stencils name ord = Ok S.
  Hypothesis HW : get_weights S = Ok ws.
  Notation D := (dimD S).
  Notation w := (map Q2R ws).
  Let Hdim : Forall (fun c => length c = D) S.
  Proof. destruct (weights_isotropic _ _ _ _ HSt HW). assumption. Qed.
  Let Hiso : isotropic_weights D S w.
  Proof. destruct (weights_isotropic _ _ _ _ HSt HW). assumption. Qed.
  Let Lw : length w = length S.
  Proof. apply Hiso. Qed.

  Lemma equilibrium_populations zc dev compr second phi v : length v = D -> (dev = true -> zc = true) ->
    exists p, hydro_maxwellian S compr dev (Some (order_of second)) phi v (1 / 3) = Ok p /\ length p = length S /\
      forall i, (i < length S)%nat -> nth i p 0 - nth i (background S ws zc dev) 0 + offset zc w i = nth i w 0 * equilibrium_share compr second phi (nth i S []) v.
  Proof.
    intros Lv Hdz. pose proof Lw as Lw'. rewrite map_length in Lw'.
    set (g := fun wc : Q * vec => discrete_equilibrium (snd wc) (firstn D v) phi (Q2R (fst wc)) (order_of second) (1 / 3) compr).
    set (g0 := fun wc : Q * vec => discrete_equilibrium (snd wc) (firstn D (repeat 0 D)) 1 (Q2R (fst wc)) 0 (1 / 3) false).
    assert (Hg : forall i, (i < length S)%nat -> nth i (map g (combine ws S)) 0 = nth i w 0 * equilibrium_share compr second phi (nth i S []) v).
    { intros i Hi. rewrite (nth_indep _ 0 (g (0%Q, []))) by (rewrite map_length, combine_length; lia). rewrite map_nth, combine_nth by exact Lw'. unfold g. cbn [fst snd].
      replace (nth i w 0) with (Q2R (nth i ws 0%Q)) by (rewrite (nth_indep w 0 (Q2R 0%Q)) by (rewrite map_length; lia); symmetry; apply map_nth).
      rewrite firstn_all2 by lia. unfold discrete_equilibrium, equilibrium_share, share. cbv zeta.
      pose proof (along_e (nth i S []) v) as Ea. change (@nth vec) with (@nth (list Z)) in *. change (@nth (list Z)) with (@nth vec). change (@nth (list Z)) with (@nth vec) in Ea. rewrite Ea by (rewrite Lv; apply (proj1 (Forall_forall _ _) Hdim); apply nth_In; exact Hi). change (u_times_u v) with (square v).
      destruct second; cbn [order_of]; cbn [Z.leb Z.compare Pos.compare Pos.compare_cont]; destruct compr; field. }
    assert (Hg0 : forall i, (i < length S)%nat -> nth i (map g0 (combine ws S)) 0 = nth i w 0).
    { intros i Hi. rewrite (nth_indep _ 0 (g0 (0%Q, []))) by (rewrite map_length, combine_length; lia). rewrite map_nth, combine_nth by exact Lw'. unfold g0. cbn [fst snd].
      replace (nth i w 0) with (Q2R (nth i ws 0%Q)) by (rewrite (nth_indep w 0 (Q2R 0%Q)) by (rewrite map_length; lia); symmetry; apply map_nth).
      rewrite firstn_all2 by (rewrite repeat_length; lia). unfold discrete_equilibrium. cbv zeta. cbn [Z.leb Z.compare]. rewrite (e_times_u_seq _ _ D) by (rewrite ?repeat_length; auto; apply (proj1 (Forall_forall _ _) Hdim); apply nth_In; exact Hi).
      rewrite (rsum_ext _ (fun _ => 0)), rsum_zero; [field|]. intros a _. rewrite nth_repeat. ring. }
    assert (Lg : length (map g (combine ws S)) = length S) by (rewrite map_length, combine_length; lia).
    assert (Lg0 : length (map g0 (combine ws S)) = length S) by (rewrite map_length, combine_length; lia).
    exists (if dev then rsub (map g (combine ws S)) (map g0 (combine ws S)) else map g (combine ws S)).
    split; [unfold hydro_maxwellian, discrete_maxwellian_equilibrium; rewrite HW; cbn [rbind]; destruct dev; reflexivity|].
    split; [destruct dev; rewrite ?rsub_length; lia|]. intros i Hi. unfold background, offset. destruct dev.
    - rewrite (Hdz eq_refl). cbn [negb andb]. rewrite nth_rzero, nth_rsub, Hg, Hg0 by lia. ring.
    - destruct zc; cbn [negb andb]; [|rewrite nth_rzero]; rewrite Hg by lia; ring.
  Qed.

  Context (exps : list (list nat)) (ps : list poly) (P Minv Pinv Mpinv : mat).
  Hypothesis HM : method_setup name ord S ws exps ps P Minv Pinv Mpinv.
  Lemma prescribed_velocity_collision zc dev compr second fwd bwd omega v f : raw_transform S exps ps P Minv Pinv Mpinv (background S ws zc dev) fwd bwd -> (dev = true -> zc = true) ->
    length f = length S -> length v = D ->
    exists f', raw_input_collision D S ps zc compr (discrete_raw_moments S compr dev (Some (order_of second))) fwd bwd (repeat omega (length ps)) None (Some v) f = Ok f' /\ length f' = length S /\
      forall i, (i < length S)%nat -> population zc w f' i = (1 - omega) * population zc w f i + omega * (nth i w 0 * equilibrium_share compr second (concentration zc f) (nth i S []) v).
  Proof.
    intros HT Hdz Hf Hv. destruct (setup_facts _ _ _ _ _ _ _ _ _ _ HM) as (F1 & F2 & F3). pose proof HM as [X1 X2 X3 X4 X5 X6 X7].
    pose proof (background_length _ _ _ _ zc dev X1 X2) as Lb. unfold sizeQ in Lb, F3, X6.
    destruct (C52_prescribed_raw name ord S ws exps ps P Minv Pinv Mpinv zc dev compr (discrete_raw_moments S compr dev (Some (order_of second))) fwd bwd (repeat omega (length ps)) f None v HM) as (f' & E1 & E2 & _ & _ & _ & E3); auto.
    { apply (discrete_hydro name ord S ws compr dev (Some (order_of second)) X1 X2). right. destruct second; cbn; lia. }
    { rewrite repeat_length. unfold sizeQ. lia. }
    { lia. }
    exists f'. split; [exact E1|]. unfold sizeQ in E2. split; [exact E2|].
    assert (Em : mass zc S f = concentration zc f).
    { unfold mass, concentration. rewrite (density_rsum f S) by exact Hf. destruct zc; ring. }
    destruct (equilibrium_populations zc dev compr second (concentration zc f) v Hv Hdz) as (p & Ep & Lp & Hp). set (b := background S ws zc dev) in *.
    assert (V : radd f' b = radd (rscal (1 - omega) (radd f b)) (rscal omega p)).
    { apply (moments_injective (length S) (moment_matrix ps S (rzero D)) Mpinv X6).
      - rewrite radd_length; lia.
      - rewrite radd_length, !rscal_length, radd_length; lia.
      - intros k Hk. destruct (nth_error ps k) as [q|] eqn:Ek; [|apply nth_error_None in Ek; lia]. specialize (E3 k q Ek). cbv zeta in E3.
        assert (N : forall x, length x = length S -> nth k (mv (moment_matrix ps S (rzero D)) x) 0 = poly_moment x S (rzero D) q).
        { intros x Hx. rewrite <- poly_moment_mv. now apply nth_error_nth, map_nth_error. }
        rewrite !N by (rewrite radd_length, ?rscal_length, ?radd_length; lia).
        rewrite (poly_moment_radd (rscal (1 - omega) (radd f b)) (rscal omega p)) by (rewrite !rscal_length, radd_length; lia). rewrite !poly_moment_rscal.
        rewrite E3. replace (nth k (repeat omega (length ps)) 0) with omega by (symmetry; apply nth_error_nth; rewrite (nth_error_nth' _ 0) by (rewrite repeat_length; lia); f_equal; apply (repeat_spec (length ps)); apply nth_In; rewrite repeat_length; lia).
        rewrite firstn_all2 by lia. rewrite Em.
        replace (rsum (map (fun t => fst t * discrete_raw_moments S compr dev (Some (order_of second)) (concentration zc f) v (snd t)) q)) with (poly_moment p S (rzero D) q); [ring|].
        rewrite poly_moment_value. unfold poly_value. apply rsum_ext. intros t _. unfold discrete_raw_moments. now rewrite Ep. }
    intros i Hi. assert (Vi : nth i (radd f' b) 0 = nth i (radd (rscal (1 - omega) (radd f b)) (rscal omega p)) 0) by now rewrite V.
    rewrite !nth_radd, !nth_rscal, nth_radd in Vi by (rewrite ?rscal_length, ?radd_length; lia). specialize (Hp i Hi). unfold population. nra.
  Qed.
End Collision.
