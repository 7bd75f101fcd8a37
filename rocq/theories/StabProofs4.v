(* Growth: rates outside of [0, 2], and equilibria of second order. *)
From Coq Require Import String List ZArith QArith Qreals Bool Arith Reals Lra Lia Permutation.
From Verif Require Import StencilModel StencilProofs StencilProofs2 AccessModel AccessProofs StreamModel StreamSpec StreamProofs RealLib LinLib TransSpec TransModel TransProofs EqModel EqSpec EqProofs CollModel CollSpec CollProofs CollProofs4 CollProofs5 CollProofs7 PropsEq PropsTrans PropsColl BoundSpec BoundProofs2 StabSpec StabProofs StabProofs2 StabProofs3.
Import ListNotations.
Local Open Scope R_scope.

Section Growth.
  Context (name ord : string) (S : stencil) (ws : list Q).
  Notation D := (dimD S).
  Notation w := (map Q2R ws).
  Context (exps : list (list nat)) (ps : list poly) (P Minv Pinv Mpinv : mat).
  Hypothesis HS : method_setup name ord S ws exps ps P Minv Pinv Mpinv.
  Let HSt : predefined_stencils name ord = Ok S. Proof. destruct HS; assumption. Qed.
  Let HW : get_weights S = Ok ws. Proof. destruct HS; assumption. Qed.

  Lemma linear_same f f' : conserves D S f f' -> linear_equilibrium D S w f' = linear_equilibrium D S w f.
  Proof.
    intros [C0 C1]. unfold linear_equilibrium. apply map_ext. intros wc. rewrite C0. f_equal. f_equal. f_equal. apply rsum_ext. intros a Ha. apply in_seq in Ha. rewrite C1 by lia. reflexivity.
  Qed.
  Lemma pdf_density_same zc f f' : length f = length S -> length f' = length S -> conserves D S f f' -> pdf_density zc f' = pdf_density zc f.
  Proof. intros Hf Hf' [C0 _]. rewrite !CollProofs.density_rsum in C0 by auto. unfold pdf_density. now rewrite C0. Qed.

  Context (zc dev compr : bool) (fwd bwd : list R -> res (list R)) (d : list R) (Col : list R -> list R).
  Hypothesis HT : raw_transform S exps ps P Minv Pinv Mpinv (background S ws zc dev) fwd bwd.
  Hypothesis Hdz : dev = true -> zc = true.
  Hypothesis Ld : length d = length ps.
  Hypothesis HCol : forall f, length f = length S -> (compr = true -> pdf_density zc f <> 0) ->
    moment_collision D S ps zc compr (discrete_raw_moments S compr dev (Some 1%Z)) w (moment_matrix ps S (rzero D)) fwd bwd d None f = Ok (Col f).

  Lemma iterated g n : length g = length S -> (compr = true -> pdf_density zc g <> 0) ->
    length (Nat.iter n Col g) = length S /\ conserves D S g (Nat.iter n Col g) /\
    forall k q, nth_error ps k = Some q -> poly_moment (deviation D S w (Nat.iter n Col g)) S (rzero D) q = (1 - nth k d 0) ^ n * poly_moment (deviation D S w g) S (rzero D) q.
  Proof.
    intros Hg Hrho. induction n as [|n (L1 & L2 & L3)]; [change (Nat.iter 0 Col g) with g; split; [exact Hg|]; split; [split; reflexivity|]; intros; cbn [pow]; ring|].
    change (Nat.iter (Datatypes.S n) Col g) with (Col (Nat.iter n Col g)). set (f := Nat.iter n Col g) in *.
    assert (Hr : compr = true -> pdf_density zc f <> 0) by (intros E; rewrite (pdf_density_same zc g f) by auto; auto).
    destruct (collision_relaxes name ord S ws HSt HW exps ps P Minv Pinv Mpinv HS zc dev compr fwd bwd d f HT Hdz Ld L1 Hr) as (f' & E1 & E2 & E3 & E4).
    rewrite (HCol f L1 Hr) in E1. injection E1 as E1. rewrite E1. split; [exact E2|]. split.
    - destruct L2, E3. split; [congruence|]. intros a Ha. rewrite H2 by exact Ha. auto.
    - intros k q Eq. unfold deviation. rewrite (linear_same f f' E3), (E4 k q Eq). fold (deviation D S w f) (deviation D S w g). rewrite (L3 k q Eq). cbn [pow]. ring.
  Qed.
  Lemma uniform (L : lattice) (C : nat -> cell L -> list R -> list R) (B : nat -> cell L -> nat -> brule R) g n : (forall n x f, C n x f = Col f) -> length g = length S -> (compr = true -> pdf_density zc g <> 0) ->
    forall x, post 0 S (fun _ => true) C B (fun _ => g) n x = Nat.iter n Col g.
  Proof.
    intros HC Hg Hrho. induction n as [|n IH]; intros x; [reflexivity|]. cbn [post]. rewrite HC. change (Nat.iter (Datatypes.S n) Col g) with (Col (Nat.iter n Col g)). f_equal.
    destruct (iterated g n Hg Hrho) as (L1 & _). transitivity (map (fun j => nth j (Nat.iter n Col g) 0) (seq 0 (length S))); [|apply map_nth_seq; exact L1].
    apply map_ext. intros j. cbv zeta. now rewrite IH.
  Qed.
  Lemma grows g k q : length g = length S -> (compr = true -> pdf_density zc g <> 0) -> nth_error ps k = Some q -> 1 < Rabs (1 - nth k d 0) ->
    poly_moment (deviation D S w g) S (rzero D) q <> 0 -> forall K, exists N, forall n, (N <= n)%nat -> K <= Rabs (poly_moment (Nat.iter n Col g) S (rzero D) q).
  Proof.
    intros Hg Hrho Eq H1 Hm K. pose proof (w_length name ord S ws HSt HW) as Lw. set (m := poly_moment (deviation D S w g) S (rzero D) q) in *. set (e := poly_moment (linear_equilibrium D S w g) S (rzero D) q).
    destruct (Pow_x_infinity (1 - nth k d 0) H1 ((K + Rabs e) / Rabs m)) as [N HN]. exists N. intros n Hn. destruct (iterated g n Hg Hrho) as (L1 & L2 & L3). specialize (L3 k q Eq). fold m in L3.
    assert (E : poly_moment (Nat.iter n Col g) S (rzero D) q = (1 - nth k d 0) ^ n * m + e).
    { rewrite <- L3. unfold deviation. rewrite (linear_same g _ L2). unfold e. pose proof (linear_length D S w g Lw) as Le. rewrite <- poly_moment_radd by (rewrite rsub_length; lia). f_equal. symmetry. apply radd_rsub_cancel. congruence. }
    rewrite E. specialize (HN n Hn). assert (Pm : 0 < Rabs m) by (now apply Rabs_pos_lt).
    apply Rge_le in HN. apply (Rmult_le_compat_r (Rabs m)) in HN; [|lra]. unfold Rdiv in HN. rewrite Rmult_assoc, Rinv_l, Rmult_1_r in HN by lra. rewrite <- Rabs_mult in HN.
    pose proof (Rabs_triang ((1 - nth k d 0) ^ n * m + e) (- e)) as T. rewrite Rabs_Ropp in T. replace ((1 - nth k d 0) ^ n * m + e + - e) with ((1 - nth k d 0) ^ n * m) in T by ring. lra.
  Qed.
End Growth.

Section Second.
  Context (name ord : string) (S : stencil) (ws : list Q).
  Notation D := (dimD S).
  Notation w := (map Q2R ws).
  Context (exps : list (list nat)) (ps : list poly) (P Minv Pinv Mpinv : mat).
  Hypothesis HS : method_setup name ord S ws exps ps P Minv Pinv Mpinv.
  Hypothesis H7 : sizeQ S <> 7%nat.
  Let HSt : predefined_stencils name ord = Ok S. Proof. destruct HS; assumption. Qed.
  Let HW : get_weights S = Ok ws. Proof. destruct HS; assumption. Qed.

  (* populations of orders one and two in the rest direction *)
  Lemma rest_population dev compr rho u i : length u = D -> (i < length S)%nat -> nth i S [] = vzero D ->
    exists p1 p2, hydro_maxwellian S compr dev (Some 1%Z) rho u (1 / 3) = Ok p1 /\ hydro_maxwellian S compr dev (Some 2%Z) rho u (1 / 3) = Ok p2 /\ length p1 = length S /\ length p2 = length S /\
      nth i p2 0 - nth i p1 0 = - (3 / 2) * nth i w 0 * (if compr then rho else 1) * u_times_u u.
  Proof.
    intros Lu Hi E0. assert (Lw : length ws = length S) by (apply (mapM_Ok_length _ _ _ HW)).
    set (g := fun o (wc : Q * vec) => discrete_equilibrium (snd wc) (firstn D u) rho (Q2R (fst wc)) o (1 / 3) compr).
    set (g0 := fun wc : Q * vec => discrete_equilibrium (snd wc) (firstn D (repeat 0 D)) 1 (Q2R (fst wc)) 0 (1 / 3) false).
    assert (Lg : forall o, length (map (g o) (combine ws S)) = length S) by (intros; rewrite map_length, combine_length; lia).
    assert (Lg0 : length (map g0 (combine ws S)) = length S) by (rewrite map_length, combine_length; lia).
    set (p := fun o => if dev then rsub (map (g o) (combine ws S)) (map g0 (combine ws S)) else map (g o) (combine ws S)).
    exists (p 1%Z), (p 2%Z). split; [unfold hydro_maxwellian, discrete_maxwellian_equilibrium; rewrite HW; cbn [rbind]; destruct dev; reflexivity|]. split.
    { (* background of order 0 *)
      unfold hydro_maxwellian, discrete_maxwellian_equilibrium; rewrite HW; cbn [rbind]; destruct dev; reflexivity. }
    assert (Lp : forall o, length (p o) = length S) by (intros; unfold p; destruct dev; rewrite ?rsub_length, ?Lg, ?Lg0; lia). split; [apply Lp|]. split; [apply Lp|].
    assert (Ng : forall o, nth i (map (g o) (combine ws S)) 0 = g o (nth i ws 0%Q, nth i S [])).
    { intros o. rewrite (nth_indep _ 0 (g o (0%Q, []))) by (rewrite Lg; lia). rewrite map_nth, combine_nth by exact Lw. reflexivity. }
    assert (Ew : nth i w 0 = Q2R (nth i ws 0%Q)) by (rewrite (nth_indep w 0 (Q2R 0%Q)) by (rewrite map_length; lia); apply map_nth).
    assert (Z : e_times_u (vzero D) u = 0).
    { rewrite (e_times_u_seq _ u D) by (auto using vzero_length). rewrite (rsum_ext _ (fun _ => 0)), rsum_zero; [reflexivity|]. intros a _. unfold comp, vzero. rewrite nth_repeat. ring. }
    assert (Goal' : g 2%Z (nth i ws 0%Q, nth i S []) - g 1%Z (nth i ws 0%Q, nth i S []) = - (3 / 2) * nth i w 0 * (if compr then rho else 1) * u_times_u u).
    { unfold g. cbn [fst snd]. rewrite firstn_all2 by lia. unfold discrete_equilibrium. cbv zeta. cbn [Z.leb Z.compare Pos.compare Pos.compare_cont]. rewrite E0, Z, Ew. destruct compr; field. }
    unfold p. destruct dev; [rewrite !nth_rsub by (rewrite ?Lg, ?Lg0; lia)|]; rewrite !Ng; lra.
  Qed.

  Lemma second_order_grows zc dev compr fwd bwd f i a :
    raw_transform S exps ps P Minv Pinv Mpinv (background S ws zc dev) fwd bwd -> (dev = true -> zc = true) ->
    length f = length S -> (compr = true -> pdf_density zc f <> 0) -> (i < length S)%nat -> nth i S [] = vzero D ->
    f = linear_equilibrium D S w f -> (a < D)%nat -> momentum f S a <> 0 ->
    exists f', moment_collision D S ps zc compr (discrete_raw_moments S compr dev (Some 2%Z)) w (moment_matrix ps S (rzero D)) fwd bwd (repeat 1 (length ps)) None f = Ok f' /\ energy w f < energy w f'.
  Proof.
    intros HT Hdz Hf Hrho Hi E0 Efix Ha Hmom. destruct (setup_facts _ _ _ _ _ _ _ _ _ _ HS) as (F1 & F2 & F3). pose proof HS as [X1 X2 X3 X4 X5 X6 X7]. pose proof (w_length name ord S ws HSt HW) as Lw. unfold sizeQ in F3, X6.
    pose proof (background_length _ _ _ _ zc dev X1 X2) as Lb. unfold sizeQ in Lb.
    assert (HMT : moment_transform (length S) S ps (background S ws zc dev) (rzero D) fwd bwd) by (eapply raw_transform_ok; eauto).
    set (rho := pdf_density zc f) in *. set (u := equilibrium_velocity D S zc compr None f).
    assert (Lu : length u = D) by (apply velocity_length; discriminate).
    destruct (rest_population dev compr rho u i Lu Hi E0) as (p1 & p2 & Ep1 & Ep2 & L1 & L2 & Ei).
    destruct (linear_populations name ord S ws HSt HW zc dev compr f Hf Hdz Hrho) as (p & Ep & Lp & El). fold rho u in Ep. rewrite Ep1 in Ep. injection Ep as <-. rewrite <- Efix in El.
    assert (Eq : equilibrium_values ps (discrete_raw_moments S compr dev (Some 2%Z) rho u) = map (poly_moment p2 S (rzero D)) ps).
    { unfold equilibrium_values. apply map_ext. intros q. rewrite poly_moment_value. unfold poly_value. apply rsum_ext. intros t _. unfold discrete_raw_moments. now rewrite Ep2. }
    destruct (C11_raw_moments_conserve name ord S ws exps ps P Minv Pinv Mpinv zc dev compr (discrete_raw_moments S compr dev (Some 2%Z)) fwd bwd (repeat 1 (length ps)) f HS) as (f' & E1 & E2 & E3); auto.
    { apply (discrete_hydro name ord S ws compr dev (Some 2%Z) X1 X2). right. cbn. lia. }
    { rewrite repeat_length. unfold sizeQ. lia. }
    exists f'. split; [exact E1|]. unfold sizeQ in E2. unfold moment_collision in E1. cbn [rbind] in E1. fold rho u in E1. rewrite Eq in E1.
    destruct (collide_defined D (length S) S ps (background S ws zc dev) (rzero D) fwd bwd HMT F3 Lb (rzero_length D) (repeat 1 (length ps)) (map (poly_moment p2 S (rzero D)) ps) (rzero (length S)) f) as (f'' & C1 & C2 & C3); rewrite ?map_length, ?rzero_length, ?repeat_length; try lia; auto.
    rewrite C1 in E1. injection E1 as ->.
    assert (Ef : radd f' (background S ws zc dev) = p2).
    { apply (moments_injective (length S) (moment_matrix ps S (rzero D)) Mpinv X6); [rewrite radd_length; lia|exact L2|]. intros k Hk. destruct (nth_error ps k) as [q|] eqn:Eq'; [|apply nth_error_None in Eq'; lia].
      rewrite !mv_moment_matrix, !(nth_error_nth _ _ 0 (map_nth_error (poly_moment _ S (rzero D)) _ _ Eq')).
      pose proof (component D (length S) S ps (background S ws zc dev) (rzero D) F3 Lb (rzero_length D) (repeat 1 (length ps)) (map (poly_moment p2 S (rzero D)) ps) (rzero (length S)) f f' ltac:(rewrite repeat_length; lia) ltac:(rewrite map_length; lia) (rzero_length _) Hf E2 C3 k q Eq') as C4.
      rewrite nth_rzero, (nth_error_nth _ _ 0 (map_nth_error (poly_moment p2 S (rzero D)) _ _ Eq')) in C4. replace (nth k (repeat 1 (length ps)) 0) with 1 in C4 by (symmetry; apply (repeat_spec (length ps)); apply nth_In; rewrite repeat_length; lia). lra. }
    rewrite (energy_split name ord S ws HSt HW H7 f f' Hf E2 E3). rewrite <- Efix.
    assert (Hn : nth i (rsub f' f) 0 <> 0).
    { rewrite nth_rsub by lia. assert (A1 : nth i f' 0 + nth i (background S ws zc dev) 0 = nth i p2 0) by (rewrite <- Ef, nth_radd by lia; reflexivity).
      assert (A2 : nth i f 0 = nth i p1 0 - nth i (background S ws zc dev) 0) by (rewrite <- El at 1; rewrite nth_rsub by lia; reflexivity).
      assert (Uu : 0 < u_times_u u).
      { assert (Nu : nth a u 0 <> 0).
        { intros Z. pose proof (velocity_nth D S zc compr None f a Ha ltac:(discriminate)) as E. cbv zeta in E. specialize (E (reference_nonzero _ _ Hrho)). fold u in E. rewrite Z in E. apply Hmom. lra. }
        unfold u_times_u. assert (0 < nth a u 0 * nth a u 0) by nra. eapply Rlt_le_trans; [exact H|]. apply (rsum_member_le (fun a => a * a)); [intros; nra|]. apply nth_In. lia. }
      pose proof (weights_positive S ws i HW H7 Hi) as Wp. assert (Nr : (if compr then rho else 1) <> 0) by (destruct compr; [auto|lra]).
      replace (nth i f' 0 - nth i f 0) with (nth i p2 0 - nth i p1 0) by lra. rewrite Ei. repeat apply Rmult_integral_contrapositive_currified; lra. }
    assert (Hpos : 0 < energy w (rsub f' f)).
    { unfold energy. pose proof (weights_positive S ws i HW H7 Hi) as Wp.
      apply Rlt_le_trans with (nth i (rsub f' f) 0 * nth i (rsub f' f) 0 / nth i w 0).
      - apply Rmult_lt_0_compat; [nra|]. now apply Rinv_0_lt_compat.
      - apply (rsum_member_le (fun i => nth i (rsub f' f) 0 * nth i (rsub f' f) 0 / nth i w 0)); [|apply in_seq; lia]. intros j Hj. apply in_seq in Hj. pose proof (weights_positive S ws j HW H7 ltac:(lia)). apply Rmult_le_pos; [nra|]. left. now apply Rinv_0_lt_compat. }
    lra.
  Qed.
End Second.
