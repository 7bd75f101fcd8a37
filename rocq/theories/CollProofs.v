(* Conservation and impulse of the moment-space collisions. *)
From Coq Require Import List ZArith Bool Arith Reals Lra Lia.
From Verif Require Import StencilModel RealLib LinLib TransSpec TransModel MomModel EqModel EqSpec CollSpec CollModel TransProofs TransProofs2 TransProofs3.
Import ListNotations.
Local Open Scope R_scope.

(* ---- tuples ---- *)
Lemma map_const_seq (x : nat) D : forall k, map (fun _ => x) (seq k D) = repeat x D.
Proof. induction D as [|D IH]; intros k; [reflexivity|]. cbn. now rewrite IH. Qed.
Lemma unit_tuple_0 D : unit_tuple (Datatypes.S D) 0 = 1%nat :: zero_tuple D.
Proof. unfold unit_tuple, zero_tuple. cbn [seq map Nat.eqb]. f_equal. rewrite <- seq_shift, map_map. apply (map_const_seq 0). Qed.
Lemma unit_tuple_S D a : unit_tuple (Datatypes.S D) (Datatypes.S a) = 0%nat :: unit_tuple D a.
Proof. unfold unit_tuple. cbn [seq map Nat.eqb]. f_equal. rewrite <- seq_shift, map_map. reflexivity. Qed.
Lemma unit_tuple_length D a : length (unit_tuple D a) = D.
Proof. unfold unit_tuple. now rewrite map_length, seq_length. Qed.
Lemma zero_tuple_length D : length (zero_tuple D) = D.
Proof. apply repeat_length. Qed.

Lemma rmono_zero x : forall D, rmono x (zero_tuple D) = 1.
Proof. induction x as [|a x IH]; intros [|D]; cbn [zero_tuple repeat rmono]; auto. unfold zero_tuple in IH. rewrite IH. lra. Qed.
Lemma rmono_unit x : forall a, (a < length x)%nat -> rmono x (unit_tuple (length x) a) = nth a x 0.
Proof.
  induction x as [|y x IH]; intros a Ha; [cbn in Ha; lia|]. cbn [length]. destruct a as [|a].
  - rewrite unit_tuple_0. cbn [rmono nth]. rewrite rmono_zero. lra.
  - rewrite unit_tuple_S. cbn [rmono nth]. rewrite IH by (cbn in Ha; lia). lra.
Qed.

Lemma poly_moment_mono f S u e : poly_moment f S u (mono_poly e) = central_moment f S u e.
Proof. unfold poly_moment, central_moment. apply rsum_ext. intros [x c] _. unfold peval, mono_poly. cbn [map fst snd]. rewrite rsum_cons. cbn. lra. Qed.
Lemma central_zero f S u D : central_moment f S u (zero_tuple D) = density f S.
Proof. unfold central_moment, density, fsum. apply rsum_ext. intros [x c] _. cbn [fst snd]. now rewrite rmono_zero. Qed.
Lemma nth_vecR c a : nth a (vecR c) 0 = comp c a.
Proof. unfold vecR, comp. change 0 with (IZR 0%Z) at 1. now rewrite map_nth. Qed.
Lemma central_unit D f S u a : Forall (fun c => length c = D) S -> length u = D -> (a < D)%nat ->
  central_moment f S u (unit_tuple D a) = momentum f S a - nth a u 0 * density f S.
Proof.
  intros HS Hu Ha. unfold central_moment, momentum, density, fsum.
  rewrite <- rsum_scal, <- rsum_minus. apply rsum_ext. intros [x c] Hin. cbn [fst snd].
  apply in_combine_r in Hin. rewrite Forall_forall in HS. specialize (HS c Hin).
  assert (L : length (rsub (vecR c) u) = D) by (rewrite rsub_length; unfold vecR; rewrite map_length; lia).
  rewrite <- L, rmono_unit by lia. rewrite nth_rsub by (unfold vecR; rewrite map_length; congruence).
  rewrite nth_vecR. lra.
Qed.
Lemma fsum_radd f w S g : length f = length w -> fsum (radd f w) S g = fsum f S g + fsum w S g.
Proof. intros H. unfold fsum. now rewrite combine_radd. Qed.
Lemma density_rsum S : forall f, length f = length S -> density f S = rsum f.
Proof.
  unfold density, fsum. induction S as [|c S IH]; intros [|x f] H; try discriminate; [reflexivity|].
  cbn [combine map]. rewrite !rsum_cons, IH by (cbn in H; lia). cbn. lra.
Qed.
Lemma momentum_pdf S f a : pdf_momentum S f a = momentum f S a. Proof. reflexivity. Qed.

(* ---- the i-th equation of a collision ---- *)
Section Core.
  Variables (D n : nat) (S : stencil) (ps : list poly) (w u : list R) (fwd bwd : list R -> res (list R)).
  Hypothesis Hdim : Forall (fun c => length c = D) S.
  Hypothesis HT : moment_transform n S ps w u fwd bwd.
  Hypothesis Hps : length ps = n.
  Hypothesis Hw : length w = n.
  Hypothesis Hu : length u = D.

  Lemma collide_defined d eqs g f : length d = n -> length eqs = n -> length g = n -> length f = n ->
    exists f', collide fwd bwd d eqs g f = Ok f' /\ length f' = n /\
      map (poly_moment (radd f' w) S u) ps = radd (relax d eqs (map (poly_moment (radd f w) S u) ps)) g.
  Proof.
    intros Hd He Hg Hf. destruct HT as (HT1 & HT2 & HT3). unfold collide. rewrite HT1 by auto. cbn [rbind].
    destruct (HT2 (radd (relax d eqs (map (poly_moment (radd f w) S u) ps)) g)) as (f' & H1 & H2 & H3); eauto.
    unfold relax. rewrite !radd_length, rmul_length, rsub_length, map_length. lia.
  Qed.

  Variables (d eqs g f f' : list R).
  Hypothesis (Hd : length d = n) (He : length eqs = n) (Hg : length g = n) (Hf : length f = n) (Hf' : length f' = n).
  Hypothesis Hk : map (poly_moment (radd f' w) S u) ps = radd (relax d eqs (map (poly_moment (radd f w) S u) ps)) g.

  Lemma component i p : nth_error ps i = Some p ->
    poly_moment (radd f' w) S u p = poly_moment (radd f w) S u p + nth i d 0 * (nth i eqs 0 - poly_moment (radd f w) S u p) + nth i g 0.
  Proof.
    intros Hi. assert (N : forall h : list R, nth i (map (poly_moment h S u) ps) 0 = poly_moment h S u p).
    { intros h. now apply nth_error_nth, map_nth_error. }
    rewrite <- (N (radd f' w)), Hk, <- (N (radd f w)).
    assert (L : length (map (poly_moment (radd f w) S u) ps) = n) by now rewrite map_length.
    unfold relax. assert (length (rmul d (rsub eqs (map (poly_moment (radd f w) S u) ps))) = n) by (rewrite rmul_length, rsub_length; lia).
    rewrite nth_radd by (rewrite radd_length; lia). rewrite nth_radd, nth_rmul, nth_rsub by (rewrite ?rsub_length; lia). reflexivity.
  Qed.

  Lemma mass_change i : nth_error ps i = Some (mono_poly (zero_tuple D)) ->
    density f' S = density f S + nth i d 0 * (nth i eqs 0 - (density f S + density w S)) + nth i g 0.
  Proof.
    intros Hi. pose proof (component i _ Hi) as E. rewrite !poly_moment_mono, !central_zero in E.
    unfold density in *. rewrite !fsum_radd in E by congruence. lra.
  Qed.
  Lemma momentum_change i a : (a < D)%nat -> density f' S = density f S -> nth_error ps i = Some (mono_poly (unit_tuple D a)) ->
    momentum f' S a = momentum f S a
      + nth i d 0 * (nth i eqs 0 - (momentum f S a + momentum w S a - nth a u 0 * (density f S + density w S))) + nth i g 0.
  Proof.
    intros Ha Hm Hi. pose proof (component i _ Hi) as E. rewrite !poly_moment_mono, !(central_unit D) in E by auto.
    unfold density, momentum in *. rewrite !fsum_radd in E by congruence. rewrite Hm in E. lra.
  Qed.
End Core.

Lemma nth_error_In_ex {A} (l : list A) x : In x l -> exists i, nth_error l i = Some x.
Proof. apply In_nth_error. Qed.
Lemma nth_values (ps : list poly) g i p : nth_error ps i = Some p -> nth i (equilibrium_values ps g) 0 = poly_value g p.
Proof. intros H. unfold equilibrium_values. now apply nth_error_nth, map_nth_error. Qed.
Lemma poly_value_mono g e : poly_value g (mono_poly e) = g e.
Proof. unfold poly_value, mono_poly. cbn [map fst snd]. rewrite rsum_cons. cbn. lra. Qed.
Lemma values_length ps g : length (equilibrium_values ps g) = length ps.
Proof. apply map_length. Qed.

(* ---- velocity ---- *)
Lemma velocity_length D S zc compr force f : (forall fm F, force = Some (fm, F) -> length F = D) ->
  length (equilibrium_velocity D S zc compr force f) = D.
Proof.
  intros H. unfold equilibrium_velocity. destruct force as [[fm F]|]; [|now rewrite map_length, seq_length].
  specialize (H fm F eq_refl). unfold equilibrium_velocity_shift, default_velocity_shift.
  rewrite radd_length, map_length, seq_length. destruct (shifts_equilibrium fm); [rewrite map_length|rewrite rzero_length]; lia.
Qed.
Lemma velocity_nth D S zc compr force f a : (a < D)%nat -> (forall fm F, force = Some (fm, F) -> length F = D) ->
  let ref := reference_density compr (pdf_density zc f) in ref <> 0 ->
  ref * nth a (equilibrium_velocity D S zc compr force f) 0 = momentum f S a +
    match force with Some (fm, F) => if shifts_equilibrium fm then nth a F 0 / 2 else 0 | None => 0 end.
Proof.
  intros Ha HF ref Hr. unfold equilibrium_velocity. fold ref.
  assert (N : nth a (map (fun b => pdf_momentum S f b / ref) (seq 0 D)) 0 = momentum f S a / ref).
  { rewrite nth_map_seq by auto. reflexivity. }
  destruct force as [[fm F]|]; [|rewrite N; field; auto]. specialize (HF fm F eq_refl).
  unfold equilibrium_velocity_shift, default_velocity_shift. destruct (shifts_equilibrium fm).
  - rewrite nth_radd by (rewrite !map_length, seq_length; auto). rewrite N.
    replace 0 with (0 / (2 * ref)) at 1 by (field; auto). rewrite (map_nth (fun x => x / (2 * ref))). field; auto.
  - rewrite nth_radd by (rewrite map_length, seq_length, rzero_length; auto). rewrite N, nth_rzero. field; auto.
Qed.
Lemma reference_nonzero (compr : bool) rho : (compr = true -> rho <> 0) -> reference_density compr rho <> 0.
Proof. destruct compr; cbn; [auto|intros _; lra]. Qed.
