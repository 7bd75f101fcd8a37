(* Velocity bounce back: equilibrium populations, moving walls. *)
From Coq Require Import String List ZArith Bool Arith Reals Lra Lia Permutation QArith Qreals.
From Verif Require Import StencilModel StencilSpec StencilProofs StencilProofs2 AccessModel AccessProofs StreamModel StreamSpec StreamProofs RealLib LinLib
  TransSpec EqModel EqSpec EqProofs CollModel CollSpec MacroModel BoundModel BoundSpec BoundProofs BoundProofs2 BoundProofs3.
Import ListNotations.
Local Open Scope R_scope.

Lemma abs_sum_vneg d : abs_sum (vneg d) = abs_sum d.
Proof. unfold abs_sum, vneg. rewrite map_map. f_equal. apply map_ext. intros; apply Z.abs_opp. Qed.
Lemma enum_nth_negate (a : nat) (d : vec) (b : nat) : nth b (negate_at a d) 0%Z = if Nat.eqb b a then (- nth b d 0)%Z else nth b d 0%Z.
Proof.
  unfold negate_at, enum. assert (G : forall k : nat, nth b (map (fun p : nat * Z => if Nat.eqb (fst p) (k + a) then (- snd p)%Z else snd p) (combine (seq k (length d)) d)) 0%Z
    = if Nat.eqb b a then (- nth b d 0)%Z else nth b d 0%Z).
  { revert a b. induction d as [|z d IH]; intros a b k; [cbn [nth length seq combine map]; destruct b; match goal with |- context [if ?x then _ else _] => destruct x end; reflexivity|].
    cbn [length seq combine map]. destruct b as [|b]; cbn [nth fst snd].
    - destruct a; [rewrite Nat.add_0_r, Nat.eqb_refl; reflexivity|]. destruct (Nat.eqb_spec k (k + Datatypes.S a)); [lia|reflexivity].
    - destruct a as [|a].
      + cbn [Nat.eqb]. rewrite (map_ext_in _ (fun p => snd p)).
        2:{ intros [j y] Hj. apply in_combine_l in Hj. rewrite in_seq in Hj. cbn [fst snd]. destruct (Nat.eqb_spec j (k + 0)); [lia|reflexivity]. }
        clear. revert b k. induction d as [|z d IH]; intros [|b] k; try reflexivity. cbn [length seq combine map nth snd]. apply (IH b (Datatypes.S k)).
      + cbn [Nat.eqb]. rewrite <- (IH a b (Datatypes.S k)). f_equal. apply map_ext. intros [j y]. cbn [fst snd]. replace (k + Datatypes.S a)%nat with (Datatypes.S k + a)%nat by lia. reflexivity. }
  rewrite <- (G 0%nat). reflexivity.
Qed.
Lemma negate_at_length a d : length (negate_at a d) = length d.
Proof. unfold negate_at, enum. rewrite map_length, combine_length, seq_length. lia. Qed.
Lemma negate_at_reflected a d : reflected a d (negate_at a d).
Proof. split; [apply negate_at_length|]. intros b. apply enum_nth_negate. Qed.
Lemma vec_ext (c d : vec) : length c = length d -> (forall b, nth b c 0%Z = nth b d 0%Z) -> c = d.
Proof. intros Hl H. apply (nth_ext _ _ 0%Z 0%Z Hl). intros n _. apply H. Qed.
Lemma reflected_unique a c d d' : reflected a c d -> reflected a c d' -> d = d'.
Proof. intros [H1 H2] [H3 H4]. apply vec_ext; [congruence|]. intros b. rewrite H2, H4. reflexivity. Qed.
Lemma negate_at_invol a d : negate_at a (negate_at a d) = d.
Proof.
  apply vec_ext; [now rewrite !negate_at_length|]. intros b. rewrite !enum_nth_negate. destruct (Nat.eqb b a); [lia|reflexivity].
Qed.
Lemma negate_at_abs a d : map Z.abs (negate_at a d) = map Z.abs d.
Proof.
  apply (nth_ext _ _ 0%Z 0%Z); [now rewrite !map_length, negate_at_length|]. intros n _. change 0%Z with (Z.abs 0). rewrite !map_nth, enum_nth_negate.
  destruct (Nat.eqb n a); [apply Z.abs_opp|reflexivity].
Qed.
Lemma abs_sum_negate a d : abs_sum (negate_at a d) = abs_sum d.
Proof. unfold abs_sum. now rewrite negate_at_abs. Qed.

(* weights depend on the speed only *)
Lemma weights_speed (S : stencil) ws i j : get_weights S = Ok ws -> (i < length S)%nat -> (j < length S)%nat ->
  abs_sum (dir S i) = abs_sum (dir S j) -> nth i (map Q2R ws) 0 = nth j (map Q2R ws) 0.
Proof.
  intros Hw Hi Hj E. unfold get_weights in Hw.
  destruct (mapM_nth _ _ _ i (dir S i) Hw (dir_nth_error S i Hi)) as (wi & Ei & Ni).
  destruct (mapM_nth _ _ _ j (dir S j) Hw (dir_nth_error S j Hj)) as (wj & Ej & Nj).
  assert (wi = wj). { unfold weight_for_direction in Ei, Ej. rewrite E in Ei. rewrite Ei in Ej. now injection Ej. }
  subst wj. rewrite <- RMicromega.Q2R_0, !map_nth. rewrite (nth_error_nth _ _ 0%Q Ni), (nth_error_nth _ _ 0%Q Nj). reflexivity.
Qed.
Lemma weights_opp D (S : stencil) ws i : symmetric_stencil D S -> get_weights S = Ok ws -> (i < length S)%nat ->
  nth (opp S i) (map Q2R ws) 0 = nth i (map Q2R ws) 0.
Proof.
  intros HS Hw Hi. apply (weights_speed S ws); auto; [apply (opp_lt D S HS i Hi)|]. rewrite (dir_opp D S HS i Hi). apply abs_sum_vneg.
Qed.

Lemma nth_combine_map {A B} (g : A * B -> R) (la : list A) (lb : list B) i da db : length la = length lb -> (i < length la)%nat ->
  nth i (map g (combine la lb)) 0 = g (nth i la da, nth i lb db).
Proof.
  intros Hl Hi. rewrite (nth_indep _ 0 (g (da, db))) by (rewrite map_length, combine_length; lia).
  rewrite map_nth, combine_nth by exact Hl. reflexivity.
Qed.

Lemma hydro_nth (S : stencil) ws compr dev order rho u g i : get_weights S = Ok ws ->
  hydro_maxwellian S compr dev order rho u (1 / 3) = Ok g -> (i < length S)%nat ->
  nth i g 0 = discrete_equilibrium (dir S i) (firstn (dimD S) u) rho (nth i (map Q2R ws) 0) (match order with Some o => o | None => 4%Z end) (1 / 3) compr
              - (if dev then nth i (map Q2R ws) 0 else 0).
Proof.
  intros Hw H Hi. pose proof (get_weights_length _ _ Hw) as HL. unfold hydro_maxwellian in H.
  assert (E : discrete_maxwellian_equilibrium S rho u (match order with Some o => o | None => 4%Z end) (1 / 3) compr
     = Ok (map (fun wc => discrete_equilibrium (snd wc) (firstn (dimD S) u) rho (Q2R (fst wc)) (match order with Some o => o | None => 4%Z end) (1 / 3) compr) (combine ws S))).
  { unfold discrete_maxwellian_equilibrium. rewrite Hw. reflexivity. }
  rewrite E in H. cbn [rbind] in H.
  assert (NW : nth i (map Q2R ws) 0 = Q2R (nth i ws 0%Q)) by (rewrite <- RMicromega.Q2R_0 at 1; apply map_nth).
  destruct dev.
  - rewrite (rest_equilibrium S ws (1/3) Hw) in H. cbn [rbind] in H. injection H as <-.
    rewrite (nth_combine_map _ _ _ i 0 0) by (rewrite ?map_length, ?combine_length; lia). cbn [fst snd].
    rewrite (nth_combine_map _ _ _ i 0%Q ([] : vec)) by lia. cbn [fst snd]. rewrite NW. reflexivity.
  - injection H as <-. rewrite (nth_combine_map _ _ _ i 0%Q ([] : vec)) by lia. cbn [fst snd]. rewrite NW. unfold dir. ring.
Qed.
Lemma hydro_length (S : stencil) ws compr dev order rho u g : get_weights S = Ok ws ->
  hydro_maxwellian S compr dev order rho u (1 / 3) = Ok g -> length g = length S.
Proof. intros Hw H. destruct (hydro_split S ws compr dev order rho u (1/3) g Hw H) as (_ & _ & _ & E & _). exact E. Qed.
Lemma density_rsum f (S : stencil) : length f = length S -> density f S = rsum f.
Proof.
  unfold density, fsum. revert S. induction f as [|a f IH]; intros [|c S] H; try discriminate; [reflexivity|].
  cbn [combine map]. rewrite !rsum_cons, IH by (cbn in H; lia). cbn. ring.
Qed.

Lemma ubb_rule L (S : stencil) ws zc compr force density adapt vel i b f (x : cell L) :
  symmetric_stencil (ldim L) S -> length (f x) = length S ->
  ubb S ws zc compr force density adapt vel i = Ok b ->
  let rho := ubb_density zc density (f x) in
  let v := if adapt then init_velocity (dimD S) compr rho vel force else vel in
  rule_value S f x b = nth i (f x) 0 - 6 * nth i ws 0 * (if compr then rho else 1) * e_times_u (dir S i) v.
Proof.
  intros HS Hl H. unfold ubb in H. destruct (negb _); [discriminate|]. injection H as <-.
  rewrite rule_all_out by assumption. cbv zeta. change (offset_of S i) with (dir S i). destruct compr; field.
Qed.

Lemma init_velocity_none D compr rho u : length u = D -> init_velocity D compr rho u None = u.
Proof.
  intros Hl. unfold init_velocity, macroscopic_velocity_shift, rzero. rewrite <- Hl, firstn_all. clear.
  induction u as [|a u IH]; [reflexivity|]. cbn [length repeat combine map fst snd]. rewrite IH. f_equal. ring.
Qed.

Definition cubic (cu uu : R) : R := 9 * cu * (cu * cu - uu).
Lemma ubb_equilibrium L (S : stencil) ws zc compr force density adapt order rho u g b f (x : cell L) i :
  symmetric_stencil (ldim L) S -> get_weights S = Ok ws ->
  length u = dimD S -> hydro_maxwellian S compr zc order rho u (1 / 3) = Ok g -> f x = g ->
  (i < length S)%nat -> (adapt = true -> force = None) -> ubb_density zc density g = rho ->
  ubb S (map Q2R ws) zc compr force density adapt u i = Ok b ->
  rule_value S f x b = nth (opp S i) g 0 +
    (if (match order with Some o => o | None => 4%Z end <=? 2)%Z then 0
     else nth i (map Q2R ws) 0 * (if compr then rho else 1) * cubic (e_times_u (dir S i) u) (u_times_u u)).
Proof.
  intros HS Hw Hu Hg Hfx Hi Had Hrho Hb. pose proof (hydro_length S ws _ _ _ _ _ _ Hw Hg) as HL.
  pose proof (ubb_rule L S (map Q2R ws) zc compr force density adapt u i b f x HS) as HR. rewrite Hfx in HR. specialize (HR HL Hb). cbv zeta in HR.
  rewrite HR, Hrho. clear HR.
  assert (V : (if adapt then init_velocity (dimD S) compr rho u force else u) = u).
  { destruct adapt; [|reflexivity]. rewrite Had by reflexivity. now apply init_velocity_none. }
  rewrite V. clear V. pose proof (opp_lt _ S HS i Hi) as Ho.
  rewrite (hydro_nth S ws compr zc order rho u g i Hw Hg Hi), (hydro_nth S ws compr zc order rho u g (opp S i) Hw Hg Ho).
  rewrite (dir_opp _ S HS i Hi), (weights_opp _ S ws i HS Hw Hi). rewrite <- Hu, firstn_all.
  set (o := match order with Some o => o | None => 4%Z end). unfold discrete_equilibrium. rewrite e_times_u_vneg.
  set (cu := e_times_u (dir S i) u). set (uu := u_times_u u). set (w := nth i (map Q2R ws) 0). unfold cubic.
  destruct (Z.leb_spec o 1) as [H1|H1].
  - assert (E : (o <=? 2)%Z = true) by (apply Z.leb_le; lia). rewrite E. destruct compr, zc; field.
  - destruct (Z.leb_spec o 2) as [H2|H2]; destruct compr, zc; field.
Qed.

(* ---------- tangentially moving flat wall ---------- *)
Lemma e_times_u_seq (c : vec) (v : list R) : length c = length v ->
  e_times_u c v = rsum (map (fun b => IZR (nth b c 0%Z) * nth b v 0) (seq 0 (length v))).
Proof.
  unfold e_times_u. revert v. induction c as [|z c IH]; intros [|r v] H; try discriminate; [reflexivity|].
  cbn [combine map length seq]. rewrite !rsum_cons, IH by (cbn in H; lia). cbn [fst snd nth]. f_equal. rewrite <- seq_shift, map_map. reflexivity.
Qed.

Definition wall_dirs (S : stencil) (a : nat) (s : Z) : list nat := filter (fun i => Z.eqb (nth a (dir S i) 0%Z) s) (seq 0 (length S)).
Lemma wall_dirs_In S a s i : In i (wall_dirs S a s) <-> (i < length S)%nat /\ nth a (dir S i) 0%Z = s.
Proof. unfold wall_dirs. rewrite filter_In, in_seq, Z.eqb_eq. split; intros [? ?]; split; auto; lia. Qed.

Section Tangential.
  Context (D : nat) (S : stencil) (ws : list Q).
  Hypothesis HS : symmetric_stencil D S.
  Hypothesis HM : forall d b, In d S -> In (negate_at b d) S.
  Hypothesis HW : get_weights S = Ok ws.

  Definition mir (b i : nat) : nat := match index_of (negate_at b (dir S i)) S with Some k => k | None => 0%nat end.
  Lemma mir_spec b i : (i < length S)%nat -> (mir b i < length S)%nat /\ dir S (mir b i) = negate_at b (dir S i).
  Proof.
    intros Hi. unfold mir. destruct (index_of_In (negate_at b (dir S i)) S) as [k Hk]. { apply HM, dir_In, Hi. }
    rewrite Hk. pose proof (index_of_Some _ _ _ Hk) as E. split.
    - apply nth_error_Some; rewrite E; discriminate.
    - unfold dir at 1. now apply nth_error_nth.
  Qed.
  Lemma mir_mir b i : (i < length S)%nat -> mir b (mir b i) = i.
  Proof.
    intros Hi. destruct (mir_spec b i Hi) as [H1 H2], (mir_spec b _ (proj1 (mir_spec b i Hi))) as [H3 H4].
    apply (dir_inj D S HS); auto. now rewrite H4, H2, negate_at_invol.
  Qed.
  Lemma tangential_component a s b : b <> a ->
    rsum (map (fun i => nth i (map Q2R ws) 0 * IZR (nth b (dir S i) 0%Z)) (wall_dirs S a s)) = 0.
  Proof.
    intros Hab. set (h := fun i => nth i (map Q2R ws) 0 * IZR (nth b (dir S i) 0%Z)).
    assert (ND : NoDup (wall_dirs S a s)) by (apply NoDup_filter, seq_NoDup).
    assert (E : rsum (map (fun i => h (mir b i)) (wall_dirs S a s)) = rsum (map h (wall_dirs S a s))).
    { apply (rsum_reindex (mir b) h); auto.
      - intros i Hi. apply wall_dirs_In in Hi as [Hi Ha]. apply wall_dirs_In. destruct (mir_spec b i Hi) as [H1 H2]. split; [exact H1|].
        rewrite H2, enum_nth_negate. destruct (Nat.eqb_spec a b); [congruence|exact Ha].
      - intros i j Hi Hj E. apply wall_dirs_In in Hi as [Hi _], Hj as [Hj _]. rewrite <- (mir_mir b i Hi), <- (mir_mir b j Hj), E. reflexivity.
      - intros i Hi. apply wall_dirs_In in Hi as [Hi Ha]. exists (mir b i). split; [|now apply mir_mir]. apply wall_dirs_In. destruct (mir_spec b i Hi) as [H1 H2].
        split; [exact H1|]. rewrite H2, enum_nth_negate. destruct (Nat.eqb_spec a b); [congruence|exact Ha]. }
    rewrite (rsum_ext (fun i => h (mir b i)) (fun i => (-1) * h i)) in E.
    - rewrite (rsum_scal (-1) h) in E || rewrite rsum_scal in E. lra.
    - intros i Hi. apply wall_dirs_In in Hi as [Hi _]. destruct (mir_spec b i Hi) as [H1 H2]. unfold h.
      rewrite H2, enum_nth_negate, Nat.eqb_refl, opp_IZR. rewrite (weights_speed S ws (mir b i) i HW H1 Hi) by (rewrite H2; apply abs_sum_negate). ring.
  Qed.
  Lemma tangential_wall a s v : length v = D -> nth a v 0 = 0 ->
    rsum (map (fun i => nth i (map Q2R ws) 0 * e_times_u (dir S i) v) (wall_dirs S a s)) = 0.
  Proof.
    intros Hv Ha.
    rewrite (rsum_ext _ (fun i => rsum (map (fun b => nth i (map Q2R ws) 0 * IZR (nth b (dir S i) 0%Z) * nth b v 0) (seq 0 D)))).
    2:{ intros i Hi. apply wall_dirs_In in Hi as [Hi _]. rewrite e_times_u_seq by (rewrite (dir_length D S HS i Hi); congruence). rewrite Hv.
        rewrite <- rsum_scal. apply rsum_ext. intros; ring. }
    rewrite (rsum_swap (fun i b => nth i (map Q2R ws) 0 * IZR (nth b (dir S i) 0%Z) * nth b v 0)).
    rewrite (rsum_ext _ (fun _ => 0)); [apply rsum_zero|]. intros b _. rewrite (rsum_scal_r (nth b v 0) (fun i => nth i (map Q2R ws) 0 * IZR (nth b (dir S i) 0%Z))).
    destruct (Nat.eq_dec b a) as [->|Hba]; [rewrite Ha; ring|]. rewrite tangential_component by exact Hba. ring.
  Qed.
End Tangential.
