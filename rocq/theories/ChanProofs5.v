(* Channels on a torus, the walls of lbmpy, collisions with lbmpy's moment-based methods. *)
From Coq Require Import String List ZArith QArith Qreals Bool Arith Reals Lra Lia.
From Verif Require Import RealLib StencilModel StencilProofs StencilProofs2 AccessModel AccessProofs GridModel GridProofs StreamModel StreamSpec StreamProofs StreamProofs2 EqModel EqSpec LinLib
  TransModel TransSpec CollModel CollSpec CollProofs BoundModel BoundSpec BoundProofs BoundProofs2 BoundProofs4 InbProofs ChanSpec ChanProofs2 ChanProofs3 ChanProofs4.
Import ListNotations.
Local Open Scope R_scope.

(* ---- geometry ---- *)
Lemma torus_channel N b H : (b < length N)%nat -> (Z.of_nat H + 1 < nth b (map Zpos N) 0)%Z -> channel b H (wall_fluid N b H) (wall_row N b).
Proof.
  intros Hb HH x Hx. unfold wall_fluid in Hx. apply andb_true_iff in Hx as [X1 X2]. apply Z.leb_le in X1, X2. split; [unfold wall_row; lia|].
  intros v Hv Hnear. cbv zeta. unfold wall_row at 1 2. rewrite Z2Nat.id by lia.
  assert (E : nth b (proj1_sig (shift x v)) 0%Z = (nth b (proj1_sig x) 0 + nth b v 0)%Z).
  { change (proj1_sig (shift x v)) with (gshift_raw (torus_shape N) (proj1_sig x) v). rewrite gshift_nth by exact Hb. apply Z.mod_small. lia. }
  unfold wall_fluid, wall_row. rewrite E. destruct ((0 <=? _) && _)%Z%bool eqn:F.
  - apply andb_true_iff in F as [F1 F2]. apply Z.leb_le in F1. apply Z.ltb_lt in F2. split; [apply andb_true_iff; split; apply Z.leb_le; lia|]. rewrite Z2Nat.id by lia. lia.
  - apply andb_false_iff in F. apply andb_false_iff. destruct F as [F|F]; [apply Z.leb_gt in F; left; apply Z.leb_gt; lia|apply Z.ltb_ge in F; right; apply Z.leb_gt; lia].
Qed.

(* ---- the walls ---- *)
Lemma along_zero D c k : along D c (rzero k) = 0.
Proof. unfold along. rewrite (rsum_ext _ (fun _ => 0)); [apply rsum_zero|]. intros a _. rewrite nth_rzero. ring. Qed.
Lemma along_scale D c k u : along D c (map (Rmult k) u) = k * along D c u.
Proof.
  unfold along. rewrite <- rsum_scal. apply rsum_ext. intros a _. replace (nth a (map (Rmult k) u) 0) with (k * nth a u 0); [ring|].
  rewrite <- (map_nth (Rmult k)). f_equal. ring.
Qed.
Lemma no_slip_walls (L : lattice) S ws b q fluid : symmetric_stencil (ldim L) S ->
  @wall_rules L S ws b q fluid (rzero (ldim L)) (rzero (ldim L)) (fun _ i => no_slip S i).
Proof.
  intros HS. split; [apply nth_rzero|]. split; [apply nth_rzero|]. intros f x i _ _. rewrite no_slip_value by exact HS. destruct (_ <? 0)%Z; rewrite along_zero; ring.
Qed.

(* velocity bounce back; density: the option of the boundary condition *)
Lemma ubb_walls (L : lattice) S ws (zc compr : bool) force density (adapt : bool) b q (ulo uhi : list R) (fluid : cell L -> bool) (B : cell L -> nat -> brule R) :
  symmetric_stencil (ldim L) S -> length ulo = ldim L -> length uhi = ldim L -> nth b ulo 0 = 0 -> nth b uhi 0 = 0 -> (adapt = true -> force = None) ->
  (density = None \/ density = Some ((if zc then 1 else 0) + q)) ->
  (forall x i, is_link S fluid (x, i) -> ubb S ws zc compr force density adapt (if (nth b (dir S i) 0 <? 0)%Z then ulo else uhi) i = Ok (B x i)) ->
  let ref := if compr then (if zc then 1 else 0) + q else 1 in
  wall_rules S ws b q fluid (map (Rmult ref) ulo) (map (Rmult ref) uhi) B.
Proof.
  intros HS Hl Hh Bl Bh Had Hd HB ref. assert (Z : forall u, nth b u 0 = 0 -> nth b (map (Rmult ref) u) 0 = 0).
  { intros u Hu. replace 0 with (ref * 0) at 1 by ring. rewrite map_nth, Hu. ring. }
  split; [auto|]. split; [auto|]. intros f x i Hi (Lf & Q0 & _). specialize (HB x i Hi).
  rewrite (ubb_rule L S ws zc compr force density adapt _ i _ f x HS Lf HB). set (v := if (nth b (dir S i) 0 <? 0)%Z then ulo else uhi) in *.
  assert (Lv : length v = ldim L) by (unfold v; destruct (_ <? 0)%Z; assumption).
  assert (Er : ubb_density zc density (f x) = (if zc then 1 else 0) + q).
  { unfold ubb_density. assert (E : pdf_density zc (f x) = (if zc then 1 else 0) + q) by (unfold pdf_density; rewrite <- (CollProofs.density_rsum S (f x) Lf), Q0; reflexivity).
    destruct Hd as [-> | ->]; [exact E|]. destruct (Req_EM_T _ 0); [exact E|reflexivity]. }
  cbv zeta. rewrite Er. replace (if adapt then _ else v) with v.
  2:{ destruct adapt; [|reflexivity]. rewrite Had by reflexivity. symmetry. apply init_velocity_none. rewrite Lv. symmetry. apply dimD_D. exact HS. }
  replace (if (nth b (dir S i) 0 <? 0)%Z then map (Rmult ref) ulo else map (Rmult ref) uhi) with (map (Rmult ref) v) by (unfold v; destruct (_ <? 0)%Z; reflexivity).
  rewrite along_scale. replace (e_times_u (dir S i) v) with (along (ldim L) (dir S i) v); [unfold ref; ring|].
  destruct Hi as (_ & Hi & _). cbn [fst snd] in Hi. rewrite e_times_u_seq by (rewrite Lv; apply (dir_length (ldim L) S HS i Hi)). unfold along. rewrite Lv. reflexivity.
Qed.

(* ---- the simulation ---- *)
Definition near_b (e : string * string * stencil) : bool := match get_weights (snd e) with Ok _ => forallb (forallb (fun z => (-1 <=? z) && (z <=? 1))%Z) (snd e) | Err _ => true end.
Lemma table_near : forallb near_b predefined_table = true.
Proof. vm_compute. reflexivity. Qed.
Lemma predefined_near name ord S ws b : predefined_stencils name ord = Ok S -> get_weights S = Ok ws -> forall c, In c S -> (-1 <= nth b c 0 <= 1)%Z.
Proof.
  intros HS Hw c Hc. apply predefined_In in HS. pose proof (proj1 (forallb_forall _ _) table_near _ HS) as W. unfold near_b in W. cbn [snd] in W. rewrite Hw in W.
  rewrite forallb_forall in W. specialize (W c Hc). rewrite forallb_forall in W. destruct (Nat.lt_ge_cases b (length c)) as [L|L]; [|rewrite nth_overflow by exact L; lia].
  specialize (W _ (nth_In c 0%Z L)). apply andb_true_iff in W as [W1 W2]. apply Z.leb_le in W1, W2. lia.
Qed.

Lemma flow_in_channel (L : lattice) name ord S ws b H fluid row q we wo F lo hi Col B p t xs0 xs links f0 init m_src m_tmp :
  predefined_stencils name ord = Ok S -> get_weights S = Ok ws -> sizeQ S <> 7%nat -> supported p (ldim L) S t -> (b < ldim L)%nat ->
  channel b H fluid row -> (forall n, wall_rules S (map Q2R ws) b q fluid lo hi (B n)) -> shear_collision (ldim L) S b q we wo F Col -> 0 < we < 2 -> 0 < wo < 2 ->
  (forall x, fluid x = true -> In x xs0) -> (forall n, NoDup (xs n)) -> (forall n x, In x (xs n) <-> fluid x = true) -> (forall n l, In l (links n) <-> is_link S fluid l) ->
  (forall f, length f = length S -> length (Col f) = length S) ->
  (forall n x i a, is_link S fluid (x, i) -> In a (b_reads (B n x i)) -> readable S fluid x a) ->
  (forall x, length (f0 x) = length S) -> (forall x, fluid x = true -> f0 x = init (row x)) -> (forall k, (k < H)%nat -> at_rest_across S b q (init k)) ->
  exists g, forall x, fluid x = true -> (forall n, simulate L R p t S xs0 xs links (fun _ _ => Col) B f0 m_src m_tmp n x = Ok (g n x) /\ at_rest_across S b q (g n x)) /\
    forall a, (a < ldim L)%nat -> a <> b ->
      Un_cv (fun n => momentum (g (Datatypes.S n) x) S a - nth a F 0 / 2) (profile H we wo (nth a F 0) (nth a lo 0) (nth a hi 0) (row x)).
Proof.
  intros HS Hw H7 HP Hb Hch Hwall Hcol H1 H2 X0 Xn Xs Xl HC HB Hf0 Hi0 Hi. pose proof (proj1 HP) as HSym.
  assert (ED : dimD S = ldim L) by (apply dimD_D; exact HSym).
  assert (HW : wall_weights (ldim L) b S (map Q2R ws)) by (rewrite <- ED in *; eapply predefined_wall; eauto). destruct HW as [W1 W2 _ _].
  exists (post 0 S fluid (fun _ _ => Col) B f0). intros x Hx.
  assert (Cv : forall a, (a < ldim L)%nat -> a <> b -> _) by
    (exact (fun a => channel_converges L S b H fluid row (map Q2R ws) q we wo F lo hi Col B HSym Hb (predefined_near name ord S ws b HS Hw) W1 W2 (fun i Hi => weights_opp (ldim L) S ws i HSym Hw Hi) Hch Hwall Hcol f0 init x a H1 H2 Hi0 Hi Hx)).
  split; [|intros a Ha Hab; apply Cv; assumption].
  intros n. split.
  - apply (simulate_correct L R 0 S p fluid xs0 xs links (fun _ _ => Col) B f0); auto.
  - rewrite (post_line L S b H fluid row (map Q2R ws) q we wo F lo hi Col B HSym Hb (predefined_near name ord S ws b HS Hw) W1 (fun i Hi => weights_opp (ldim L) S ws i HSym Hw Hi) Hch Hwall Hcol f0 init n Hi0 Hi x Hx).
    eapply line_rest; eauto. + apply (predefined_near name ord S ws b HS Hw). + apply Hch. exact Hx.
Qed.

Lemma exp_parity D a b : (a < D)%nat -> (b < D)%nat -> MomModel.is_even_tuple (exp_ab D a b) = true /\ MomModel.is_even_tuple (exp_abb D a b) = false.
Proof.
  intros Ha Hb. unfold MomModel.is_even_tuple, exp_abb, exp_ab.
  rewrite !nsum_tuple_add by (rewrite ?tuple_add_length, ?unit_tuple_length; rewrite ?unit_tuple_length; auto). rewrite !nsum_unit by assumption. split; reflexivity.
Qed.
