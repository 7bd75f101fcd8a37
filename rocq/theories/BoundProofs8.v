(* Consequences for whole simulations; moving walls; prescribed density; outflow. *)
From Coq Require Import String List ZArith Bool Arith Reals Lra Lia Permutation QArith Qreals.
From Verif Require Import StencilModel StencilSpec StencilProofs StencilProofs2 AccessModel AccessProofs StreamModel StreamSpec StreamProofs StreamProofs2 RealLib LinLib
  TransSpec EqModel EqSpec EqProofs CollModel CollSpec MacroModel BoundModel BoundSpec BoundProofs BoundProofs2 BoundProofs3 BoundProofs4 BoundProofs6 BoundProofs7.
Import ListNotations.
Local Open Scope R_scope.

(* --- the whole simulation, any rule that conserves mass in one step --- *)
Theorem mass_conserved_gen (L : lattice) (S : stencil) p (fluid : cell L -> bool) cells xs0 xs links C B f0 t m_src m_tmp n :
  supported p (ldim L) S t ->
  (forall x, In x cells <-> fluid x = true) ->
  (forall x, fluid x = true -> In x xs0) ->
  (forall n, NoDup (xs n)) -> (forall n x, In x (xs n) <-> fluid x = true) ->
  (forall n l, In l (links n) <-> is_link S fluid l) ->
  (forall n x f, length f = length S -> length (C n x f) = length S /\ rsum (C n x f) = rsum f) ->
  (forall n x i a, is_link S fluid (x, i) -> In a (b_reads (B n x i)) -> readable S fluid x a) ->
  (forall n f, (forall x, length (f x) = length S) -> total_mass cells (arriving S fluid (B n) f) = total_mass cells f) ->
  (forall x, length (f0 x) = length S) ->
  exists F, (forall x, fluid x = true -> simulate L R p t S xs0 xs links C B f0 m_src m_tmp n x = Ok (F x)) /\
    total_mass cells F = total_mass cells f0.
Proof.
  intros HP Hc H0 Hnd Hxs Hl HC HB HM Hf.
  exists (post 0 S fluid C B f0 n). split.
  - intros x Hx. apply simulate_correct; try assumption. intros. now apply HC.
  - assert (Hlen : forall n x, length (post 0 S fluid C B f0 n x) = length S).
    { intros n0 x. apply post_length; [|exact Hf]. intros. now apply HC. }
    induction n as [|n IH]; [reflexivity|]. rewrite <- IH.
    transitivity (total_mass cells (arriving S fluid (B n) (post 0 S fluid C B f0 n))).
    + unfold total_mass. apply rsum_ext. intros x Hx. cbn [StreamSpec.post]. apply HC. apply arriving_length.
    + apply HM. intros; apply Hlen.
Qed.

(* --- links by cell --- *)
Lemma links_by_cell (L : lattice) (S : stencil) fluid cells links (g : link L -> R) : lists_geometry S fluid cells links ->
  rsum (map g links) = rsum (map (fun x => rsum (map (fun i => g (x, i)) (filter (fun i => negb (fluid (shift x (dir S i)))) (seq 0 (length S))))) cells).
Proof.
  intros (Hnc & Hc & Hnl & Hl).
  assert (E : forall xs, NoDup xs -> (forall x, In x xs -> In x cells) ->
    rsum (map (fun x => rsum (map (fun i => g (x, i)) (filter (fun i => negb (fluid (shift x (dir S i)))) (seq 0 (length S))))) xs) =
    rsum (map g (flat_map (fun x => map (pair x) (filter (fun i => negb (fluid (shift x (dir S i)))) (seq 0 (length S)))) xs))).
  { induction xs as [|x xs IH]; intros ND Hin; [reflexivity|]. cbn [map flat_map]. rewrite map_app, rsum_app, rsum_cons, map_map. f_equal.
    apply IH; [now inversion ND|]. intros; apply Hin; right; assumption. }
  rewrite E by auto. apply rsum_perm, Permutation_map. apply NoDup_Permutation; [exact Hnl| |].
  - clear -Hnc. induction Hnc as [|x xs Hx ND IH]; cbn [flat_map]; [constructor|].
    assert (G : forall (l1 l2 : list (link L)), NoDup l1 -> NoDup l2 -> (forall p, In p l1 -> ~ In p l2) -> NoDup (l1 ++ l2)).
    { clear. induction l1 as [|p l1 IH]; cbn [app]; intros l2 H1 H2 H; [exact H2|]. inversion H1; subst. constructor.
      - intros Hp. apply in_app_or in Hp as [Hp|Hp]; [contradiction|]. apply (H p); [left; reflexivity|exact Hp].
      - apply IH; auto. intros; apply H; right; assumption. }
    apply G; [apply FinFun.Injective_map_NoDup; [intros ? ? E; congruence|apply NoDup_filter, seq_NoDup]|exact IH|].
    intros [y i] H1 H2. apply in_map_iff in H1 as (? & [= -> ->] & _). apply in_flat_map in H2 as (z & Hz & H2). apply in_map_iff in H2 as (? & [= -> ->] & _). contradiction.
  - intros [x i]. rewrite Hl, in_flat_map. unfold is_link. cbn [fst snd]. split.
    + intros (H1 & H2 & H3). exists x. split; [now apply Hc|]. apply in_map_iff. exists i. split; [reflexivity|]. apply filter_In. rewrite in_seq, H3. split; [lia|reflexivity].
    + intros (y & Hy & H). apply in_map_iff in H as (j & [= -> ->] & H). apply filter_In in H as [H1 H2]. apply in_seq in H1. apply Hc in Hy. split; [exact Hy|]. split; [lia|]. now apply negb_true_iff.
Qed.

(* --- a moving lid --- *)
Section Lid.
  Context (L : lattice) (S : stencil) (ws : list Q) (fluid : cell L -> bool) (cells : list (cell L)) (links : list (link L)).
  Context (zc compr : bool) (force : option (force_model * list R)) (density : option R) (adapt : bool) (vel : list R).
  Context (a : nat) (s : Z) (lid : cell L -> bool) (B : cell L -> nat -> brule R) (f : cell L -> list R).
  Notation D := (ldim L).
  Hypothesis HS : symmetric_stencil D S.
  Hypothesis HM : forall d b, In d S -> In (negate_at b d) S.
  Hypothesis HW : get_weights S = Ok ws.
  Hypothesis HG : lists_geometry S fluid cells links.
  Hypothesis Hlen : forall x, length (f x) = length S.
  Hypothesis Hf : adapt = true -> force = None.
  Hypothesis Hv : length vel = D.
  Hypothesis Hva : nth a vel 0 = 0.
  (* below the lid every direction with component s is a link with the velocity rule; all other links bounce back *)
  Hypothesis Hlid : forall x i, fluid x = true -> (i < length S)%nat -> lid x = true -> nth a (dir S i) 0%Z = s ->
    is_link S fluid (x, i) /\ ubb S (map Q2R ws) zc compr force density adapt vel i = Ok (B x i).
  Hypothesis Hrest : forall x i, is_link S fluid (x, i) -> (lid x = false \/ nth a (dir S i) 0%Z <> s) -> B x i = no_slip S i.

  Theorem lid_mass : total_mass cells (arriving S fluid B f) = total_mass cells f.
  Proof.
    rewrite (mass_balance L S fluid cells links B f HS HG) by (intros; apply Hlen).
    rewrite (links_by_cell L S fluid cells links _ HG). rewrite (rsum_ext _ (fun _ => 0)); [rewrite rsum_zero; lra|].
    intros x Hx. assert (Fx : fluid x = true) by (now apply HG). cbn [fst snd].
    set (h := fun i => rule_value S f x (B x i) - nth i (f x) 0).
    change (rsum (map h (filter (fun i => negb (fluid (shift x (dir S i)))) (seq 0 (length S)))) = 0).
    destruct (lid x) eqn:El.
    - rewrite (rsum_filter_split (fun i => Z.eqb (nth a (dir S i) 0%Z) s) h).
      rewrite (rsum_ext h (fun _ => 0) (filter (fun a0 => negb _) _)).
      2:{ intros i Hi. apply filter_In in Hi as [Hi Hs]. apply filter_In in Hi as [Hi Hn]. apply in_seq in Hi. apply negb_true_iff in Hn, Hs. apply Z.eqb_neq in Hs.
          unfold h. rewrite Hrest, no_slip_value by first [assumption | right; exact Hs | (split; [exact Fx|split; [cbn; lia|exact Hn]]) | lia]. lra. }
      rewrite rsum_zero, Rplus_0_r.
      assert (EF : filter (fun i => Z.eqb (nth a (dir S i) 0%Z) s) (filter (fun i => negb (fluid (shift x (dir S i)))) (seq 0 (length S))) = wall_dirs S a s).
      { unfold wall_dirs. assert (G : forall l, (forall i, In i l -> (i < length S)%nat) ->
          filter (fun i => Z.eqb (nth a (dir S i) 0%Z) s) (filter (fun i => negb (fluid (shift x (dir S i)))) l) = filter (fun i => Z.eqb (nth a (dir S i) 0%Z) s) l).
        { induction l as [|i l IH]; intros Hl; [reflexivity|]. cbn [filter]. destruct (Z.eqb_spec (nth a (dir S i) 0%Z) s) as [E|E].
          - assert (Hi : (i < length S)%nat) by (apply Hl; left; reflexivity). destruct (Hlid x i Fx Hi El E) as [(_ & _ & Hn) _]. cbn [fst snd] in Hn. rewrite Hn. cbn [negb filter].
            destruct (Z.eqb_spec (nth a (dir S i) 0%Z) s); [|contradiction]. f_equal. apply IH. intros; apply Hl; right; assumption.
          - destruct (negb (fluid (shift x (dir S i)))); cbn [filter]; [destruct (Z.eqb_spec (nth a (dir S i) 0%Z) s); [contradiction|]|]; apply IH; intros; apply Hl; right; assumption. }
        apply G. intros i Hi. apply in_seq in Hi. lia. }
      rewrite EF. set (rho := ubb_density zc density (f x)).
      rewrite (rsum_ext h (fun i => (nth i (map Q2R ws) 0 * e_times_u (dir S i) vel) * (- 6 * (if compr then rho else 1)))).
      2:{ intros i Hi. apply wall_dirs_In in Hi as [Hi Es]. destruct (Hlid x i Fx Hi El Es) as [_ Eu]. unfold h.
          pose proof (ubb_rule L S (map Q2R ws) zc compr force density adapt vel i (B x i) f x HS (Hlen x) Eu) as ER. cbv zeta in ER. rewrite ER. fold rho.
          replace (if adapt then init_velocity (dimD S) compr rho vel force else vel) with vel; [destruct compr; ring|].
          destruct adapt; [|reflexivity]. rewrite Hf by reflexivity. symmetry. apply init_velocity_none. now rewrite (dimD_D D S HS). }
      rewrite rsum_scal_r, (tangential_wall D S ws HS HM HW a s vel Hv Hva). ring.
    - rewrite (rsum_ext h (fun _ => 0)); [apply rsum_zero|]. intros i Hi. apply filter_In in Hi as [Hi Hn]. apply in_seq in Hi. apply negb_true_iff in Hn.
      unfold h. rewrite Hrest, no_slip_value by first [assumption | left; reflexivity | left; assumption | (split; [exact Fx|split; [cbn; lia|exact Hn]]) | lia]. lra.
  Qed.
End Lid.

(* --- plane walls: the normal from the geometry is the given one --- *)
Lemma filter_single (P : nat -> bool) a D : (a < D)%nat -> (forall b, (b < D)%nat -> P b = Nat.eqb b a) -> filter P (seq 0 D) = [a].
Proof.
  intros Ha HP. replace D with (a + (1 + (D - a - 1)))%nat by lia. rewrite !seq_app, !filter_app.
  assert (Z : forall k n, (forall b, (k <= b < k + n)%nat -> P b = false) -> filter P (seq k n) = []).
  { intros k n H. revert k H. induction n as [|n IH]; intros k H; [reflexivity|]. cbn [seq filter]. rewrite H by lia. apply IH. intros; apply H; lia. }
  rewrite (Z 0%nat a). 2:{ intros b Hb. rewrite HP by lia. apply Nat.eqb_neq. lia. }
  rewrite (Z (0 + a + 1)%nat). 2:{ intros b Hb. rewrite HP by lia. apply Nat.eqb_neq. lia. }
  cbn [seq filter]. rewrite HP by lia. replace (0 + a)%nat with a by lia. rewrite Nat.eqb_refl. reflexivity.
Qed.
Lemma plane_blocked (L : lattice) (S : stencil) fluid a x i : symmetric_stencil (ldim L) S -> (a < ldim L)%nat -> plane_walls a fluid ->
  is_link S fluid (x, i) -> blocked L fluid x (dir S i) = [a].
Proof.
  intros HS Ha HF (Hx & Hi & Hn). cbn [fst snd] in *. pose proof (dir_length _ S HS i Hi) as Ld. unfold blocked. apply filter_single; [exact Ha|].
  intros b Hb. destruct (Nat.eqb_spec b a) as [->|Hba].
  - apply negb_true_iff. rewrite <- Hn.
    replace (dir S i) with (vadd (only_component (dir S i) a) (vadd (dir S i) (vneg (only_component (dir S i) a)))) at 2.
    + rewrite <- shift_add by (rewrite ?only_component_length; try apply vadd_len; try apply vneg_len; rewrite ?only_component_length; exact Ld). symmetry. apply HF.
      * apply vadd_len; [exact Ld|]. apply vneg_len. now rewrite only_component_length.
      * rewrite nth_vadd by (rewrite vneg_length, only_component_length; reflexivity). rewrite nth_vneg, nth_only_component, Nat.eqb_refl. lia.
    + apply vec_ext; [rewrite vadd_length by (rewrite only_component_length; symmetry; rewrite vadd_length by (rewrite vneg_length, only_component_length; reflexivity); reflexivity); apply only_component_length|].
      intros c. rewrite !nth_vadd, nth_vneg; [lia|rewrite vneg_length, only_component_length; reflexivity|rewrite only_component_length; symmetry; apply vadd_length; rewrite vneg_length, only_component_length; reflexivity].
  - apply negb_false_iff. rewrite HF; [exact Hx|now rewrite only_component_length|]. rewrite nth_only_component. destruct (Nat.eqb_spec a b); [congruence|reflexivity].
Qed.
Lemma plane_init (L : lattice) (S : stencil) fluid links a x i inv M : symmetric_stencil (ldim L) S -> (a < ldim L)%nat -> plane_walls a fluid ->
  (forall d b, In d S -> In (negate_at b d) S) -> (forall d b, In d S -> In (only_component d b) S) ->
  (forall l, In l links <-> is_link S fluid l) -> inverse_dirs S = Ok inv -> mirrored_dirs S a = Ok M ->
  is_link S fluid (x, i) ->
  exists data, free_slip_init L S links (x, i) = Ok data /\ free_slip_data S data i = free_slip S inv M (axis_vec (ldim L) a (- nth a (dir S i) 0)%Z) i.
Proof.
  intros HS Ha HF HM HA HL Hinv HMir Hl. destruct (init_spec L S fluid links HS HM HA HL x i Hl) as (k & E & Hk & Dk).
  pose proof (plane_blocked L S fluid a x i HS Ha HF Hl) as EB. unfold refl_axes in E, Dk. rewrite EB in E, Dk.
  eexists. split; [exact E|]. pose proof Hl as (_ & Hi & _). cbn [snd] in Hi. pose proof (dir_length _ S HS i Hi) as Ld.
  unfold free_slip_data, free_slip. cbn [fst snd].
  assert (E1 : vneg (keep_components [a] (dir S i)) = axis_vec (ldim L) a (- nth a (dir S i) 0)%Z).
  { apply vec_ext; [rewrite vneg_length, keep_components_length, axis_vec_length; exact Ld|]. intros b. rewrite nth_vneg, nth_keep_components, nth_axis_vec by exact Ha.
    cbn [existsb]. rewrite orb_false_r. destruct (Nat.eqb_spec b a) as [->|]; reflexivity. }
  assert (E2 : k = tget inv (tget M i)).
  { destruct (src_dir L S a HS Ha (fun d => HM d a) inv M Hinv HMir i Hi) as [H1 H2]. apply (dir_inj _ S HS); auto. rewrite H2.
    apply vec_ext; [rewrite vneg_length, negate_at_length, (dir_length _ S HS k Hk); symmetry; exact Ld|]. intros b. rewrite Dk, nth_vneg, enum_nth_negate. cbn [existsb]. rewrite orb_false_r.
    destruct (Nat.eqb b a); lia. }
  now rewrite E1, E2.
Qed.

(* --- prescribed density --- *)
Lemma discrete_equilibrium_flip v u rho w o cs compr : discrete_equilibrium v (map Ropp u) rho w o cs compr = discrete_equilibrium (vneg v) u rho w o cs compr.
Proof. unfold discrete_equilibrium. rewrite e_times_u_opp, e_times_u_vneg, u_times_u_opp. reflexivity. Qed.
Lemma hydro_flip D (S : stencil) ws compr dev order rho u g g' i : symmetric_stencil D S -> get_weights S = Ok ws ->
  hydro_maxwellian S compr dev order rho u (1 / 3) = Ok g -> hydro_maxwellian S compr dev order rho (map Ropp u) (1 / 3) = Ok g' -> (i < length S)%nat ->
  nth i g' 0 = nth (opp S i) g 0.
Proof.
  intros HS Hw Hg Hg' Hi. pose proof (opp_lt D S HS i Hi) as Ho.
  rewrite (hydro_nth S ws compr dev order rho (map Ropp u) g' i Hw Hg' Hi), (hydro_nth S ws compr dev order rho u g (opp S i) Hw Hg Ho).
  rewrite (dir_opp D S HS i Hi), (weights_opp D S ws i HS Hw Hi). rewrite firstn_map, discrete_equilibrium_flip. reflexivity.
Qed.

(* --- outflow --- *)
Lemma outflow_weight_value dt dx : dt <> 0 -> dx <> 0 -> outflow_weight dt dx = sqrt (1 / 3).
Proof. intros. unfold outflow_weight. field. auto. Qed.
Lemma sqrt_third : 0 < sqrt (1 / 3) < 1.
Proof. split; [apply sqrt_lt_R0; lra|]. rewrite <- sqrt_1 at 2. apply sqrt_lt_1; lra. Qed.
Lemma outflow_bounds dt dx lo hi d vs n : dt <> 0 -> dx <> 0 -> lo <= o_pdf d <= hi -> lo <= o_pdf_nd d <= hi -> (forall k, lo <= vs k <= hi) ->
  lo <= outflow_value dt dx (outflow_run dt dx d vs n) <= hi.
Proof.
  intros Ht Hx H1 H2 H3. pose proof sqrt_third as [W1 W2].
  assert (G : lo <= o_pdf (outflow_run dt dx d vs n) <= hi /\ lo <= o_pdf_nd (outflow_run dt dx d vs n) <= hi).
  { assert (C : forall a b, lo <= a <= hi -> lo <= b <= hi -> lo <= a * sqrt (1 / 3) + (1 - sqrt (1 / 3)) * b <= hi).
    { intros a b [A1 A2] [B1 B2]. split; nra. }
    induction n as [|n [IH1 IH2]]; [split; assumption|]. cbn [outflow_run outflow_update o_pdf o_pdf_nd]. split; [apply H3|].
    unfold outflow_value. rewrite outflow_weight_value by assumption. apply C; assumption. }
  destruct G as [G1 G2]. unfold outflow_value. rewrite outflow_weight_value by assumption. split; nra.
Qed.
Lemma outflow_converges dt dx c d n : dt <> 0 -> dx <> 0 -> o_pdf d = c ->
  outflow_value dt dx (outflow_run dt dx d (fun _ => c) n) - c = (1 - sqrt (1 / 3)) ^ (Datatypes.S n) * (o_pdf_nd d - c).
Proof.
  intros Ht Hx H1. assert (G : forall n, o_pdf (outflow_run dt dx d (fun _ => c) n) = c) by (intros [|m]; [exact H1|reflexivity]).
  induction n as [|n IH].
  - cbn [outflow_run]. unfold outflow_value. rewrite outflow_weight_value by assumption. rewrite H1. cbn [pow]. ring.
  - unfold outflow_value at 1. cbn [outflow_run outflow_update o_pdf_nd]. change (o_pdf _) with c. rewrite outflow_weight_value by assumption.
    replace (c * sqrt (1 / 3) + (1 - sqrt (1 / 3)) * outflow_value dt dx (outflow_run dt dx d (fun _ => c) n) - c)
      with ((1 - sqrt (1 / 3)) * (outflow_value dt dx (outflow_run dt dx d (fun _ => c) n) - c)) by ring. rewrite IH. cbn [pow]. ring.
Qed.
