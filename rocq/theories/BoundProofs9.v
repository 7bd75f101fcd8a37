(* Kernels with two assignments, prescribed density and concentration, free slip checks. *)
From Coq Require Import String List ZArith Bool Arith Reals Lra Lia Permutation QArith Qreals.
From Verif Require Import StencilModel StencilSpec StencilProofs StencilProofs2 AccessModel AccessProofs StreamModel StreamSpec StreamProofs StreamProofs2 RealLib LinLib
  TransSpec EqModel EqSpec EqProofs CollModel CollSpec MacroModel BoundModel BoundSpec BoundProofs BoundProofs2 BoundProofs3 BoundProofs4 BoundProofs5 BoundProofs6 BoundProofs7 BoundProofs8.
Import ListNotations.
Local Open Scope R_scope.

Section TwoKernels.
  Context (L : lattice) (S : stencil) (p : pattern) (t : timestep) (fluid : cell L -> bool) (inv : list nat).
  Hypothesis HP : supported p (ldim L) S t.
  Hypothesis Hinv : inverse_dirs S = Ok inv.
  Notation D := (ldim L).
  Lemma inv_opp i : (i < length S)%nat -> tget inv i = opp S i.
  Proof. intros Hi. rewrite (inverse_dirs_ok D S (proj1 HP)) in Hinv. injection Hinv as <-. now apply tget_inverse. Qed.
  Lemma readable_here x j : fluid x = true -> (j < length S)%nat -> readable S fluid x (FOut (here S) j).
  Proof. intros Hx Hj. cbn [readable]. unfold here. rewrite (dimD_D D S (proj1 HP)), shift_zero. repeat split; [exact Hj|apply vzero_length|exact Hx]. Qed.
  Lemma holds_pops m : holds_post L R 0 S p t fluid (pops L R S p t m) m.
  Proof. intros x i Hx Hi. symmetry. apply nth_pops. exact Hi. Qed.
  Lemma getter_of_hp m m' f : holds_post L R 0 S p t fluid f m -> holds_post L R 0 S p t fluid f m' ->
    forall x, fluid x = true -> getter L R p t S false m' x = getter L R p t S false m x.
  Proof.
    intros H1 H2 x Hx. rewrite !(getter_pops L R S p t HP). f_equal. unfold pops. apply map_ext_in. intros i Hi. apply in_seq in Hi.
    rewrite H1, H2 by (try assumption; lia). reflexivity.
  Qed.

  Theorem neumann_kernel links s ins : (forall l, In l links -> is_link S fluid l) -> reads_of p (ts_next t) S = Ok ins ->
    exists s' f, multi_boundary L p t S (fun _ => neumann_by_copy S inv) links s = Ok s' /\ tmp s' = tmp s /\
      (forall y, getter L R p t S false (src s) y = Ok (f y)) /\
      (forall x i k a, In (x, i) links -> opposite S i k -> nth_error ins k = Some a ->
         (forall y, In (y, k) links -> shift (shift y (dir S k)) (dir S k) <> x) ->
         src s' (fst (slot x a)) (snd (slot x a)) = nth k (f x) 0) /\
      (forall x, fluid x = true -> getter L R p t S false (src s') x = getter L R p t S false (src s) x).
  Proof.
    intros Hl Hins. set (f := pops L R S p t (src s)).
    set (r1 := fun (_ : cell L) i => {| b_reads := [FOut (here S) (opp S i)]; b_fun := fun l : list R => nth 0 l 0 |}).
    set (r2 := fun (_ : cell L) i => {| b_reads := [FOut (here S) i]; b_fun := fun l : list R => nth 0 l 0 |}).
    assert (Hr : forall (x : cell L) i, is_link S fluid (x, i) -> neumann_by_copy S inv i = [(FIn (vzero D) (opp S i), r1 x i); (FOut (dir S i) i, r2 x i)]).
    { intros x i (_ & Hi & _). cbn [snd] in Hi. unfold neumann_by_copy, r1, r2. rewrite inv_opp by exact Hi. unfold here at 1. rewrite (dimD_D D S (proj1 HP)). reflexivity. }
    destruct (two_fold L S p t fluid (fun _ => neumann_by_copy S inv) r1 r2 f HP Hr) with (links := links) (m := src s) as (m' & Hf & Hp & Hv & _).
    - intros x i a (Hx & Hi & _) [<-|[]]. apply readable_here; [exact Hx|]. apply (opp_lt D S (proj1 HP)), Hi.
    - intros x i a (Hx & Hi & _) [<-|[]]. apply readable_here; assumption.
    - apply holds_pops.
    - exact Hl.
    - exists {| src := m'; tmp := tmp s |}, f. split; [|split; [reflexivity|split; [|split]]].
      + unfold multi_boundary. rewrite (between_seq L S p t HP). cbn [rbind fst snd]. rewrite Hf. reflexivity.
      + intros y. apply getter_pops. exact HP.
      + intros x i k a Hin Hop Ha Hth. pose proof (Hl _ Hin) as (Hx & Hi & _). cbn [snd fst] in Hi, Hx.
        destruct (in_slot_opp L S p t HP x i k ins a Hi Hop Hins Ha) as [E Ek]. rewrite E.
        change (src {| src := m'; tmp := tmp s |}) with m'.
        transitivity (rule_value S f x (r1 x i)).
        * apply (Hv x i Hin). intros y j Hy Eb. destruct (bslot_in L S p t fluid HP x i y j (Hl _ Hin) (Hl _ Hy) Eb) as [E1 E2].
          rewrite Ek in Hth. subst j. apply (Hth y Hy). symmetry. exact E1.
        * unfold rule_value, r1. cbn [b_fun b_reads map nth pacc_value]. unfold here. rewrite (dimD_D D S (proj1 HP)), shift_zero, <- Ek. reflexivity.
      + apply (getter_of_hp (src s) m' f); [apply holds_pops|exact Hp].
  Qed.

  Theorem stream_in_kernel c links s ins : (forall l, In l links -> is_link S fluid l) -> reads_of p (ts_next t) S = Ok ins ->
    exists s', multi_boundary L p t S (fun _ => stream_in_constant S inv c) links s = Ok s' /\ tmp s' = tmp s /\
      (forall x i k a, In (x, i) links -> opposite S i k -> nth_error ins k = Some a -> src s' (fst (slot x a)) (snd (slot x a)) = c) /\
      (forall x, fluid x = true -> getter L R p t S false (src s') x = getter L R p t S false (src s) x).
  Proof.
    intros Hl Hins. set (f := pops L R S p t (src s)).
    set (r := fun (_ : cell L) (_ : nat) => {| b_reads := []; b_fun := fun _ : list R => c |}).
    assert (Hr : forall (x : cell L) i, is_link S fluid (x, i) -> stream_in_constant S inv c i = [(FIn (vzero D) (opp S i), r x i); (FOut (dir S i) i, r x i)]).
    { intros x i (_ & Hi & _). cbn [snd] in Hi. unfold stream_in_constant, r. rewrite inv_opp by exact Hi. unfold here at 1. rewrite (dimD_D D S (proj1 HP)). reflexivity. }
    destruct (const_fold L S p t fluid (fun _ => stream_in_constant S inv c) r r f HP Hr) with (links := links) (m := src s) (c := c) as (m' & Hf & Hp & _ & Hv).
    - intros x i a _ [].
    - intros x i a _ [].
    - intros; split; reflexivity.
    - apply holds_pops.
    - exact Hl.
    - exists {| src := m'; tmp := tmp s |}. split; [|split; [reflexivity|split]].
      + unfold multi_boundary. rewrite (between_seq L S p t HP). cbn [rbind fst snd]. rewrite Hf. reflexivity.
      + intros x i k a Hin Hop Ha. pose proof (Hl _ Hin) as (Hx & Hi & _). cbn [snd fst] in Hi, Hx.
        destruct (in_slot_opp L S p t HP x i k ins a Hi Hop Hins Ha) as [E Ek]. rewrite E. apply (Hv x i Hin).
      + apply (getter_of_hp (src s) m' f); [apply holds_pops|exact Hp].
  Qed.
End TwoKernels.

(* ---------- predefined stencils are closed under mirroring and projection ---------- *)
Lemma predefined_negate name ord S : predefined_stencils name ord = Ok S -> forall d b, In d S -> In (negate_at b d) S.
Proof. intros H d b Hd. destruct (predefined_wf _ _ _ H) as (_ & _ & Hc). apply (Hc d _ Hd). unfold signed_permutation. rewrite negate_at_abs. apply Permutation_refl. Qed.
Definition axes_b (e : string * string * stencil) : bool :=
  negb (forallb (forallb (fun z => Z.leb (Z.abs z) 1)) (snd e)) ||
  forallb (fun d => forallb (fun b => existsb (vec_eqb (only_component d b)) (snd e)) (seq 0 (dimD (snd e)))) (snd e).
Lemma axes_table : forallb axes_b predefined_table = true.
Proof. vm_compute. reflexivity. Qed.
Lemma predefined_axes name ord S : predefined_stencils name ord = Ok S -> (forall d z, In d S -> In z d -> (Z.abs z <= 1)%Z) ->
  forall d b, In d S -> In (only_component d b) S.
Proof.
  intros H H1 d b Hd. destruct (predefined_wf _ _ _ H) as (HS & H0 & _). pose proof (predefined_In _ _ _ H) as Hin.
  destruct (le_lt_dec (dimD S) b) as [Hb|Hb].
  - replace (only_component d b) with (vzero (dimD S)); [eapply nth_error_In; exact H0|].
    assert (Ld : length d = dimD S) by (now apply HS).
    apply vec_ext; [rewrite vzero_length, only_component_length; congruence|]. intros c. rewrite nth_only_component. unfold vzero. rewrite nth_repeat.
    destruct (Nat.eqb_spec c b) as [->|]; [|reflexivity]. symmetry. apply nth_overflow. lia.
  - pose proof (proj1 (forallb_forall _ _) axes_table _ Hin) as W. unfold axes_b in W. cbn [snd] in W.
    apply orb_prop in W as [W|W].
    { exfalso. apply negb_true_iff in W. apply Bool.not_true_iff_false in W. apply W. apply forallb_forall. intros e He. apply forallb_forall. intros z Hz. apply Z.leb_le. exact (H1 e z He Hz). }
    pose proof (proj1 (forallb_forall _ _) (proj1 (forallb_forall _ _) W d Hd) b) as W2.
    apply existsb_vec_In, W2. apply in_seq. lia.
Qed.

(* ---------- prescribed density ---------- *)
Lemma momentum_pdf_eq f (S : stencil) a : momentum f S a = pdf_momentum S f a.
Proof. reflexivity. Qed.
Lemma firstn_self_len {A} (l : list A) n : length l = n -> firstn n l = l.
Proof. intros <-. apply firstn_all. Qed.
Lemma fixed_density_anti name ord L (S : stencil) ws compr dev order E rho force f (x : cell L) i :
  predefined_stencils name ord = Ok S -> dimD S = ldim L -> get_weights S = Ok ws ->
  (forall r u, hydro_maxwellian S compr dev order r u (1 / 3) = Ok (E r u)) -> (i < length S)%nat -> length (f x) = length S ->
  let u := fixed_density_velocity (dimD S) S compr force rho (f x) in
  rule_value S f x (fixed_density S E compr force rho i) + nth i (f x) 0 = nth i (E rho u) 0 + nth (opp S i) (E rho u) 0.
Proof.
  intros HS HD Hw HE Hi Hl u. destruct (predefined_wf _ _ _ HS) as (HSym & _). rewrite HD in HSym.
  unfold fixed_density. rewrite (rule_all_out L S f x _ HSym Hl). fold u. unfold symmetric_equilibrium.
  rewrite (hydro_flip (ldim L) S ws compr dev order rho u (E rho u) (E rho (map Ropp u)) i HSym Hw (HE _ _) (HE _ _) Hi). field.
Qed.
Lemma fixed_density_fixed name ord L (S : stencil) ws compr dev order E rho u f (x : cell L) i :
  predefined_stencils name ord = Ok S -> dimD S = ldim L -> get_weights S = Ok ws ->
  (sizeQ S <> 7%nat \/ (match order with Some o => o | None => 4 end <= 2)%Z) ->
  (forall r u, hydro_maxwellian S compr dev order r u (1 / 3) = Ok (E r u)) -> (i < length S)%nat ->
  length u = dimD S -> (compr = true -> rho <> 0) -> f x = E rho u ->
  rule_value S f x (fixed_density S E compr None rho i) = nth (opp S i) (E rho u) 0.
Proof.
  intros HS HD Hw H7 HE Hi Hu Hr Hf.
  assert (Hl : length (f x) = length S) by (rewrite Hf; eapply hydro_length; eauto).
  pose proof (fixed_density_anti name ord L S ws compr dev order E rho None f x i HS HD Hw HE Hi Hl) as A. cbv zeta in A.
  replace (fixed_density_velocity (dimD S) S compr None rho (f x)) with u in A; [rewrite Hf in A; lra|].
  unfold fixed_density_velocity. rewrite <- (map_nth_seq 0 u (dimD S) Hu) at 1. symmetry. apply map_ext_in. intros a Ha. apply in_seq in Ha.
  rewrite <- momentum_pdf_eq, Hf, (hydro_momentum name ord S u rho order compr dev _ HS (HE rho u) a) by (try assumption; lia).
  unfold reference_density. destruct compr; [field; auto|field].
Qed.

(* ---------- which normals free slip accepts ---------- *)
Lemma free_slip_axis_ok D a s : (a < D)%nat -> (s = 1 \/ s = -1)%Z -> free_slip_axis (axis_vec D a s) = Ok a.
Proof.
  intros Ha Hs. assert (Hs0 : s <> 0%Z) by lia.
  assert (G : forall n k a0, (k <= a0 < k + n)%nat ->
    filter (fun z => negb (Z.eqb z 0)) (map (fun b => if Nat.eqb b a0 then s else 0%Z) (seq k n)) = [s] /\
    index_of [s] (map (fun e => [e]) (map (fun b => if Nat.eqb b a0 then s else 0%Z) (seq k n))) = Some (a0 - k)%nat).
  { assert (N : forall n k a0, (a0 < k)%nat -> filter (fun z => negb (Z.eqb z 0)) (map (fun b => if Nat.eqb b a0 then s else 0%Z) (seq k n)) = []).
    { induction n as [|n IH]; intros k a0 Hk; [reflexivity|]. cbn [seq map filter]. destruct (Nat.eqb_spec k a0); [lia|]. cbn [Z.eqb negb]. apply IH. lia. }
    induction n as [|n IH]; intros k a0 Hk; [lia|]. cbn [seq map filter index_of]. destruct (Nat.eqb_spec k a0) as [->|Hne].
    - destruct (Z.eqb_spec s 0) as [E|_]; [contradiction|]. cbn [negb]. rewrite N by lia. split; [reflexivity|].
      assert (E : vec_eqb [s] [s] = true) by (now apply vec_eqb_eq). rewrite E. f_equal. lia.
    - cbn [Z.eqb negb]. destruct (IH (Datatypes.S k) a0) as [I1 I2]; [lia|]. split; [exact I1|].
      assert (E : vec_eqb [s] [0%Z] = false). { destruct (vec_eqb [s] [0%Z]) eqn:E; [|reflexivity]. apply vec_eqb_eq in E. congruence. }
      rewrite E, I2. cbn [option_map]. f_equal. lia. }
  destruct (G D 0%nat a) as [G1 G2]; [lia|]. unfold free_slip_axis, nonzero_entries, axis_vec. rewrite G1, G2.
  replace (Z.eqb s 1 || Z.eqb s (-1))%bool with true; [f_equal; lia|]. destruct Hs as [-> | ->]; reflexivity.
Qed.
Lemma free_slip_axis_inv n a : free_slip_axis n = Ok a -> exists s, (s = 1 \/ s = -1)%Z /\ (a < length n)%nat /\ n = axis_vec (length n) a s.
Proof.
  unfold free_slip_axis. destruct (nonzero_entries n) as [|z [|]] eqn:E; try discriminate.
  destruct (Z.eqb_spec z 1) as [Hz|Hz], (Z.eqb_spec z (-1)) as [Hz'|Hz']; cbn [orb]; try discriminate; intros H; exists z;
  (split; [tauto|]); (destruct (index_of _ _) as [a'|] eqn:Ei; [|discriminate]); injection H as ->.
  all: assert (Hz0 : z <> 0%Z) by lia; clear Hz Hz';
    assert (G : forall m k a, nonzero_entries m = [z] -> index_of [z] (map (fun e => [e]) m) = Some a -> (a < length m)%nat /\ m = map (fun b => if Nat.eqb b (k + a) then z else 0%Z) (seq k (length m)));
    [|destruct (G n 0%nat a E Ei) as [G1 G2]; split; [exact G1|exact G2]].
  all: unfold nonzero_entries; induction m as [|y m IH]; intros k b E1 E2; [discriminate|]; cbn [map index_of filter length seq] in *.
  all: assert (EQ : vec_eqb [z] [y] = Z.eqb z y) by (destruct (Z.eqb_spec z y) as [->|]; [now apply vec_eqb_eq|]; destruct (vec_eqb [z] [y]) eqn:EE; [apply vec_eqb_eq in EE; congruence|reflexivity]).
  all: rewrite EQ in E2; destruct (Z.eqb_spec z y) as [<-|Hzy].
  1,3,5: injection E2 as <-; destruct (Z.eqb_spec z 0); [contradiction|]; cbn [negb] in E1; injection E1 as E1; split; [lia|]; rewrite Nat.add_0_r, Nat.eqb_refl; f_equal;
     clear -E1; assert (NN : forall j, (k < j)%nat -> m = map (fun b => if Nat.eqb b k then z else 0%Z) (seq j (length m)));
     [induction m as [|y m IH]; intros j Hj; [reflexivity|]; cbn [filter] in E1; destruct (Z.eqb_spec y 0) as [->|]; [|discriminate]; cbn [length seq map]; destruct (Nat.eqb_spec j k); [lia|]; f_equal; apply IH; [exact E1|lia]|apply NN; lia].
  all: destruct (index_of [z] (map (fun e => [e]) m)) as [c|] eqn:Ec; [|discriminate]; injection E2 as <-;
     destruct (Z.eqb_spec y 0) as [->|Hy]; cbn [negb] in E1; [|congruence];
     destruct (IH (Datatypes.S k) c E1 eq_refl) as [I1 I2]; split; [lia|];
     destruct (Nat.eqb_spec k (k + Datatypes.S c)); [lia|]; f_equal; rewrite I2 at 1; apply map_ext; intros b; replace (k + Datatypes.S c)%nat with (Datatypes.S k + c)%nat by lia; reflexivity.
Qed.
