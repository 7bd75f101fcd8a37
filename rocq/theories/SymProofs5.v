(* Turned walls, turned grids, and simulations of turned states. *)
From Coq Require Import String List ZArith QArith Qreals Bool Arith Reals Lra Lia.
From Verif Require Import StencilModel StencilSpec StencilProofs StencilProofs2 AccessModel AccessProofs StreamModel StreamSpec StreamProofs GridModel RealLib LinLib TransSpec TransModel EqModel EqSpec CollModel CollSpec MacroModel BoundModel BoundSpec BoundProofs BoundProofs2 BoundProofs3 BoundProofs4 SymSpec SymProofs SymProofs2 SymProofs3.
Import ListNotations.
Local Open Scope R_scope.

Section Sim.
  Context (L L' : lattice) (S : stencil) (w : list axis_op) (sigma : cell L -> cell L') (fluid : cell L -> bool) (fluid' : cell L' -> bool).
  Hypothesis HS : symmetric_stencil (ldim L) S.
  Hypothesis Hcl : forall d d', In d S -> signed_permutation d d' -> In d' S.
  Hypothesis Hsig : turns_cells w sigma.
  Hypothesis Hfl : forall x, fluid' (sigma x) = fluid x.
  Let HS' : symmetric_stencil (ldim L') S.
  Proof. destruct Hsig as [-> _]. exact HS. Qed.
  Notation Q := (length S).
  Lemma dir_len i : (i < Q)%nat -> length (dir S i) = ldim L.
  Proof. intros Hi. apply HS. now apply nth_In. Qed.
  Lemma opp_slot i : (i < Q)%nat -> opp S (SymProofs.slot S w i) = SymProofs.slot S w (opp S i).
  Proof.
    intros Hi. destruct (slot_spec S Hcl w i Hi) as [H1 H2]. pose proof (opp_lt (ldim L) S HS i Hi) as Ho. apply (slot_unique (ldim L) S HS Hcl w); auto; [now apply (opp_lt (ldim L) S HS)|].
    rewrite (dir_opp (ldim L) S HS) by exact H1. rewrite H2, (dir_opp (ldim L) S HS) by exact Hi. symmetry. apply turn_vneg.
  Qed.
  Lemma upstream i x : (i < Q)%nat -> shift (sigma x) (vneg (dir S (SymProofs.slot S w i))) = sigma (shift x (vneg (dir S i))).
  Proof.
    intros Hi. destruct (slot_spec S Hcl w i Hi) as [H1 H2]. rewrite H2, <- turn_vneg. symmetry. apply Hsig. unfold vneg. rewrite map_length. now apply dir_len.
  Qed.
  Lemma arriving_turned B B' f f' x : turned_walls w S sigma fluid B B' -> turned_state w S sigma fluid f f' -> fluid x = true ->
    turned w S (arriving S fluid B f x) (arriving S fluid' B' f' (sigma x)).
  Proof.
    intros HB Hf Hx. apply (turned_intro (ldim L) S HS Hcl); try apply arriving_length. intros i Hi. destruct (slot_spec S Hcl w i Hi) as [H1 H2]. unfold arriving. rewrite !nth_map_seq by assumption. rewrite upstream, Hfl by exact Hi.
    destruct (fluid (shift x (vneg (dir S i)))) eqn:E.
    - apply (turned_nth S Hcl w); auto.
    - rewrite opp_slot by exact Hi. pose proof (opp_lt (ldim L) S HS i Hi) as Ho. destruct (slot_spec S Hcl w _ Ho) as [K1 K2].
      apply (HB f f' Hf x (opp S i)); auto. split; [exact Hx|]. cbn [fst snd]. split; [exact Ho|]. now rewrite (dir_opp (ldim L) S HS).
  Qed.
  Lemma post_turned C C' B B' f0 f0' : (forall n x, fluid x = true -> turned w S (arriving S fluid (B n) (post 0 S fluid C B f0 n) x) (arriving S fluid' (B' n) (post 0 S fluid' C' B' f0' n) (sigma x)) ->
      turned w S (C n x (arriving S fluid (B n) (post 0 S fluid C B f0 n) x)) (C' n (sigma x) (arriving S fluid' (B' n) (post 0 S fluid' C' B' f0' n) (sigma x)))) ->
    (forall n, turned_walls w S sigma fluid (B n) (B' n)) -> turned_state w S sigma fluid f0 f0' ->
    forall n, turned_state w S sigma fluid (post 0 S fluid C B f0 n) (post 0 S fluid' C' B' f0' n).
  Proof.
    intros HC HB H0 n. induction n as [|n IH]; [exact H0|]. intros x Hx. apply (HC n x Hx). apply arriving_turned; auto.
  Qed.

  (* ---- walls ---- *)
  Lemma no_slip_turned (B : cell L -> nat -> brule R) (B' : cell L' -> nat -> brule R) :
    (forall x i, B x i = no_slip S i) -> (forall x i, B' x i = no_slip S i) -> turned_walls w S sigma fluid B B'.
  Proof.
    intros HB HB' f f' Hf x i j Hl Hj E. rewrite HB, HB', !no_slip_value by assumption. destruct Hl as (Hx & Hi & _). cbn [fst snd] in *. apply (Hf x Hx); auto.
  Qed.
  Lemma ubb_density_turned zc density f f' : turned w S f f' -> ubb_density zc density f' = ubb_density zc density f.
  Proof.
    intros H. assert (E : pdf_density zc f' = pdf_density zc f).
    { unfold pdf_density. f_equal. pose proof H as (L1 & L2 & _). rewrite <- !(CollProofs.density_rsum S) by assumption. now apply (turned_density (ldim L) S HS Hcl w). }
    unfold ubb_density. destruct density as [r|]; [destruct (Req_EM_T r 0)|]; auto.
  Qed.
  Lemma init_velocity_turned D compr rho vel force : length vel = D -> (forall fm F, force = Some (fm, F) -> length F = D) ->
    init_velocity D compr rho (turnR w vel) (turn_force w force) = turnR w (init_velocity D compr rho vel force).
  Proof.
    intros Hv HF. unfold init_velocity. rewrite !firstn_all2 by (rewrite ?turnR_length; lia).
    change (map (fun uo => fst uo - snd uo) (combine (turnR w vel) (macroscopic_velocity_shift compr rho (turn_force w force) D))) with (rsub (turnR w vel) (macroscopic_velocity_shift compr rho (turn_force w force) D)).
    change (map (fun uo => fst uo - snd uo) (combine vel (macroscopic_velocity_shift compr rho force D))) with (rsub vel (macroscopic_velocity_shift compr rho force D)).
    rewrite turnR_rsub.
    - f_equal. unfold macroscopic_velocity_shift, default_velocity_shift. destruct force as [[fm F]|]; cbn [turn_force]; [symmetry; apply turnR_scale|symmetry; apply turnR_rzero].
    - unfold macroscopic_velocity_shift, default_velocity_shift. destruct force as [[fm F]|]; [rewrite map_length, (HF fm F eq_refl); exact Hv|now rewrite rzero_length].
  Qed.
  Lemma ubb_turned ws zc compr force density adapt (vel : cell L -> nat -> list R) (B : cell L -> nat -> brule R) (B' : cell L' -> nat -> brule R) : dimD S = ldim L ->
    get_weights S = Ok ws -> (forall fm F, force = Some (fm, F) -> length F = ldim L) -> (forall x i, length (vel x i) = ldim L) ->
    (forall x i, ubb S (map Q2R ws) zc compr force density adapt (vel x i) i = Ok (B x i)) ->
    (forall x i j, (i < Q)%nat -> (j < Q)%nat -> dir S j = turn w (dir S i) -> ubb S (map Q2R ws) zc compr (turn_force w force) density adapt (turnR w (vel x i)) j = Ok (B' (sigma x) j)) -> turned_walls w S sigma fluid B B'.
  Proof.
    intros HD HW HF Hv HB HB' f f' Hf x i j Hl Hj E. destruct Hl as (Hx & Hi & _). cbn [fst snd] in *. pose proof (Hf x Hx) as Ht. pose proof Ht as (L1 & L2 & _).
    pose proof (ubb_rule L S _ _ _ _ _ _ _ _ _ f x HS L1 (HB x i)) as R1. pose proof (ubb_rule L' S _ _ _ _ _ _ _ _ _ f' (sigma x) HS' L2 (HB' x i j Hi Hj E)) as R2. cbv zeta in R1, R2. rewrite R1, R2.
    rewrite (ubb_density_turned zc density (f x) (f' (sigma x)) Ht). destruct Ht as (_ & _ & Ht). rewrite (Ht i j Hi Hj E). destruct (turned_weights (ldim L) S HS Hcl w ws HW) as (_ & _ & Hw). rewrite (Hw i j Hi Hj E), E.
    f_equal. f_equal. rewrite !e_times_u_dot, vecR_turn.
    assert (Lc : length (vecR (dir S i)) = ldim L) by (unfold vecR; rewrite map_length; now apply dir_len).
    destruct adapt; [|apply dot_turn; now rewrite Lc, Hv]. rewrite init_velocity_turned; [|rewrite HD; apply Hv|rewrite HD; exact HF]. apply dot_turn. rewrite Lc.
    unfold init_velocity, macroscopic_velocity_shift, default_velocity_shift. rewrite map_length, combine_length, firstn_length, Hv, HD. destruct force as [[fm F]|]; [rewrite map_length, (HF fm F eq_refl); lia|rewrite rzero_length; lia].
  Qed.
  Lemma bouzidi_turned inv (q : cell L -> nat -> R) (B : cell L -> nat -> brule R) (B' : cell L' -> nat -> brule R) : inverse_dirs S = Ok inv ->
    (forall x i, is_link S fluid (x, i) -> fluid (shift x (vneg (dir S i))) = true) ->
    (forall x i, B x i = bouzidi S inv (q x i) i) -> (forall x i j, (i < Q)%nat -> (j < Q)%nat -> dir S j = turn w (dir S i) -> B' (sigma x) j = bouzidi S inv (q x i) j) -> turned_walls w S sigma fluid B B'.
  Proof.
    intros Hinv Hup HB HB' f f' Hf x i j Hl Hj E. pose proof (Hup x i Hl) as Hu. destruct Hl as (Hx & Hi & _). cbn [fst snd] in *. rewrite HB, (HB' x i j Hi Hj E), !bouzidi_rule by assumption.
    rewrite (slot_unique (ldim L) S HS Hcl w i j Hi Hj E). rewrite opp_slot, upstream by exact Hi. pose proof (opp_lt (ldim L) S HS i Hi) as Ho.
    rewrite !(turned_nth S Hcl w _ _ _ (Hf x Hx)) by assumption. rewrite (turned_nth S Hcl w _ _ _ (Hf _ Hu)) by assumption. reflexivity.
  Qed.
End Sim.

(* ---- grids ---- *)
Local Open Scope Z_scope.
Definition nf (s : gshape) (x : vec) : vec := gshift_raw s (vzero (length s)) x.
Lemma nf_cons o s z x : nf (o :: s) (z :: x) = wrap o z :: nf s x.
Proof. unfold nf. cbn [length vzero repeat gshift_raw hd tl]. rewrite Z.add_0_l. reflexivity. Qed.
Lemma nf_length s x : length (nf s x) = length s.
Proof. unfold nf. generalize (vzero (length s)). revert x; induction s as [|o s IH]; intros x v; cbn; [reflexivity|]. now rewrite IH. Qed.
Lemma gshift_nf s x v : length x = length s -> length v = length s -> gshift_raw s x v = nf s (vadd x v).
Proof.
  revert x v; induction s as [|o s IH]; intros [|z x] [|y v] Hx Hv; try discriminate; [reflexivity|]. rewrite vadd_cons, nf_cons. cbn [gshift_raw hd tl]. rewrite IH by (cbn in *; lia). reflexivity.
Qed.
Lemma wrap_opp o z : wrap o (- wrap o z) = wrap o (- z).
Proof. destruct o as [N|]; cbn [wrap]; [|reflexivity]. rewrite <- (Z.sub_0_l (z mod _)), <- (Z.sub_0_l z). apply Zminus_mod_idemp_r. Qed.
Lemma wrap_wrap o z : wrap o (wrap o z) = wrap o z.
Proof. destruct o as [N|]; cbn [wrap]; [|reflexivity]. apply Z.mod_mod. lia. Qed.
Lemma nf_nf s x : length x = length s -> nf s (nf s x) = nf s x.
Proof. revert x; induction s as [|o s IH]; intros [|z x] H; try discriminate; [reflexivity|]. rewrite !nf_cons, wrap_wrap, IH by (cbn in H; lia). reflexivity. Qed.
Lemma nf_vadd s x v : length x = length s -> length v = length s -> nf s (vadd (nf s x) v) = nf s (vadd x v).
Proof. revert x v; induction s as [|o s IH]; intros [|z x] [|y v] Hx Hv; try discriminate; [reflexivity|]. rewrite nf_cons, !vadd_cons, !nf_cons, wrap_add, IH by (cbn in *; lia). reflexivity. Qed.
Lemma nf_id s x : in_grid s x = true -> nf s x = x.
Proof. revert x; induction s as [|o s IH]; intros [|z x] H; try discriminate; [reflexivity|]. cbn [in_grid] in H. apply andb_prop in H as [H1 H2]. rewrite nf_cons, wrap_id, IH by assumption. reflexivity. Qed.
Lemma nf_act g s x : length x = length s -> nf (act (fun o => o) g s) (act Z.opp g (nf s x)) = nf (act (fun o => o) g s) (act Z.opp g x).
Proof.
  destruct g as [a|a]; cbn [act].
  - revert s x; induction a as [|a IH]; intros [|o s] [|z x] H; try discriminate; try reflexivity; rewrite nf_cons; cbn [at_axis]; rewrite !nf_cons.
    + rewrite wrap_opp, nf_nf by (cbn in H; lia). reflexivity.
    + rewrite wrap_wrap, IH by (cbn in H; lia). reflexivity.
  - revert s x; induction a as [|a IH]; intros [|o s] [|z x] H; try discriminate; try reflexivity; rewrite nf_cons.
    + destruct s as [|o2 s], x as [|z2 x]; try discriminate; [change (nf [o] [wrap o z] = nf [o] [z]); rewrite !nf_cons, wrap_wrap; reflexivity|]. rewrite nf_cons. cbn [exchange]. rewrite !nf_cons, !wrap_wrap, nf_nf by (cbn in H; lia). reflexivity.
    + cbn [exchange]. rewrite !nf_cons, wrap_wrap, IH by (cbn in H; lia). reflexivity.
Qed.
Lemma turn_shape_length w s : length (turn_shape w s) = length s.
Proof. induction w as [|g w IH]; [reflexivity|]. cbn [turn_shape fold_right]. rewrite act_length. exact IH. Qed.
Lemma nf_turn w s x : length x = length s -> nf (turn_shape w s) (turn w (nf s x)) = nf (turn_shape w s) (turn w x).
Proof.
  intros H. induction w as [|g w IH]; [cbn; now apply nf_nf|]. change (turn_shape (g :: w) s) with (act (fun o => o) g (turn_shape w s)). rewrite !turn_cons.
  rewrite <- (nf_act g (turn_shape w s) (turn w (nf s x))), IH by (rewrite turn_length, turn_shape_length, nf_length; reflexivity). apply nf_act. now rewrite turn_length, turn_shape_length.
Qed.
Lemma vadd_act g x v : length x = length v -> act Z.opp g (vadd x v) = vadd (act Z.opp g x) (act Z.opp g v).
Proof.
  destruct g as [a|a]; cbn [act].
  - revert x v; induction a as [|a IH]; intros [|z x] [|y v] H; try discriminate; try reflexivity; cbn [at_axis]; rewrite !vadd_cons; cbn [at_axis]; [f_equal; lia|]. rewrite IH by (cbn in H; lia). reflexivity.
  - revert x v; induction a as [|a IH]; intros [|z x] [|y v] H; try discriminate; try reflexivity; cbn [exchange].
    + destruct x, v; try discriminate; reflexivity.
    + rewrite !vadd_cons. cbn [exchange]. rewrite IH by (cbn in H; lia). reflexivity.
Qed.
Lemma vadd_turn w x v : length x = length v -> turn w (vadd x v) = vadd (turn w x) (turn w v).
Proof. intros H. induction w as [|g w IH]; [reflexivity|]. rewrite !turn_cons, IH. apply vadd_act. now rewrite !turn_length. Qed.
Definition turn_cell (w : list axis_op) (s : gshape) (x : cell (grid s)) : cell (grid (turn_shape w s)) :=
  exist _ (nf (turn_shape w s) (turn w (proj1_sig x))) (gshift_in (turn_shape w s) _ _).
Lemma turn_cell_turns w s : @turns_cells (grid s) (grid (turn_shape w s)) w (turn_cell w s).
Proof.
  split; [apply turn_shape_length|]. intros [x Hx] v Hv. apply gcell_eq. cbn [turn_cell proj1_sig shift grid gshift ldim] in *. pose proof (in_grid_length _ _ Hx) as Lx.
  rewrite !gshift_nf by (rewrite ?turn_length, ?nf_length, ?turn_shape_length; auto). rewrite nf_turn by (unfold vadd; rewrite map_length, combine_length; lia). rewrite vadd_turn by congruence. symmetry. apply nf_vadd; rewrite turn_length, turn_shape_length; assumption.
Qed.
Lemma turn_shape_app w w' s : turn_shape (w ++ w') s = turn_shape w (turn_shape w' s).
Proof. unfold turn_shape. apply fold_right_app. Qed.
Lemma turn_shape_back w s : turn_shape w (turn_shape (rev w) s) = s.
Proof.
  revert s; induction w as [|g w IH]; intros s; [reflexivity|]. cbn [rev]. rewrite turn_shape_app. change (turn_shape (g :: w) (turn_shape (rev w) (turn_shape [g] s))) with (act (fun o => o) g (turn_shape w (turn_shape (rev w) (turn_shape [g] s)))).
  rewrite IH. cbn [turn_shape fold_right]. apply act_twice. reflexivity.
Qed.
Lemma turn_cell_bijective w s : (forall x y, turn_cell w s x = turn_cell w s y -> x = y) /\ (forall y, exists x, turn_cell w s x = y).
Proof.
  assert (K : forall x : cell (grid s), nf s (turn (rev w) (proj1_sig (turn_cell w s x))) = proj1_sig x).
  { intros [x Hx]. cbn [turn_cell proj1_sig]. pose proof (in_grid_length _ _ Hx) as Lx. rewrite <- (turn_shape_back (rev w) s) at 1. rewrite rev_involutive. rewrite nf_turn by (now rewrite turn_length, turn_shape_length). rewrite turn_back. rewrite <- (rev_involutive w) at 2. rewrite turn_shape_back. now apply nf_id. }
  split.
  - intros x y E. apply gcell_eq. rewrite <- (K x), <- (K y). now rewrite E.
  - intros [y Hy]. pose proof (in_grid_length _ _ Hy) as Ly. exists (exist _ (nf s (turn (rev w) y)) (gshift_in s _ _)). apply gcell_eq. cbn [turn_cell proj1_sig].
    rewrite nf_turn by (rewrite turn_length, Ly; apply turn_shape_length). rewrite turn_inverse. now apply nf_id.
Qed.
