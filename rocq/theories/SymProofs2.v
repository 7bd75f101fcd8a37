(* Collisions of turned populations. *)
From Coq Require Import String List ZArith QArith Qreals Bool Arith Reals Lra Lia.
From Verif Require Import StencilModel StencilSpec StencilProofs StencilProofs2 AccessModel StreamSpec RealLib LinLib TransSpec TransModel TransProofs TransProofs2 TransProofs3 MomModel EqModel EqSpec EqProofs CollModel CollSpec CollProofs CollProofs5 CollProofs7 BoundProofs4 SymSpec SymProofs.
Import ListNotations.
Local Open Scope R_scope.

Lemma turnR_scale w (c : R) u : turnR w (map (fun x => x / c) u) = map (fun x => x / c) (turnR w u).
Proof.
  apply list_ext; [now rewrite turnR_length, !map_length, turnR_length|]. intros a Ha. rewrite turnR_length, map_length in Ha.
  destruct (turn_component w (length u) a) as (s & b & H). rewrite H by apply map_length.
  assert (N : forall l k, nth k (map (fun x => x / c) l) 0 = nth k l 0 / c).
  { intros l k. destruct (Nat.ltb_spec k (length l)) as [Hk|Hk]; [rewrite (nth_indep _ 0 (0 / c)) by (now rewrite map_length); apply (map_nth (fun x => x / c))|]. rewrite !nth_overflow by (try rewrite map_length; exact Hk). unfold Rdiv. ring. }
  rewrite !N, H by reflexivity. unfold Rdiv. ring.
Qed.
Lemma turnR_radd w x y : length x = length y -> turnR w (radd x y) = radd (turnR w x) (turnR w y).
Proof. intros E. unfold radd. symmetry. apply (turnR_map2 (fun a b => a + b)); [intros; ring|exact E]. Qed.
Lemma turnR_rsub w x y : length x = length y -> turnR w (rsub x y) = rsub (turnR w x) (turnR w y).
Proof. intros E. unfold rsub. symmetry. apply (turnR_map2 (fun a b => a - b)); [intros; ring|exact E]. Qed.
Lemma dot_turn w x y : length x = length y -> dot (turnR w x) (turnR w y) = dot x y.
Proof. intros E. unfold dot. now apply dot_sum_turn. Qed.
Lemma turnR_rscal w c x : turnR w (rscal c x) = rscal c (turnR w x).
Proof.
  apply list_ext; [unfold rscal; now rewrite turnR_length, !map_length, turnR_length|]. intros a Ha. destruct (turn_component w (length x) a) as (s & b & H). rewrite H by apply map_length. rewrite !nth_rscal, H by reflexivity. ring.
Qed.

Section Turned.
  Context (D : nat) (S : stencil) (w : list axis_op).
  Hypothesis HS : symmetric_stencil D S.
  Hypothesis Hcl : forall d d', In d S -> signed_permutation d d' -> In d' S.
  Lemma central_turn f f' u e : turned w S f f' -> length u = D -> length e = D -> central_moment f' S (turnR w u) e = turn_sign w e * central_moment f S u (turn_exp w e).
  Proof.
    intros H Hu He. change (fsum f' S (fun c => rmono (rsub (vecR c) (turnR w u)) e) = turn_sign w e * fsum f S (fun c => rmono (rsub (vecR c) u) (turn_exp w e))).
    rewrite (turned_fsum D S HS Hcl w f f' _ H). pose proof H as (L & _). rewrite !StabProofs2.fsum_seq by exact L. rewrite <- rsum_scal. apply rsum_ext. intros i Hi. apply in_seq in Hi.
    assert (Lc : length (vecR (nth i S [])) = D). { unfold vecR. rewrite map_length. apply HS. apply nth_In. lia. }
    rewrite vecR_turn, <- turnR_rsub by congruence. rewrite rmono_turn; [ring|]. unfold rsub. rewrite map_length, combine_length, Lc, Hu, He. lia.
  Qed.
  Lemma turned_rsub f f' g g' : turned w S f f' -> turned w S g g' -> turned w S (rsub f g) (rsub f' g').
  Proof.
    intros H1 H2. pose proof H1 as (A1 & A2 & _). pose proof H2 as (B1 & B2 & _). apply (turned_intro D S HS Hcl); try (unfold rsub; rewrite map_length, combine_length; lia). intros i Hi. pose proof (proj1 (slot_spec S Hcl w i Hi)).
    rewrite !nth_rsub by lia. now rewrite (turned_nth S Hcl w f f'), (turned_nth S Hcl w g g').
  Qed.
End Turned.

Section Collision.
  Context (D : nat) (S : stencil) (ps : list poly) (w : list axis_op).
  Hypothesis HS : symmetric_stencil D S.
  Hypothesis Hcl : forall d d', In d S -> signed_permutation d d' -> In d' S.
  Hypothesis Hps : length ps = length S.
  Hypothesis Hterms : forall p t, In p ps -> In t p -> length (snd t) = D.
  Context (a : nat -> nat -> R).
  Notation n := (length S).
  Hypothesis Ha : forall k q, nth_error ps k = Some q -> forall phi, poly_value phi (turn_poly w q) = rsum (map (fun l => a k l * poly_value phi (nth l ps [])) (seq 0 (length ps))).
  (* the vector of values v' for the turned state, from the one for the state *)
  Definition mixed (v v' : list R) : Prop := length v = n /\ length v' = n /\ forall k, (k < n)%nat -> nth k v' 0 = rsum (map (fun l => a k l * nth l v 0) (seq 0 n)).
  Lemma mixed_values phi : mixed (equilibrium_values ps phi) (equilibrium_values ps (fun e => turn_sign w e * phi (turn_exp w e))).
  Proof.
    unfold equilibrium_values. split; [now rewrite map_length|]. split; [now rewrite map_length|]. intros k Hk. destruct (nth_error ps k) as [q|] eqn:E; [|apply nth_error_None in E; lia].
    rewrite (nth_error_nth _ _ _ (map_nth_error (poly_value _) _ _ E)). transitivity (poly_value phi (turn_poly w q)).
    - unfold poly_value, turn_poly. rewrite map_map. apply rsum_ext. intros t _. cbn [fst snd]. ring.
    - rewrite (Ha k q E), Hps. apply rsum_ext. intros l Hl. apply in_seq in Hl. f_equal. rewrite (nth_indep (map _ ps) 0 (poly_value phi [])) by (rewrite map_length; lia). now rewrite map_nth.
  Qed.
  Lemma values_ext phi phi' : (forall e, length e = D -> phi e = phi' e) -> equilibrium_values ps phi = equilibrium_values ps phi'.
  Proof.
    intros H. unfold equilibrium_values. apply map_ext_in. intros p Hp. unfold poly_value. apply rsum_ext. intros t Ht. rewrite H; [reflexivity|]. eauto.
  Qed.
  Lemma moments_values f u : map (poly_moment f S u) ps = equilibrium_values ps (central_moment f S u).
  Proof. unfold equilibrium_values. apply map_ext. intros p. apply poly_moment_value. Qed.
  Lemma mixed_moments f f' u : turned w S f f' -> length u = D -> mixed (map (poly_moment f S u) ps) (map (poly_moment f' S (turnR w u)) ps).
  Proof.
    intros H Hu. rewrite !moments_values. rewrite (values_ext (central_moment f' S (turnR w u)) (fun e => turn_sign w e * central_moment f S u (turn_exp w e))); [apply mixed_values|]. intros e He. now apply (central_turn D S w HS Hcl).
  Qed.
  Lemma mixed_unique v v1 v2 : mixed v v1 -> mixed v v2 -> v1 = v2.
  Proof. intros (_ & L1 & H1) (_ & L2 & H2). apply list_ext; [congruence|]. intros i Hi. rewrite H1, H2 by lia. reflexivity. Qed.
  Lemma mixed_radd v v' x x' : mixed v v' -> mixed x x' -> mixed (radd v x) (radd v' x').
  Proof.
    intros (L1 & L2 & H1) (L3 & L4 & H2). repeat split; try (rewrite radd_length; lia). intros k Hk. rewrite nth_radd, H1, H2 by lia. rewrite <- rsum_plus. apply rsum_ext. intros l _. rewrite nth_radd by lia. ring.
  Qed.
  Lemma mixed_rsub v v' x x' : mixed v v' -> mixed x x' -> mixed (rsub v x) (rsub v' x').
  Proof.
    intros (L1 & L2 & H1) (L3 & L4 & H2). repeat split; try (unfold rsub; rewrite map_length, combine_length; lia). intros k Hk. rewrite nth_rsub, H1, H2 by lia.
    match goal with |- ?x - ?y = _ => replace (x - y) with (x + (-1) * y) by ring end. rewrite <- rsum_scal, <- rsum_plus. apply rsum_ext. intros l _. rewrite nth_rsub by lia. ring.
  Qed.
  Lemma mixed_rzero : mixed (rzero n) (rzero n).
  Proof. repeat split; try apply rzero_length. intros k Hk. rewrite nth_rzero. rewrite (rsum_ext _ (fun _ => 0)), rsum_zero; [reflexivity|]. intros l _. rewrite nth_rzero. ring. Qed.
  (* backward transforms *)
  Section Backward.
    Context (bg u : list R) (fwd bwd fwd' bwd' : list R -> res (list R)).
    Hypothesis Hbg : turned w S bg bg.
    Hypothesis Hu : length u = D.
    Hypothesis HT : moment_transform n S ps bg u fwd bwd.
    Hypothesis HT' : moment_transform n S ps bg (turnR w u) fwd' bwd'.
    Lemma backward_turned v v' : mixed v v' -> exists h h', bwd v = Ok h /\ bwd' v' = Ok h' /\ turned w S h h'.
    Proof.
      intros M. pose proof M as (L1 & L2 & _). destruct HT as (_ & B & _). destruct HT' as (_ & B' & U').
      destruct (B v L1) as (h & E1 & Lh & Eh). destruct (B' v' L2) as (h' & E2 & Lh' & Eh'). exists h, h'. split; [exact E1|]. split; [exact E2|].
      destruct (turned_exists D S HS Hcl w h Lh) as [h2 H2]. replace h' with h2; [exact H2|]. apply U'; auto; [apply H2|]. rewrite Eh'.
      apply (mixed_unique v); [|exact M]. rewrite <- Eh. apply mixed_moments; [|exact Hu]. now apply (turned_radd D S HS Hcl).
    Qed.
    Lemma forward_mixed f f' : turned w S f f' -> exists m m', fwd f = Ok m /\ fwd' f' = Ok m' /\ mixed m m'.
    Proof.
      intros H. pose proof H as (L1 & L2 & _). destruct HT as (F & _). destruct HT' as (F' & _). eexists _, _. split; [apply F; exact L1|]. split; [apply F'; exact L2|].
      apply mixed_moments; [|exact Hu]. now apply (turned_radd D S HS Hcl).
    Qed.
  End Backward.
  Section Rates.
    Context (d : list R).
    Hypothesis Hd : length d = n.
    Hypothesis Had : forall k l, (k < n)%nat -> (l < n)%nat -> a k l <> 0 -> nth l d 0 = nth k d 0.
    Lemma mixed_rmul (h : R -> R) v v' : mixed v v' -> mixed (rmul (map h d) v) (rmul (map h d) v').
    Proof.
      intros (L1 & L2 & H1). repeat split; try (unfold rmul; rewrite map_length, combine_length, map_length; lia). intros k Hk. rewrite nth_rmul, H1 by (rewrite ?map_length; lia). rewrite <- rsum_scal. apply rsum_ext. intros l Hl. apply in_seq in Hl.
      rewrite nth_rmul by (rewrite ?map_length; lia). assert (N : forall j, (j < n)%nat -> nth j (map h d) 0 = h (nth j d 0)). { intros j Hj. rewrite (nth_indep _ 0 (h 0)) by (rewrite map_length; lia). apply map_nth. }
      rewrite !N by lia. destruct (Req_dec (a k l) 0) as [E|E]; [rewrite E; ring|]. rewrite (Had k l) by (auto; lia). ring.
    Qed.
    Lemma mixed_relax eqs eqs' m m' : mixed eqs eqs' -> mixed m m' -> mixed (relax d eqs m) (relax d eqs' m').
    Proof.
      intros H1 H2. unfold relax. apply mixed_radd; [exact H2|]. pose proof (mixed_rmul (fun x => x) _ _ (mixed_rsub _ _ _ _ H1 H2)) as H. rewrite map_id in H. exact H.
    Qed.
    Lemma collide_turned bg u fwd bwd fwd' bwd' eqs eqs' g g' f f' : turned w S bg bg -> length u = D ->
      moment_transform n S ps bg u fwd bwd -> moment_transform n S ps bg (turnR w u) fwd' bwd' -> mixed eqs eqs' -> mixed g g' -> turned w S f f' ->
      exists h h', collide fwd bwd d eqs g f = Ok h /\ collide fwd' bwd' d eqs' g' f' = Ok h' /\ turned w S h h'.
    Proof.
      intros Hbg Hu HT HT' He Hg Hf. destruct (forward_mixed bg u fwd bwd fwd' bwd' Hbg Hu HT HT' f f' Hf) as (m & m' & E1 & E2 & Hm). unfold collide. rewrite E1, E2. cbn [rbind].
      apply (backward_turned bg u fwd bwd fwd' bwd' Hbg Hu HT HT'). apply mixed_radd; [|exact Hg]. now apply mixed_relax.
    Qed.

    (* force terms *)
    Context (ws : list R).
    Hypothesis Hws : turned w S ws ws.
    Lemma turned_map (G G' : vec -> R -> R) : (forall c x, In c S -> G' (turn w c) x = G c x) ->
      turned w S (map (fun cw => G (fst cw) (snd cw)) (combine S ws)) (map (fun cw => G' (fst cw) (snd cw)) (combine S ws)).
    Proof.
      intros H. pose proof Hws as (L & _). assert (N : forall (K : vec -> R -> R) i, (i < n)%nat -> nth i (map (fun cw => K (fst cw) (snd cw)) (combine S ws)) 0 = K (dir S i) (nth i ws 0)).
      { intros K i Hi. rewrite (nth_indep _ 0 ((fun cw => K (fst cw) (snd cw)) ([], 0))) by (rewrite map_length, combine_length; lia). rewrite (map_nth (fun cw => K (fst cw) (snd cw))), combine_nth by (symmetry; exact L). reflexivity. }
      apply (turned_intro D S HS Hcl); try (rewrite map_length, combine_length; lia). intros i Hi. destruct (slot_spec S Hcl w i Hi) as [H1 H2]. rewrite !N by assumption. rewrite H2, (turned_nth S Hcl w ws ws i Hws Hi). apply H. now apply nth_In.
    Qed.
    Lemma vecR_length c : In c S -> length (vecR c) = D.
    Proof. intros H. unfold vecR. rewrite map_length. now apply HS. Qed.
    Lemma simple_turned F : length F = D -> turned w S (simple_terms S ws F) (simple_terms S ws (turnR w F)).
    Proof. intros HF. apply (turned_map (fun c x => x / (1 / 3) * dot F (vecR c)) (fun c x => x / (1 / 3) * dot (turnR w F) (vecR c))). intros c x Hc. rewrite vecR_turn, dot_turn by (rewrite vecR_length; auto). reflexivity. Qed.
    Lemma luo_turned u F : length u = D -> length F = D -> turned w S (luo_terms S ws u F) (luo_terms S ws (turnR w u) (turnR w F)).
    Proof.
      intros Hu HF. apply (turned_map (fun c x => x * dot F (radd (rscal (/ (1 / 3)) (rsub (vecR c) u)) (rscal (dot (vecR c) u / (1 / 3) ^ 2) (vecR c))))
        (fun c x => x * dot (turnR w F) (radd (rscal (/ (1 / 3)) (rsub (vecR c) (turnR w u))) (rscal (dot (vecR c) (turnR w u) / (1 / 3) ^ 2) (vecR c))))).
      intros c x Hc. pose proof (vecR_length c Hc) as Lc. assert (Lc' : length c = D) by (now apply HS). rewrite vecR_turn. rewrite dot_turn by congruence. rewrite <- turnR_rsub by congruence. rewrite <- !turnR_rscal.
      rewrite <- turnR_radd by (unfold rscal, rsub, vecR; rewrite !map_length, combine_length, ?map_length; lia). rewrite dot_turn; [reflexivity|]. unfold radd, rscal, rsub, vecR. repeat rewrite ?map_length, ?combine_length. lia.
    Qed.
    Lemma shan_chen_turned u F : length u = D -> length F = D -> turned w S (shan_chen_linear S ws u F) (shan_chen_linear S ws (turnR w u) (turnR w F)).
    Proof.
      intros Hu HF. apply (turned_map (fun c x => x * (dot (vecR c) F + 3 * dot (vecR c) u * dot (vecR c) F - dot u F)) (fun c x => x * (dot (vecR c) (turnR w F) + 3 * dot (vecR c) (turnR w u) * dot (vecR c) (turnR w F) - dot (turnR w u) (turnR w F)))).
      intros c x Hc. pose proof (vecR_length c Hc) as Lc. rewrite vecR_turn, !dot_turn by congruence. reflexivity.
    Qed.
    Lemma shan_chen_nonlinear_turned compr rho F : length F = D -> turned w S (shan_chen_nonlinear S ws compr rho F) (shan_chen_nonlinear S ws compr rho (turnR w F)).
    Proof.
      intros HF. apply (turned_map (fun c x => x / (2 * reference_density compr rho) * (3 * dot (vecR c) F ^ 2 - dot F F)) (fun c x => x / (2 * reference_density compr rho) * (3 * dot (vecR c) (turnR w F) ^ 2 - dot (turnR w F) (turnR w F)))).
      intros c x Hc. pose proof (vecR_length c Hc) as Lc. rewrite vecR_turn, !dot_turn by congruence. reflexivity.
    Qed.
    (* T and T' turn raw moments into those about u and about the turned u *)
    Context (Minv : mat).
    Hypothesis HM : is_inverse n (moment_matrix ps S (rzero D)) Minv.
    Section Forces.
      Context (u0 : list R) (T T' : list R -> list R).
      Hypothesis Hu0 : length u0 = D.
      Hypothesis TT : forall phi, length phi = n -> T (map (poly_moment phi S (rzero D)) ps) = map (poly_moment phi S u0) ps.
      Hypothesis TT' : forall phi, length phi = n -> T' (map (poly_moment phi S (rzero D)) ps) = map (poly_moment phi S (turnR w u0)) ps.
      Lemma T_mixed phi phi' : turned w S phi phi' -> mixed (T (mv (moment_matrix ps S (rzero D)) phi)) (T' (mv (moment_matrix ps S (rzero D)) phi')).
      Proof. intros H. pose proof H as (L1 & L2 & _). rewrite !mv_moment_matrix, TT, TT' by assumption. now apply mixed_moments. Qed.
      Lemma T_values_mixed v v' : mixed v v' -> mixed (T v) (T' v').
      Proof.
        intros M. pose proof M as (L1 & L2 & _). pose proof HM as (_ & W & H2 & _).
        assert (E : forall x, length x = n -> exists phi, length phi = n /\ x = map (poly_moment phi S (rzero D)) ps).
        { intros x Hx. exists (mv Minv x). split; [rewrite mv_length; apply W|]. rewrite <- mv_moment_matrix. now rewrite H2. }
        destruct (E v L1) as (phi & Lp & ->). destruct (turned_exists D S HS Hcl w phi Lp) as [phi' Hp].
        replace v' with (map (poly_moment phi' S (rzero D)) ps); [|apply (mixed_unique (map (poly_moment phi S (rzero D)) ps)); [rewrite <- (turnR_rzero w D) at 2; apply mixed_moments; [exact Hp|apply rzero_length]|exact M]].
        rewrite TT, TT' by (auto; apply Hp). now apply mixed_moments.
      Qed.
      Context (equ equ' : list R -> res (list R)).
      Hypothesis Hequ : forall v, length v = D -> exists h h', equ v = Ok h /\ equ' (turnR w v) = Ok h' /\ turned w S h h'.
      Lemma space_forcing_turned fm compr rho u F : fm <> CentralMoment -> length u = D -> length F = D ->
        (fm = He -> forall e, length e = D -> he_moment D (turnR w u) (turnR w F) e = turn_sign w e * he_moment D u F (turn_exp w e)) ->
        exists g g', space_forcing fm D S ps (moment_matrix ps S (rzero D)) T ws d equ compr rho u F = Ok g /\
          space_forcing fm D S ps (moment_matrix ps S (rzero D)) T' ws d equ' compr rho (turnR w u) (turnR w F) = Ok g' /\ mixed g g'.
      Proof.
        intros Hfm Hu HF Hhe. assert (EF : (length F =? D)%nat = true) by now apply Nat.eqb_eq. assert (EF' : (length (turnR w F) =? D)%nat = true) by (rewrite turnR_length; now apply Nat.eqb_eq).
        destruct fm; cbn [space_forcing]; try contradiction; rewrite ?EF, ?EF'.
        - eexists _, _. split; [reflexivity|]. split; [reflexivity|]. apply T_mixed. now apply simple_turned.
        - eexists _, _. split; [reflexivity|]. split; [reflexivity|]. apply T_mixed. now apply luo_turned.
        - eexists _, _. split; [reflexivity|]. split; [reflexivity|]. apply (mixed_rmul (fun x => 1 - 1 / 2 * x)). apply T_mixed. now apply luo_turned.
        - eexists _, _. split; [reflexivity|]. split; [reflexivity|]. apply (mixed_rmul (fun x => 1 - 1 / 2 * x)). apply T_values_mixed.
          rewrite (values_ext (he_moment D (turnR w u) (turnR w F)) (fun e => turn_sign w e * he_moment D u F (turn_exp w e))) by (now apply Hhe). apply mixed_values.
        - eexists _, _. split; [reflexivity|]. split; [reflexivity|]. apply (mixed_rmul (fun x => 1 - 1 / 2 * x)). apply T_mixed. now apply simple_turned.
        - unfold edm_terms. rewrite <- turnR_scale. rewrite <- turnR_radd by (rewrite map_length; congruence).
          assert (Lu : length (radd u (map (fun x => x / reference_density compr rho) F)) = D) by (rewrite radd_length, map_length; lia).
          destruct (Hequ _ Lu) as (h & h' & E1 & E2 & Hh). destruct (Hequ u Hu) as (k & k' & E3 & E4 & Hk). rewrite E1, E2. cbn [rbind]. rewrite E3, E4. cbn [rbind].
          eexists _, _. split; [reflexivity|]. split; [reflexivity|]. apply T_mixed. now apply (turned_rsub D S w HS Hcl).
        - eexists _, _. split; [reflexivity|]. split; [reflexivity|]. unfold shan_chen_factor. apply mixed_radd.
          + apply (mixed_rmul (fun x => / (1 / 3) * (1 - 1 / 2 * x))). apply T_mixed. now apply shan_chen_turned.
          + assert (E : forall v, rmul (rmul (map (fun x => / (1 / 3) * (1 - 1 / 2 * x)) d) (map (fun x => / (1 / 3) * (1 - 1 / 2 * x)) d)) v = rmul (map (fun x => / (1 / 3) * (1 - 1 / 2 * x) * (/ (1 / 3) * (1 - 1 / 2 * x))) d) v).
            { intros v. f_equal. unfold rmul. clear. induction d as [|x l IH]; [reflexivity|]. cbn [map combine fst snd]. now rewrite IH. }
            rewrite !E. apply (mixed_rmul (fun x => / (1 / 3) * (1 - 1 / 2 * x) * (/ (1 / 3) * (1 - 1 / 2 * x)))). apply T_mixed. now apply shan_chen_nonlinear_turned.
      Qed.
    End Forces.

    (* conserved quantities *)
    Lemma pdf_density_turned zc f f' : turned w S f f' -> pdf_density zc f' = pdf_density zc f.
    Proof.
      intros H. unfold pdf_density. f_equal. pose proof H as (L1 & L2 & _). rewrite <- !(CollProofs.density_rsum S) by assumption. now apply (turned_density D S HS Hcl w).
    Qed.
    Lemma velocity_turned zc compr force f f' : (forall fm F, force = Some (fm, F) -> length F = D) -> turned w S f f' ->
      equilibrium_velocity D S zc compr (turn_force w force) f' = turnR w (equilibrium_velocity D S zc compr force f).
    Proof.
      intros HF H. unfold equilibrium_velocity. rewrite (pdf_density_turned zc f f' H). set (ref := reference_density compr (pdf_density zc f)).
      assert (E : map (fun x => pdf_momentum S f' x / ref) (seq 0 D) = turnR w (map (fun x => pdf_momentum S f x / ref) (seq 0 D))).
      { change (map (fun x => momentum f' S x / ref) (seq 0 D) = turnR w (map (fun x => momentum f S x / ref) (seq 0 D))).
        rewrite <- (map_map (momentum f' S) (fun x => x / ref)), <- (map_map (momentum f S) (fun x => x / ref)), turnR_scale. f_equal. now apply (turned_momentum D S HS Hcl). }
      destruct force as [[fm F]|]; cbn [turn_force]; [|exact E]. specialize (HF fm F eq_refl). rewrite E. rewrite turnR_radd.
      - f_equal. unfold equilibrium_velocity_shift, default_velocity_shift. destruct (shifts_equilibrium fm); [symmetry; apply turnR_scale|]. rewrite turnR_length. symmetry. apply turnR_rzero.
      - rewrite map_length, seq_length. unfold equilibrium_velocity_shift, default_velocity_shift. destruct (shifts_equilibrium fm); [now rewrite map_length|now rewrite rzero_length].
    Qed.
    Lemma velocity_length zc compr force f : (forall fm F, force = Some (fm, F) -> length F = D) -> length (equilibrium_velocity D S zc compr force f) = D.
    Proof.
      intros HF. unfold equilibrium_velocity. destruct force as [[fm F]|]; [|now rewrite map_length, seq_length]. specialize (HF fm F eq_refl). rewrite radd_length, map_length, seq_length.
      unfold equilibrium_velocity_shift, default_velocity_shift. destruct (shifts_equilibrium fm); rewrite ?map_length, ?rzero_length; lia.
    Qed.

    Context (bg : list R) (zc compr : bool) (force : option (force_model * list R)).
    Hypothesis Hbg : turned w S bg bg.
    Hypothesis Hforce : forall fm F, force = Some (fm, F) -> fm <> CentralMoment /\ length F = D /\
      (fm = He -> forall u e, length u = D -> length e = D -> he_moment D (turnR w u) (turnR w F) e = turn_sign w e * he_moment D u F (turn_exp w e)).
    Let HF : forall fm F, force = Some (fm, F) -> length F = D.
    Proof. intros fm F E. now apply (Hforce fm F). Qed.
    Lemma raw_turned eqm fwd bwd f f' : symmetric_equilibrium w D eqm -> moment_transform n S ps bg (rzero D) fwd bwd -> turned w S f f' ->
      exists h h', moment_collision D S ps zc compr eqm ws (moment_matrix ps S (rzero D)) fwd bwd d force f = Ok h /\
        moment_collision D S ps zc compr eqm ws (moment_matrix ps S (rzero D)) fwd bwd d (turn_force w force) f' = Ok h' /\ turned w S h h'.
    Proof.
      intros Heq HT Hf. unfold moment_collision. rewrite (pdf_density_turned zc f f' Hf), (velocity_turned zc compr force f f' HF Hf). set (rho := pdf_density zc f). set (u := equilibrium_velocity D S zc compr force f).
      assert (Lu : length u = D) by (apply velocity_length; exact HF).
      assert (HT' : moment_transform n S ps bg (turnR w (rzero D)) fwd bwd) by (rewrite turnR_rzero; exact HT).
      assert (ME : forall v, length v = D -> mixed (equilibrium_values ps (eqm rho v)) (equilibrium_values ps (eqm rho (turnR w v)))).
      { intros v Hv. rewrite (values_ext (eqm rho (turnR w v)) (fun e => turn_sign w e * eqm rho v (turn_exp w e))); [apply mixed_values|]. intros e He. now apply Heq. }
      assert (G : exists g g', match force with None => Ok (rzero n) | Some (fm, F) => space_forcing fm D S ps (moment_matrix ps S (rzero D)) (fun m => m) ws d (raw_equilibrium_populations ps eqm bwd rho) compr rho u F end = Ok g /\
        match turn_force w force with None => Ok (rzero n) | Some (fm, F) => space_forcing fm D S ps (moment_matrix ps S (rzero D)) (fun m => m) ws d (raw_equilibrium_populations ps eqm bwd rho) compr rho (turnR w u) F end = Ok g' /\ mixed g g').
      { clearbody u. destruct force as [[fm F]|]; cbn [turn_force]; [|exists (rzero n), (rzero n); auto using mixed_rzero]. destruct (Hforce fm F eq_refl) as (H1 & H2 & H3).
        apply (space_forcing_turned (rzero D)); auto using rzero_length; [intros; now rewrite turnR_rzero|]. intros v Hv. unfold raw_equilibrium_populations. apply (backward_turned bg (rzero D) fwd bwd fwd bwd); auto using rzero_length. }
      destruct G as (g & g' & -> & -> & Hg). cbn [rbind]. apply (collide_turned bg (rzero D)); auto using rzero_length.
    Qed.
    Lemma central_turned eqc fwd bwd f f' : symmetric_equilibrium w D eqc -> (forall v, length v = D -> moment_transform n S ps bg v (fwd v) (bwd v)) -> turned w S f f' ->
      exists h h', central_collision D S ps zc compr eqc ws (moment_matrix ps S (rzero D)) Minv fwd bwd d force f = Ok h /\
        central_collision D S ps zc compr eqc ws (moment_matrix ps S (rzero D)) Minv fwd bwd d (turn_force w force) f' = Ok h' /\ turned w S h h'.
    Proof.
      intros Heq HT Hf. unfold central_collision. rewrite (pdf_density_turned zc f f' Hf), (velocity_turned zc compr force f f' HF Hf). set (rho := pdf_density zc f). set (u := equilibrium_velocity D S zc compr force f).
      assert (Lu : length u = D) by (apply velocity_length; exact HF).
      assert (HT' : forall v, length v = D -> moment_transform n S ps bg (turnR w v) (fwd (turnR w v)) (bwd (turnR w v))) by (intros v Hv; apply HT; now rewrite turnR_length).
      assert (ME : forall v, length v = D -> mixed (equilibrium_values ps (eqc rho v)) (equilibrium_values ps (eqc rho (turnR w v)))).
      { intros v Hv. rewrite (values_ext (eqc rho (turnR w v)) (fun e => turn_sign w e * eqc rho v (turn_exp w e))); [apply mixed_values|]. intros e He. now apply Heq. }
      assert (ST : forall v phi, length v = D -> length phi = n -> mv (shift_matrix n (moment_matrix ps S v) Minv) (map (poly_moment phi S (rzero D)) ps) = map (poly_moment phi S v) ps).
      { intros v phi Hv Hphi. unfold shift_matrix. rewrite <- !mv_moment_matrix, mv_mm by apply HM. f_equal. destruct HM as (_ & _ & _ & H1). now apply H1. }
      assert (G : exists g g', match force with None => Ok (rzero n) | Some (fm, F) => space_forcing fm D S ps (moment_matrix ps S (rzero D)) (mv (shift_matrix n (moment_matrix ps S u) Minv)) ws d (central_equilibrium_populations ps eqc bwd rho) compr rho u F end = Ok g /\
        match turn_force w force with None => Ok (rzero n) | Some (fm, F) => space_forcing fm D S ps (moment_matrix ps S (rzero D)) (mv (shift_matrix n (moment_matrix ps S (turnR w u)) Minv)) ws d (central_equilibrium_populations ps eqc bwd rho) compr rho (turnR w u) F end = Ok g' /\ mixed g g').
      { clearbody u. destruct force as [[fm F]|]; cbn [turn_force]; [|exists (rzero n), (rzero n); auto using mixed_rzero]. destruct (Hforce fm F eq_refl) as (H1 & H2 & H3).
        apply (space_forcing_turned u); auto; [intros; apply ST; auto; now rewrite turnR_length|]. intros v Hv. unfold central_equilibrium_populations. apply (backward_turned bg v (fwd v) (bwd v) (fwd (turnR w v)) (bwd (turnR w v))); auto. }
      destruct G as (g & g' & -> & -> & Hg). cbn [rbind]. apply (collide_turned bg u); auto.
    Qed.
  End Rates.
End Collision.
