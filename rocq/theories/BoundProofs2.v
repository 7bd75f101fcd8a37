(* C19: conservation with bounce-back and the reported boundary force. *)
From Coq Require Import List ZArith Bool Arith Reals Lra Lia Permutation.
From Verif Require Import StencilModel StencilProofs AccessModel StreamModel StreamSpec AccessProofs StreamProofs StreamProofs2
  RealLib BoundModel BoundSpec BoundProofs RaceProofs.
Import ListNotations.
Local Open Scope R_scope.

Lemma nth_vneg a d : nth a (vneg d) 0%Z = (- nth a d 0)%Z.
Proof. unfold vneg. change 0%Z with (- 0)%Z at 1. rewrite map_nth. reflexivity. Qed.

Lemma rsum_nth (g : list R) n : length g = n -> rsum (map (fun j => nth j g 0) (seq 0 n)) = rsum g.
Proof. intros H. f_equal. apply map_nth_seq. exact H. Qed.

Lemma arriving_length L (S : stencil) fluid B f (x : cell L) : length (arriving S fluid B f x) = length S.
Proof. unfold arriving. now rewrite map_length, seq_length. Qed.

Section Conseq.
  Context (L : lattice) (S : stencil) (fluid : cell L -> bool) (cells : list (cell L)) (links : list (link L)).
  Context (B : cell L -> nat -> brule R) (f : cell L -> list R).
  Hypothesis HS : symmetric_stencil (ldim L) S.
  Hypothesis HG : lists_geometry S fluid cells links.
  Hypothesis Hf : forall x, fluid x = true -> length (f x) = length S.

  Theorem mass_balance :
    total_mass cells (arriving S fluid B f)
    = total_mass cells f + rsum (map (fun l => rule_value S f (fst l) (B (fst l) (snd l)) - nth (snd l) (f (fst l)) 0) links).
  Proof.
    pose proof (balance L S fluid cells links B f HS HG (fun _ => 1)) as H.
    unfold total_mass.
    rewrite (rsum_ext (fun x => rsum (arriving S fluid B f x))
              (fun x => rsum (map (fun j => 1 * nth j (arriving S fluid B f x) 0) (seq 0 (length S)))) cells).
    2:{ intros x _. rewrite rsum_scal, rsum_nth by apply arriving_length. lra. }
    rewrite (rsum_ext (fun x => rsum (f x)) (fun x => rsum (map (fun j => 1 * nth j (f x) 0) (seq 0 (length S)))) cells).
    2:{ intros x Hx. rewrite rsum_scal, rsum_nth by (apply Hf, HG, Hx). lra. }
    rewrite H. f_equal. apply rsum_ext. intros l _. lra.
  Qed.

  Theorem momentum_balance a :
    total_momentum S a cells (arriving S fluid B f)
    = total_momentum S a cells f
      - rsum (map (fun l => IZR (nth a (dir S (snd l)) 0%Z) * (nth (snd l) (f (fst l)) 0 + rule_value S f (fst l) (B (fst l) (snd l)))) links).
  Proof.
    unfold total_momentum, cell_momentum.
    rewrite (balance L S fluid cells links B f HS HG (fun j => IZR (nth a (dir S j) 0%Z))).
    unfold Rminus at 2. f_equal. rewrite <- Ropp_mult_distr_l_reverse || idtac.
    rewrite <- (Rmult_1_l (rsum (map (fun l => IZR (nth a (dir S (snd l)) 0%Z) * _) links))), Ropp_mult_distr_l, <- rsum_scal.
    apply rsum_ext. intros [x i] Hl. apply HG in Hl as (_ & Hi & _). cbn [fst snd] in *.
    rewrite (dir_opp (ldim L) S HS) by exact Hi. rewrite nth_vneg, opp_IZR. lra.
  Qed.
End Conseq.

Lemma no_slip_value L S f (x : cell L) i : symmetric_stencil (ldim L) S -> rule_value S f x (no_slip S i) = nth i (f x) 0.
Proof.
  intros HS. unfold rule_value, no_slip, here. cbn [b_fun b_reads map nth pacc_value].
  rewrite (dimD_D (ldim L) S HS), shift_zero. reflexivity.
Qed.

(* --- the whole simulation --- *)
Theorem mass_conserved (L : lattice) (S : stencil) p (fluid : cell L -> bool) cells xs0 xs links C B f0 t m_src m_tmp n :
  supported p (ldim L) S t ->
  NoDup cells -> (forall x, In x cells <-> fluid x = true) ->
  (forall x, fluid x = true -> In x xs0) ->
  (forall n, NoDup (xs n)) -> (forall n x, In x (xs n) <-> fluid x = true) ->
  (forall n l, In l (links n) <-> is_link S fluid l) ->
  (forall n x f, length f = length S -> length (C n x f) = length S /\ rsum (C n x f) = rsum f) ->
  (forall n x i, B n x i = no_slip S i) ->
  (forall x, length (f0 x) = length S) ->
  exists F, (forall x, fluid x = true -> simulate L R p t S xs0 xs links C B f0 m_src m_tmp n x = Ok (F x)) /\
    total_mass cells F = total_mass cells f0.
Proof.
  intros HP Hnc Hc H0 Hnd Hxs Hl HC HB Hf.
  exists (post 0 S fluid C B f0 n). split.
  - intros x Hx. apply simulate_correct; try assumption.
    + intros. now apply HC.
    + intros n0 x0 i a (Hx0 & Hi & _) Ha. rewrite HB in Ha. destruct Ha as [<-|[]]. cbn [readable fst snd] in *.
      unfold here. rewrite (dimD_D (ldim L) S (proj1 HP)), shift_zero, vzero_length. auto.
  - assert (Hlen : forall n x, length (post 0 S fluid C B f0 n x) = length S).
    { intros n0 x. apply post_length; [|exact Hf]. intros. now apply HC. }
    set (links' := nodup (link_eq_dec L) (links 0%nat)).
    assert (HG : lists_geometry S fluid cells links').
    { split; [exact Hnc|]. split; [exact Hc|]. split; [apply NoDup_nodup|].
      intros l. unfold links'. rewrite nodup_In. apply Hl. }
    induction n as [|n IH]; [reflexivity|].
    rewrite <- IH.
    transitivity (total_mass cells (arriving S fluid (B n) (post 0 S fluid C B f0 n))).
    + unfold total_mass. apply rsum_ext. intros x Hx. cbn [StreamSpec.post].
      apply HC. apply arriving_length.
    + rewrite (mass_balance L S fluid cells links' (B n) _ (proj1 HP) HG) by (intros; apply Hlen).
      rewrite (rsum_ext _ (fun _ => 0)), rsum_zero; [lra|].
      intros [x i] _. cbn [fst snd]. rewrite HB, no_slip_value by apply HP. lra.
Qed.

(* --- the force evaluation --- *)
Lemma collect_ok L (S : stencil) (g : nat -> access) (m : mem L R) (l : list (link L)) :
  (forall x i, In (x, i) l -> (i < length S)%nat) ->
  collect L (map g (seq 0 (length S))) m l = Ok (map (fun xi => at_loc L R m (loc (fst xi) (g (snd xi)))) l).
Proof.
  intros H. unfold collect. induction l as [|[x i] l IH]; [reflexivity|]. cbn [mapM map fst snd].
  rewrite nth_error_seqmap by (apply (H x i); left; reflexivity). cbn [rbind].
  rewrite IH by (intros y j Hy; apply (H y j); right; exact Hy). reflexivity.
Qed.

Lemma inverse_dirs_ok D (S : stencil) : symmetric_stencil D S -> inverse_dirs S = Ok (map (opp S) (seq 0 (length S))).
Proof.
  intros HS. unfold inverse_dirs. apply (mapM_stencil S). intros i Hi. apply (st_inverse_index_dir D S HS i Hi).
Qed.

Lemma tget_inverse (S : stencil) i : (i < length S)%nat -> nth i (map (opp S) (seq 0 (length S))) 0%nat = opp S i.
Proof.
  intros Hi. rewrite (nth_indep _ 0%nat (opp S 0)) by (rewrite map_length, seq_length; exact Hi).
  rewrite map_nth, seq_nth by exact Hi. reflexivity.
Qed.

Lemma sum_forces_map L S a (links : list (link L)) (v : link L -> R) :
  sum_forces L S a links (map v links) = rsum (map (fun l => IZR (nth a (offset_of S (snd l)) 0%Z) * v l) links).
Proof.
  unfold sum_forces. induction links as [|l links IH]; [reflexivity|]. cbn [map combine fst snd]. rewrite !rsum_cons, IH. reflexivity.
Qed.

Section Force.
  Context (L : lattice) (S : stencil) (p : pattern) (t : timestep) (fluid : cell L -> bool).
  Context (cells : list (cell L)) (links : list (link L)) (B : cell L -> nat -> brule R).
  Hypothesis HP : supported p (ldim L) S t.
  Hypothesis HG : lists_geometry S fluid cells links.
  Hypothesis HB : forall x i a, is_link S fluid (x, i) -> In a (b_reads (B x i)) -> readable S fluid x a.

  Theorem force_correct no_slip_class a s :
    (no_slip_class = true -> forall x i, B x i = no_slip S i) ->
    exists s' F f, force_on_boundary L no_slip_class p t S a B links s = Ok (s', F) /\
      boundary L R p t S B links s = Ok s' /\
      (forall x, fluid x = true -> getter L R p t S false (src s) x = Ok (f x)) /\
      F = total_momentum S a cells f - total_momentum S a cells (arriving S fluid B f).
  Proof.
    intros Hns.
    destruct (boundary_alone L R 0 S p t fluid B HP HB links s) as (s' & Hb & _ & Hv & Hg & _).
    { intros l Hl. apply HG. exact Hl. }
    assert (Hlt : forall x i, In (x, i) links -> (i < length S)%nat).
    { intros x i Hl. apply HG in Hl. apply Hl. }
    pose proof (writes_of_seq p _ S t HP) as HW. unfold writes_of in HW.
    pose proof (reads_of_seq p _ S _ (supported_next p _ S t HP)) as HR. unfold reads_of in HR.
    set (f := pops L R S p t (src s)).
    assert (Hfv : forall x i, In (x, i) links -> at_loc L R (src s') (loc x (waddr (ldim L) S p t i)) = nth i (f x) 0).
    { intros x i Hl. specialize (Hg x). assert (Hx : fluid x = true) by (apply HG in Hl; apply Hl). specialize (Hg Hx).
      rewrite !(getter_pops L R S p t HP) in Hg. injection Hg as Hg. unfold f. rewrite <- Hg.
      rewrite nth_pops by (eapply Hlt; eauto). reflexivity. }
    pose proof (momentum_balance L S fluid cells links B f (proj1 HP) HG a) as HM.
    exists s'. eexists. exists f. unfold force_on_boundary. rewrite Hb. cbn [rbind].
    assert (E : (if no_slip_class then force_on_no_slip L p t S a links (src s') else force_on_other L p t S a links (src s'))
                = Ok (rsum (map (fun l => IZR (nth a (dir S (snd l)) 0%Z) *
                    (nth (snd l) (f (fst l)) 0 + rule_value S f (fst l) (B (fst l) (snd l)))) links))).
    { destruct no_slip_class.
      - unfold force_on_no_slip. destruct (get_accessor p t) as [acc|]; [|discriminate]. cbn [rbind] in HW |- *.
        rewrite HW. cbn [rbind]. rewrite (collect_ok L S) by exact Hlt. cbn [rbind].
        rewrite map_map, sum_forces_map. f_equal. apply rsum_ext. intros [x i] Hl. cbn [fst snd].
        rewrite Hfv by exact Hl. rewrite (Hns eq_refl), no_slip_value by apply HP. unfold offset_of, dir. lra.
      - unfold force_on_other. rewrite (inverse_dirs_ok _ _ (proj1 HP)). cbn [rbind].
        destruct (get_accessor p t) as [acc|]; [|discriminate]. cbn [rbind] in HW |- *. rewrite HW. cbn [rbind].
        destruct (get_accessor p (ts_next t)) as [acc'|]; [|discriminate]. cbn [rbind] in HR |- *. rewrite HR. cbn [rbind].
        rewrite (collect_ok L S) by exact Hlt. cbn [rbind].
        rewrite (collect_ok L S).
        2:{ intros x k Hk. apply in_map_iff in Hk as ([y i] & [= <- <-] & Hl). cbn [snd].
            rewrite tget_inverse by (eapply Hlt; eauto). eapply opp_lt; [apply HP|eapply Hlt; eauto]. }
        cbn [rbind]. rewrite map_map.
        replace (map (fun p0 : R * R => fst p0 + snd p0) _)
          with (map (fun l : link L => nth (snd l) (f (fst l)) 0 + rule_value S f (fst l) (B (fst l) (snd l))) links).
        { rewrite sum_forces_map. reflexivity. }
        assert (G : forall l', (forall l, In l l' -> In l links) ->
           map (fun l : link L => nth (snd l) (f (fst l)) 0 + rule_value S f (fst l) (B (fst l) (snd l))) l' =
           map (fun p0 : R * R => fst p0 + snd p0)
             (combine (map (fun xi : link L => at_loc L R (src s') (loc (fst xi) (waddr (ldim L) S p t (snd xi)))) l')
                (map (fun x : link L => at_loc L R (src s') (loc (fst (fst x, nth (snd x) (map (opp S) (seq 0 (length S))) 0%nat))
                   (raddr (ldim L) S p (ts_next t) (snd (fst x, nth (snd x) (map (opp S) (seq 0 (length S))) 0%nat))))) l'))).
        { induction l' as [|[x i] l' IH]; intros Hin; [reflexivity|]. cbn [map combine]. f_equal.
          2:{ apply IH. intros; apply Hin; right; assumption. }
          cbn [fst snd]. assert (Hl : In (x, i) links) by (apply Hin; left; reflexivity).
          rewrite Hfv by exact Hl. rewrite tget_inverse by (eapply Hlt; eauto). rewrite (Hv x i Hl). reflexivity. }
        apply G. auto. }
    rewrite E. cbn [rbind]. split; [reflexivity|]. split; [reflexivity|]. split.
    - intros x Hx. apply getter_pops. exact HP.
    - rewrite HM. lra.
  Qed.
End Force.
