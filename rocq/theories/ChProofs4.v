(* Advection of an affine order parameter by a uniform velocity; the finite difference stencils. *)
From Coq Require Import String List ZArith Bool Arith QArith Reals Qreals Lra Lia.
From Verif Require Import StencilModel StencilProofs StencilProofs2 RealLib LinLib TransSpec EqModel EqSpec EqProofs CollModel AcSpec AcProofs AcProofs2 ChModel ChSpec ChProofs ChProofs2 ChProofs3.
Import ListNotations.
Local Open Scope R_scope.

Section Advection.
  Variables (name ord : string) (S : stencil).
  Hypothesis HS : predefined_stencils name ord = Ok S.
  Hypothesis HW : has_weights S = true.
  Variables (M Minv : mat).
  Hypothesis HM : is_inverse (sizeQ S) M Minv.
  Variables (omega gamma : R) (v : list R).
  Hypothesis Hom : omega <> 0.
  Notation D := (dimD S).
  Notation n := (sizeQ S).
  Notation cq q := (nth q S []).
  Notation eqp := (eq_pop S gamma).
  Lemma ch_term_linear m r w c : ch_term D m gamma r v w c = m * ch_term D 1 gamma 0 v w c + r * ch_term D 0 gamma 1 v w c.
  Proof. unfold ch_term. field. Qed.
  Lemma eq_linear m r q : eqp m r v q = m * eqp 1 0 v q + r * eqp 0 1 v q.
  Proof.
    destruct (ch_equilibrium_form name ord S HS HW m gamma r v) as (ws & S' & Hw & ES & HL & w0 & wr & Ew & He).
    destruct (ch_equilibrium_form name ord S HS HW 1 gamma 0 v) as (ws1 & S1 & Hw1 & ES1 & _ & w01 & wr1 & Ew1 & He1).
    destruct (ch_equilibrium_form name ord S HS HW 0 gamma 1 v) as (ws2 & S2 & Hw2 & ES2 & _ & w02 & wr2 & Ew2 & He2).
    assert (S' = S1) by (rewrite ES1 in ES; injection ES; auto). assert (S' = S2) by (rewrite ES2 in ES; injection ES; auto). subst S1 S2.
    rewrite Hw in Hw1, Hw2. injection Hw1 as <-. injection Hw2 as <-. rewrite Ew in Ew1, Ew2. injection Ew1 as <- <-. injection Ew2 as <- <-.
    cbv zeta in He, He1, He2. unfold eq_pop. rewrite He, He1, He2.
    assert (G : forall l, map (fun wd => ch_term D m gamma r v (Q2R (fst wd)) (snd wd)) l = map (fun wd => m * ch_term D 1 gamma 0 v (Q2R (fst wd)) (snd wd) + r * ch_term D 0 gamma 1 v (Q2R (fst wd)) (snd wd)) l) by (intros l; apply map_ext; intros; apply ch_term_linear).
    rewrite G. generalize (combine wr S'). intros l. destruct q as [|q]; cbn [nth].
    - rewrite rsum_plus, !rsum_scal. ring.
    - revert q. induction l as [|p l IH]; intros [|q]; cbn [map nth]; try ring. apply IH.
  Qed.
  Lemma eq_sum m r : rsum (map (fun q => eqp m r v q) (seq 0 n)) = r.
  Proof. exact (eq_pop_sum name ord S HS HW gamma m r v). Qed.
  Lemma eq_first m r a : (a < D)%nat -> rsum (map (fun q => eqp m r v q * comp (cq q) a) (seq 0 n)) = r * nth a v 0.
  Proof.
    intros Ha. destruct (eq_ok name ord S HS HW gamma m r v) as (e & He & Hl). destruct (iso_facts name ord S HS HW) as (ws & Hw & _).
    pose proof (ch_momentum name ord S HS HW m gamma r v ws Hw e He a Ha) as H. unfold momentum in H. rewrite fsum_index in H by exact Hl. rewrite <- H. unfold eq_pop. rewrite He. reflexivity.
  Qed.
  Lemma eq_second m r a b : n <> 7%nat -> (a < D)%nat -> (b < D)%nat -> rsum (map (fun q => eqp m r v q * (comp (cq q) a * comp (cq q) b)) (seq 0 n)) = r * nth a v 0 * nth b v 0 + gamma * m * delta a b.
  Proof.
    intros H7 Ha Hb. destruct (eq_ok name ord S HS HW gamma m r v) as (e & He & Hl). destruct (iso_facts name ord S HS HW) as (ws & Hw & _).
    pose proof (ch_second name ord S HS HW m gamma r v ws Hw e He a b H7 Ha Hb) as H. unfold second_moment in H. rewrite fsum_index in H by exact Hl. rewrite <- H. unfold eq_pop. rewrite He. reflexivity.
  Qed.
  Variables (r0 m0 m1 : R) (g k : nat -> R).
  Definition slope (h : nat -> R) (c : vec) : R := rsum (map (fun a => h a * comp c a) (seq 0 D)).
  Definition gv : R := rsum (map (fun a => g a * nth a v 0) (seq 0 D)).
  Definition rho_at (t : nat) (x : vec) : R := affine_field D (r0 - INR t * gv) g x.
  Definition mu_at (t : nat) (x : vec) : R := affine_field D (m0 + INR t * m1) k x.
  Definition change (q : nat) : R := (slope k (cq q) + m1) * eqp 1 0 v q + (slope g (cq q) - gv) * eqp 0 1 v q.
  Definition travelling (t : nat) (x : vec) : list R := map (fun q => eqp (mu_at t x) (rho_at t x) v q - change q / omega) (seq 0 n).
  Lemma affine_back c0 h x c : length x = length c -> affine_field D c0 h (vadd x (vneg c)) = affine_field D c0 h x - slope h c.
  Proof. intros H. unfold affine_field, slope. rewrite (rsum_ext _ (fun a => h a * comp x a - h a * comp c a)) by (intros; rewrite comp_vsub by exact H; ring). rewrite rsum_minus. ring. Qed.
  Lemma eq_slope h m r : rsum (map (fun q => slope h (cq q) * eqp m r v q) (seq 0 n)) = r * rsum (map (fun a => h a * nth a v 0) (seq 0 D)).
  Proof.
    unfold slope. rewrite (rsum_ext _ (fun q => rsum (map (fun a => h a * (eqp m r v q * comp (cq q) a)) (seq 0 D)))) by (intros q _; rewrite <- rsum_scal_r; apply rsum_ext; intros; ring).
    rewrite rsum_swap, <- rsum_scal. apply rsum_ext. intros a Ha. apply in_seq in Ha. rewrite rsum_scal, eq_first by lia. ring.
  Qed.
  Lemma change_sum : rsum (map change (seq 0 n)) = 0.
  Proof.
    unfold change. rewrite (rsum_ext _ (fun q => (slope k (cq q) * eqp 1 0 v q + m1 * eqp 1 0 v q) + (slope g (cq q) * eqp 0 1 v q - gv * eqp 0 1 v q))) by (intros; ring).
    rewrite rsum_plus, rsum_plus, rsum_minus, !rsum_scal, !eq_slope, !eq_sum. unfold gv. ring.
  Qed.
  Lemma travelling_density t x : rsum (travelling t x) = rho_at t x.
  Proof. unfold travelling. rewrite rsum_minus, eq_sum. unfold Rdiv. rewrite rsum_scal_r, change_sum. ring. Qed.
  Lemma travelling_length t x : length (travelling t x) = n.
  Proof. unfold travelling. rewrite map_length, seq_length. reflexivity. Qed.
  Lemma travelling_step t x : length x = D -> ch_step S M Minv omega gamma (mu_at t) (fun _ => v) (travelling t) x = Ok (travelling (Datatypes.S t) x).
  Proof.
    intros Hx. rewrite (step_value name ord S HS HW M Minv HM omega gamma) by (intros; auto using travelling_length). f_equal. unfold travelling at 3. apply map_ext_in. intros q Hq. apply in_seq in Hq. cbv zeta.
    assert (Hc : length x = length (cq q)) by (rewrite (dir_length name ord S HS HW) by lia; exact Hx).
    rewrite travelling_density. unfold travelling. rewrite nth_map_seq by lia. rewrite (eq_linear (mu_at t _) (rho_at t _)), (eq_linear (mu_at (Datatypes.S t) x)).
    unfold mu_at, rho_at. rewrite !affine_back by exact Hc. unfold change, affine_field. rewrite S_INR. field. exact Hom.
  Qed.
  Lemma travelling_flux t x g' a : n <> 7%nat -> (a < D)%nat -> ch_collision S M Minv omega gamma (mu_at t x) v (travelling t x) = Ok g' ->
    (momentum (travelling t x) S a + momentum g' S a) / 2 = rho_at t x * nth a v 0 - gamma * (1 / omega - 1 / 2) * k a.
  Proof.
    intros H7 Ha Hg. pose proof (travelling_length t x) as Hl. rewrite (collision_momentum name ord S HS HW M Minv HM omega gamma _ v (travelling t x) g' a Hl Ha Hg), travelling_density.
    assert (P : momentum (travelling t x) S a = rho_at t x * nth a v 0 - gamma * k a / omega); [|rewrite P; field; exact Hom].
    unfold momentum. rewrite fsum_index by exact Hl. change (length S) with n.
    rewrite (rsum_ext _ (fun q => eqp (mu_at t x) (rho_at t x) v q * comp (cq q) a - / omega * (change q * comp (cq q) a))).
    2:{ intros q Hq. apply in_seq in Hq. unfold travelling. rewrite nth_map_seq by lia. unfold Rdiv. ring. }
    rewrite rsum_minus, rsum_scal, eq_first by exact Ha.
    assert (T : forall h m r, rsum (map (fun q => slope h (cq q) * eqp m r v q * comp (cq q) a) (seq 0 n)) = r * rsum (map (fun b => h b * nth b v 0) (seq 0 D)) * nth a v 0 + gamma * m * h a).
    { intros h m r. unfold slope. rewrite (rsum_ext _ (fun q => rsum (map (fun b => h b * (eqp m r v q * (comp (cq q) b * comp (cq q) a))) (seq 0 D)))).
      2:{ intros q _. rewrite <- !rsum_scal_r. apply rsum_ext. intros; ring. }
      rewrite rsum_swap. rewrite (rsum_ext _ (fun b => (r * nth a v 0) * (h b * nth b v 0) + (gamma * m * h b) * delta b a)).
      2:{ intros b Hb. apply in_seq in Hb. rewrite rsum_scal, eq_second by (assumption || lia). ring. }
      rewrite rsum_plus, rsum_scal, (rsum_delta D a (fun b => gamma * m * h b)) by exact Ha. ring. }
    assert (C : rsum (map (fun q => change q * comp (cq q) a) (seq 0 n)) = gamma * k a); [|rewrite C; field; exact Hom].
    unfold change. rewrite (rsum_ext _ (fun q => (slope k (cq q) * eqp 1 0 v q * comp (cq q) a + m1 * (eqp 1 0 v q * comp (cq q) a)) + (slope g (cq q) * eqp 0 1 v q * comp (cq q) a - gv * (eqp 0 1 v q * comp (cq q) a)))) by (intros; ring).
    rewrite rsum_plus, rsum_plus, rsum_minus, !rsum_scal, !T, !eq_first by exact Ha. unfold gv. ring.
  Qed.
End Advection.

(* ---- finite differences on a two-dimensional grid ---- *)
Definition fd1 (i : nat) (dx : R) (fa : vec -> R) : R :=
  let terms s := fd_neighbor fa i s (-1) * (1 / 12 / dx) + fd_neighbor fa i s 0 * (1 / 3 / dx) + fd_neighbor fa i s 1 * (1 / 12 / dx) in terms 1%Z - terms (-1)%Z.
Definition fd2 (i : nat) (dx : R) (fa : vec -> R) : R :=
  (1 / 8 * (fa [-1; -1]%Z + fa [-1; 1]%Z + fa [1; -1]%Z + fa [1; 1]%Z) + 1 / 2 * (fd_neighbor fa i (-1) 0 + fd_neighbor fa i 1 0) + - (3 / 2) * fa [0; 0]%Z) / dx ^ 2.
Lemma linear_sampled x dx o : linear (fun p => sampled_dx p x dx o).
Proof. intros p. unfold sampled_dx, peval. apply rsum_ext. intros t _. cbn. ring. Qed.
Lemma linear_zero : linear (fun _ => 0).
Proof. intros p. rewrite (rsum_ext _ (fun _ => 0)) by (intros; ring). now rewrite rsum_zero. Qed.
Lemma linear_plus L N : linear L -> linear N -> linear (fun p => L p + N p).
Proof. intros HL HN. apply (linear_ext (fun p => L p + 1 * N p)); [intros; ring|]. now apply linear_comb. Qed.
Lemma linear_scal c L : linear L -> linear (fun p => c * L p).
Proof. intros HL. apply (linear_ext (fun p => 0 + c * L p)); [intros; ring|]. apply linear_comb; [exact linear_zero|exact HL]. Qed.
Lemma linear_fd1 i x dx : linear (fun p => fd1 i dx (sampled_dx p x dx)).
Proof.
  apply (linear_ext (fun p => 1 / 12 / dx * sampled_dx p x dx (if Nat.eqb i 0 then [1; -1] else [-1; 1])%Z + (1 / 3 / dx * sampled_dx p x dx (if Nat.eqb i 0 then [1; 0] else [0; 1])%Z + (1 / 12 / dx * sampled_dx p x dx (if Nat.eqb i 0 then [1; 1] else [1; 1])%Z
    + ((0 - 1 / 12 / dx) * sampled_dx p x dx (if Nat.eqb i 0 then [-1; -1] else [-1; -1])%Z + ((0 - 1 / 3 / dx) * sampled_dx p x dx (if Nat.eqb i 0 then [-1; 0] else [0; -1])%Z + (0 - 1 / 12 / dx) * sampled_dx p x dx (if Nat.eqb i 0 then [-1; 1] else [1; -1])%Z)))))).
  - intros p. unfold fd1, fd_neighbor. ring.
  - repeat (apply linear_plus; [apply linear_scal, linear_sampled|]). apply linear_scal, linear_sampled.
Qed.
Lemma linear_fd2 i x dx : linear (fun p => fd2 i dx (sampled_dx p x dx)).
Proof.
  apply (linear_ext (fun p => 1 / 8 / dx ^ 2 * sampled_dx p x dx [-1; -1]%Z + (1 / 8 / dx ^ 2 * sampled_dx p x dx [-1; 1]%Z + (1 / 8 / dx ^ 2 * sampled_dx p x dx [1; -1]%Z + (1 / 8 / dx ^ 2 * sampled_dx p x dx [1; 1]%Z
    + (1 / 2 / dx ^ 2 * sampled_dx p x dx (if Nat.eqb i 0 then [-1; 0] else [0; -1])%Z + (1 / 2 / dx ^ 2 * sampled_dx p x dx (if Nat.eqb i 0 then [1; 0] else [0; 1])%Z + (0 - 3 / 2) / dx ^ 2 * sampled_dx p x dx [0; 0]%Z))))))).
  - intros p. unfold fd2, fd_neighbor, Rdiv. ring.
  - repeat (apply linear_plus; [apply linear_scal, linear_sampled|]). apply linear_scal, linear_sampled.
Qed.
Ltac solve_fd H := cbv -[Rplus Rmult Ropp Rinv Rdiv Rminus IZR pow R0 R1]; change R1 with 1; change R0 with 0; field; exact H.
Ltac exps_fd H e He Hs :=
  let i := fresh "i" in let j := fresh "j" in
  destruct e as [|i [|j [|]]]; try discriminate He; cbn [list_sum fold_right] in Hs;
  do 6 (destruct i as [|i]; [do 6 (destruct j as [|j]; [solve [exfalso; lia | clear - H; solve_fd H]|]); exfalso; lia|]); exfalso; lia.
Lemma fd1_poly i x dx p : (i < 2)%nat -> length x = 2%nat -> dx <> 0 -> degree_le 2 4 p -> fd1 i dx (sampled_dx p x dx) = peval (pderiv i p) x + dx ^ 2 / 6 * peval (pderiv i (plap 2 p)) x.
Proof.
  intros Hi Hx Hd Hp. apply (linear_eq (fun p => fd1 i dx (sampled_dx p x dx)) (fun p => peval (pderiv i p) x + dx ^ 2 / 6 * peval (pderiv i (plap 2 p)) x) 2 4); auto.
  - apply linear_fd1.
  - apply linear_comb; [apply linear_d1|apply linear_d3].
  - intros e He Hs. point2 x Hx. axes2 i Hi; exps_fd Hd e He Hs.
Qed.
Lemma fd2_poly i x dx p : (i < 2)%nat -> length x = 2%nat -> dx <> 0 -> degree_le 2 3 p -> fd2 i dx (sampled_dx p x dx) = 3 / 4 * peval (pderiv i (pderiv i p)) x + 1 / 4 * peval (pderiv (1 - i) (pderiv (1 - i) p)) x.
Proof.
  intros Hi Hx Hd Hp. apply (linear_eq (fun p => fd2 i dx (sampled_dx p x dx)) (fun p => 3 / 4 * peval (pderiv i (pderiv i p)) x + 1 / 4 * peval (pderiv (1 - i) (pderiv (1 - i) p)) x) 2 3); auto.
  - apply linear_fd2.
  - apply linear_comb; [apply linear_scal|]; apply (termwise_linear (fun p => pderiv _ (pderiv _ p))), termwise_pderiv, (termwise_pderiv _ (fun p => p)), termwise_id.
  - intros e He Hs. point2 x Hx. axes2 i Hi; exps_fd Hd e He Hs.
Qed.
