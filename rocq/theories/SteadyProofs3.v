(* Polynomial steady states are exactly the states of the hierarchy. *)
From Coq Require Import List ZArith Bool Arith Reals Lra Lia.
From Verif Require Import StencilModel RealLib LinLib EqSpec SteadyModel SteadySpec SteadyProofs SteadyProofs2.
Import ListNotations.
Local Open Scope R_scope.

(* ---- polynomial jets ---- *)
Definition polyj (g : jet) : Prop := exists p, forall idx x, g idx x = jet_of p idx x.
Lemma polyj_ext g g' : (forall idx x, g idx x = g' idx x) -> polyj g -> polyj g'.
Proof. intros H (p & Hp). exists p. intros. rewrite <- H. apply Hp. Qed.
Lemma polyj_zero : polyj (fun _ _ => 0).
Proof. exists (Const 0). intros. unfold jet_of. rewrite pds_const. reflexivity. Qed.
Lemma polyj_add g h : polyj g -> polyj h -> polyj (fun idx x => g idx x + h idx x).
Proof. intros (p & Hp) (q & Hq). exists (Add p q). intros. unfold jet_of. rewrite pds_add. cbn [val]. rewrite Hp, Hq. reflexivity. Qed.
Lemma polyj_scal r g : polyj g -> polyj (fun idx x => r * g idx x).
Proof. intros (p & Hp). exists (Scale r p). intros. unfold jet_of. rewrite pds_scale. cbn [val]. rewrite Hp. reflexivity. Qed.
Lemma polyj_sum {B} (G : B -> jet) l : (forall b, In b l -> polyj (G b)) -> polyj (fun idx x => rsum (map (fun b => G b idx x) l)).
Proof.
  induction l as [|b l IH]; intros H; [exact polyj_zero|]. apply (polyj_ext (fun idx x => G b idx x + rsum (map (fun b => G b idx x) l))); [reflexivity|].
  apply polyj_add; [apply H; left; reflexivity|]. apply IH. intros. apply H. right. assumption.
Qed.
Lemma polyj_dir D c g : polyj g -> polyj (dirder D c g).
Proof. intros (p & Hp). exists (dirp D c p). intros. rewrite dirp_jet. apply dirder_ext. exact Hp. Qed.
Lemma val_jet p p' : (forall x, val p x = val p' x) -> forall idx x, jet_of p idx x = jet_of p' idx x.
Proof.
  intros H idx. unfold jet_of. revert p p' H. induction idx as [|a idx IH]; intros p p' H x; [apply H|]. unfold pds in *. cbn [fold_left]. apply IH. intros y.
  apply (uniqueness_limite (fun h => val p (moved y a h)) 0); [apply pd_lim|]. pose proof (pd_lim a p' y) as L. intros e He. destruct (L e He) as (d & Hd). exists d. intros h Hh Hl. rewrite !H. apply Hd; assumption.
Qed.
Lemma polyj_zero_all g : polyj g -> (forall x, g [] x = 0) -> forall idx x, g idx x = 0.
Proof. intros (p & Hp) H idx x. rewrite Hp. rewrite (val_jet p (Const 0)); [unfold jet_of; apply pds_const|]. intros y. pose proof (Hp [] y) as E. unfold jet_of, pds in E. cbn [fold_left] in E. rewrite <- E. apply H. Qed.

Section Exact.
  Variables (S : stencil) (A Ainv : mat) (f0 force : jets) (N : nat).
  Let n := length S.
  Let D := dimD S.
  Hypothesis HS : Forall (fun c => length c = D) S.
  Hypothesis HI : is_inverse n A Ainv.
  Hypothesis HN : (1 <= N)%nat.
  Hypothesis P0 : polynomial_fields n f0.
  Hypothesis PF : polynomial_fields n force.
  Hypothesis D0 : degree_at_most n N f0.
  Hypothesis DF : degree_at_most n (N - 1) force.
  Notation T := (taylor_term S).
  Notation F := (pdf_order S Ainv f0 force).
  Notation app := (apply_matrix S).
  Notation sol := (series S Ainv f0 force N 1).

  Definition van (m : nat) (f : jets) : Prop := forall q idx x, (q < n)%nat -> (m <= length idx)%nat -> f q idx x = 0.
  Lemma van_advect m f : van m f -> van (m - 1) (advect S f).
  Proof. intros H q idx x Hq Hl. unfold advect, dirder. apply rsum_zero_in. intros a _. rewrite (H q (a :: idx) x Hq) by (cbn [length]; lia). ring. Qed.
  Lemma van_advect_n k m f : van m f -> van (m - k) (advect_n S k f).
  Proof. intros H. induction k as [|k IH]; [rewrite Nat.sub_0_r; exact H|]. cbn [advect_n]. apply van_advect in IH. intros q idx x Hq Hl. apply IH; [exact Hq|lia]. Qed.
  Lemma van_taylor k m f : van m f -> van (m - k) (T k f).
  Proof. intros H q idx x Hq Hl. unfold taylor_term, jscal. rewrite (van_advect_n k m f H q idx x Hq Hl). ring. Qed.
  Lemma van_app M m f : van m f -> van m (app M f).
  Proof.
    intros H q idx x _ Hl. unfold apply_matrix. rewrite (map_ext_in _ (fun _ => 0)).
    - unfold dot. generalize (nth q M []) (seq 0 (length S)). induction l as [|a l IH]; intros [|s t]; try reflexivity. cbn [map combine]. rewrite rsum_cons, IH. cbn [fst snd]. ring.
    - intros r Hr. apply in_seq in Hr. apply H; [unfold n; lia|exact Hl].
  Qed.
  Lemma van_pdf i : (i <= N)%nat -> van (N + 1 - i) (F i).
  Proof.
    induction i as [i IH] using lt_wf_ind. intros Hi. destruct i as [|i].
    - intros q idx x Hq Hl. apply (D0 q idx x Hq). lia.
    - intros q idx x Hq Hl. rewrite pdf_next. rewrite (van_app Ainv (N + 1 - Datatypes.S i)); [ring| |exact Hq|exact Hl].
      clear q idx x Hq Hl. intros q idx x Hq Hl. unfold sources, jsub, jsum. rewrite map_map. rewrite rsum_zero_in.
      + destruct (Nat.eqb_spec (Datatypes.S i) 1) as [E|_]; [rewrite (DF q idx x Hq) by lia; ring|unfold jzero; ring].
      + intros k Hk. apply in_seq in Hk. apply (van_taylor k (N + 1 - (Datatypes.S i - k)) _ (IH (Datatypes.S i - k)%nat ltac:(lia) ltac:(lia)) q idx x Hq). lia.
  Qed.

  (* polynomial fields *)
  Definition polys (f : jets) : Prop := forall q, (q < n)%nat -> polyj (f q).
  Lemma polys_advect_n k f : polys f -> polys (advect_n S k f).
  Proof. intros H. induction k as [|k IH]; [exact H|]. intros q Hq. cbn [advect_n]. apply polyj_dir. apply IH. exact Hq. Qed.
  Lemma polys_taylor k f : polys f -> polys (T k f).
  Proof. intros H q Hq. apply (polyj_scal (1 / INR (fact k)) (advect_n S k f q)). apply polys_advect_n; assumption. Qed.
  Lemma polys_app M f : polys f -> polys (app M f).
  Proof.
    intros H q Hq. unfold apply_matrix. assert (HL : forall r, In r (seq 0 (length S)) -> polyj (f r)) by (intros r Hr; apply in_seq in Hr; apply H; unfold n; lia).
    revert HL. generalize (seq 0 (length S)). generalize (nth q M []). induction l as [|a l IH]; intros [|s t] HL; try exact polyj_zero.
    apply (polyj_ext (fun idx x => a * f s idx x + dot l (map (fun r => f r idx x) t))); [intros; cbn [map]; rewrite dot_cons; reflexivity|].
    apply polyj_add; [apply polyj_scal; apply HL; left; reflexivity|]. apply IH. intros. apply HL. right. assumption.
  Qed.
  Lemma polys_sub f g : polys f -> polys g -> polys (jsub f g).
  Proof.
    intros Hf Hg q Hq. apply (polyj_ext (fun idx x => f q idx x + -1 * g q idx x)); [intros; unfold jsub; ring|]. apply polyj_add; [apply Hf; exact Hq|]. apply polyj_scal. apply Hg. exact Hq.
  Qed.
  Lemma polys_sum {B} (G : B -> jets) l : (forall b, In b l -> polys (G b)) -> polys (jsum (map G l)).
  Proof.
    intros H q Hq. unfold jsum. apply (polyj_ext (fun idx x => rsum (map (fun b => G b q idx x) l))); [intros; rewrite map_map; reflexivity|].
    apply (polyj_sum (fun b => G b q)). intros b Hb. apply H; assumption.
  Qed.
  Lemma polys_pdf i : polys (F i).
  Proof.
    induction i as [i IH] using lt_wf_ind. destruct i as [|i]; [exact P0|]. intros q Hq. apply (polyj_ext (fun idx x => -1 * app Ainv (sources S force (Datatypes.S i) F) q idx x)); [intros; rewrite pdf_next; ring|].
    apply polyj_scal. apply polys_app; [|exact Hq]. unfold sources. apply polys_sub.
    - apply polys_sum. intros k Hk. apply in_seq in Hk. apply polys_taylor. apply IH. lia.
    - destruct (Datatypes.S i =? 1)%nat; [exact PF|]. intros r _. exact polyj_zero.
  Qed.
  Lemma polys_sol : polys sol.
  Proof. unfold series. apply polys_sum. intros i _ q Hq. apply (polyj_scal (1 ^ i) (F i q)). apply polys_pdf. exact Hq. Qed.
  Lemma van_sol : van (N + 1) sol.
  Proof.
    intros q idx x Hq Hl. unfold series, jsum. rewrite map_map. apply rsum_zero_in. intros i Hi. apply in_seq in Hi. unfold jscal. rewrite (van_pdf i ltac:(lia) q idx x Hq) by lia. ring.
  Qed.
  Lemma sol_equation q idx x : (q < n)%nat -> taylor_expanded_equation S f0 force N A 1 sol q idx x = 0.
  Proof.
    intros Hq. rewrite (residual S A Ainv f0 force HI N 1 q idx x Hq HN). apply rsum_zero_in. intros k Hk. apply in_seq in Hk. apply rsum_zero_in. intros j Hj. apply in_seq in Hj.
    destruct (Nat.leb_spec (k + j) N) as [L|L]; unfold ind; cbn [negb]; [ring|]. rewrite (van_taylor k (N + 1 - j) _ (van_pdf j ltac:(lia)) q idx x Hq) by lia. ring.
  Qed.

  (* ---- steady states and the expanded equation ---- *)
  Lemma advect_dir k f q : advect_n S k f q = dirder_n D (nth q S []) k (f q).
  Proof. induction k as [|k IH]; [reflexivity|]. cbn [advect_n dirder_n]. unfold advect. rewrite IH. reflexivity. Qed.
  Lemma equation_value f q x : taylor_expanded_equation S f0 force N A 1 f q [] x =
    rsum (map (fun k => 1 / INR (fact k) * dirder_n D (nth q S []) k (f q) [] x) (seq 1 N)) + dot (nth q A []) (rsub (populations n f x) (populations n f0 x)) - force q [] x.
  Proof.
    unfold taylor_expanded_equation. unfold jsub at 1, jadd. unfold jsum. rewrite map_map. unfold jscal at 2. rewrite Rmult_1_l. f_equal. f_equal.
    - apply rsum_ext. intros k _. unfold jscal, taylor_term, jscal. rewrite pow1, advect_dir. ring.
    - unfold apply_matrix. f_equal. fold n. unfold populations. apply list_ext; [rewrite rsub_length, !map_length; lia|]. intros i Hi. rewrite map_length, seq_length in Hi.
      rewrite nth_rsub by (rewrite !map_length; reflexivity). rewrite !nth_map_seq by exact Hi. reflexivity.
  Qed.
  Lemma steady_equation f : polys f -> van (N + 1) f -> steady_for S A f0 force f <-> forall q x, (q < n)%nat -> taylor_expanded_equation S f0 force N A 1 f q [] x = 0.
  Proof.
    intros HP HV. assert (HT : forall q x, (q < n)%nat -> f q [] (neighbour x (nth q S [])) = f q [] x + rsum (map (fun k => 1 / INR (fact k) * dirder_n D (nth q S []) k (f q) [] x) (seq 1 N))).
    { intros q x Hq. destruct (HP q Hq) as (p & Hp). apply (taylor_exact D (nth q S []) N (f q) p x).
      - rewrite Forall_forall in HS. apply HS. apply nth_In. exact Hq.
      - exact Hp.
      - intros idx y Hl. apply (HV q idx y Hq). lia. }
    split.
    - intros H q x Hq. rewrite equation_value. specialize (H q x Hq). rewrite (HT q x Hq) in H. fold n in H. lra.
    - intros H q x Hq. specialize (H q x Hq). rewrite equation_value in H. rewrite (HT q x Hq). fold n. lra.
  Qed.
  Lemma sol_steady : steady_for S A f0 force sol.
  Proof. apply (steady_equation sol polys_sol van_sol). intros q x Hq. apply sol_equation. exact Hq. Qed.
  Lemma polys_equation f : polys f -> polys (taylor_expanded_equation S f0 force N A 1 f).
  Proof.
    intros H. unfold taylor_expanded_equation. apply polys_sub.
    - intros q Hq. unfold jadd. apply polyj_add.
      + apply (polys_sum (fun k => jscal (1 ^ k) (T k f))); [|exact Hq]. intros k _ r Hr. apply (polyj_scal (1 ^ k) (T k f r)). apply polys_taylor; assumption.
      + apply polys_app; [|exact Hq]. apply polys_sub; [exact H|exact P0].
    - intros q Hq. apply (polyj_scal 1 (force q)). apply PF. exact Hq.
  Qed.
  Lemma taylor_sub k f g q idx x : (q < n)%nat -> T k (jsub f g) q idx x = T k f q idx x - T k g q idx x.
  Proof.
    intros Hq. rewrite (taylor_ext S k (jsub f g) (jsum (map (fun b : bool => jscal (if b then 1 else -1) (if b then f else g)) [true; false]))); [|intros r idx' x' _; unfold jsub, jsum, jscal; cbn [map rsum fold_right]; ring|exact Hq].
    rewrite taylor_sum by exact Hq. cbn [map rsum fold_right]. ring.
  Qed.
  Lemma steady_unique f : polys f -> van (N + 1) f -> steady_for S A f0 force f -> same_fields n f sol.
  Proof.
    intros HP HV H. pose proof (proj1 (steady_equation f HP HV) H) as HE.
    assert (HJ : forall q idx x, (q < n)%nat -> taylor_expanded_equation S f0 force N A 1 f q idx x = 0).
    { intros q idx x Hq. apply (polyj_zero_all (taylor_expanded_equation S f0 force N A 1 f q)); [apply polys_equation; assumption|]. intros y. apply HE. exact Hq. }
    set (g := jsub f sol).
    assert (HG : forall q idx x, (q < n)%nat -> app A g q idx x = - jsum (map (fun k => T k g) (seq 1 N)) q idx x).
    { intros q idx x Hq. pose proof (HJ q idx x Hq) as E1. pose proof (sol_equation q idx x Hq) as E2. unfold taylor_expanded_equation in E1, E2. unfold jsub at 1, jadd in E1. unfold jsub at 1, jadd in E2.
      rewrite app_sub in E1, E2. unfold g. rewrite app_sub. unfold jsum in *. rewrite map_map in *.
      rewrite (rsum_ext (fun k => T k (jsub f sol) q idx x) (fun k => T k f q idx x - T k sol q idx x)) by (intros k _; apply taylor_sub; exact Hq). rewrite rsum_minus.
      rewrite (rsum_ext _ (fun k => T k f q idx x)) in E1 by (intros k _; unfold jscal; rewrite pow1; ring). rewrite (rsum_ext _ (fun k => T k sol q idx x)) in E2 by (intros k _; unfold jscal; rewrite pow1; ring). lra. }
    assert (HZ : forall m, (m <= N + 1)%nat -> van (N + 1 - m) g).
    { induction m as [|m IH]; intros Hm.
      - intros q idx x Hq Hl. unfold g, jsub. rewrite (HV q idx x Hq), (van_sol q idx x Hq) by lia. ring.
      - specialize (IH ltac:(lia)). intros q idx x Hq Hl. rewrite <- (app_cancel' S A Ainv HI g q idx x Hq). apply (van_app Ainv (N + 1 - Datatypes.S m)); [|exact Hq|exact Hl].
        intros r idx' x' Hr Hl'. rewrite (HG r idx' x' Hr). unfold jsum. rewrite map_map. rewrite rsum_zero_in; [ring|]. intros k Hk. apply in_seq in Hk. apply (van_taylor k _ _ IH r idx' x' Hr). lia. }
    intros q idx x Hq. specialize (HZ (N + 1)%nat (le_n _) q idx x Hq ltac:(lia)). unfold g, jsub in HZ. lra.
  Qed.

  (* ---- conserved quantities ---- *)
  Lemma recombined_sol q x : recombined S Ainv f0 force N 1 q [] x = sol q [] x - f0 q [] x.
  Proof. rewrite series_split. unfold recombined, jsum. rewrite map_map. unfold jscal. rewrite (rsum_ext _ (fun i => 1 ^ i * F i q [] x)); [ring|]. intros i _. rewrite !pow1. reflexivity. Qed.
  Lemma continuity_sol x : continuity_equation S Ainv f0 force N 1 x = pop_density n sol x - pop_density n f0 x.
  Proof. unfold continuity_equation, pop_density, populations. fold n. rewrite <- rsum_minus. apply rsum_ext. intros q _. apply recombined_sol. Qed.
  Lemma momentum_sol shift h x : momentum_equation S Ainv f0 force shift N 1 h x = pop_momentum S sol h x - pop_momentum S f0 h x + shift h x.
  Proof. unfold momentum_equation, pop_momentum. f_equal. rewrite <- rsum_minus. apply rsum_ext. intros q _. rewrite recombined_sol. ring. Qed.
End Exact.

(* coefficients of the powers *)
Lemma continuity_orders S Ainv f0 force N eps x : continuity_equation S Ainv f0 force N eps x = rsum (map (fun k => eps ^ k * continuity_of_order S Ainv f0 force k x) (seq 0 N)).
Proof.
  unfold continuity_equation, continuity_of_order, recombined, jsum. rewrite (rsum_ext _ (fun q => rsum (map (fun k => eps ^ k * pdf_order S Ainv f0 force (k + 1) q [] x) (seq 0 N)))).
  - rewrite rsum_swap. apply rsum_ext. intros k _. rewrite rsum_scal. reflexivity.
  - intros q _. rewrite map_map. change 1%nat with (1 + 0)%nat at 2. rewrite seq_shift_map. apply rsum_ext. intros k _. unfold jscal. replace (1 + k - 1)%nat with k by lia. replace (1 + k)%nat with (k + 1)%nat by lia. reflexivity.
Qed.
Lemma momentum_orders S Ainv f0 force shift N eps h x : (1 <= N)%nat -> momentum_equation S Ainv f0 force shift N eps h x = rsum (map (fun k => eps ^ k * momentum_of_order S Ainv f0 force shift k h x) (seq 0 N)).
Proof.
  intros HN. unfold momentum_equation, momentum_of_order, recombined, jsum.
  rewrite (rsum_ext (fun k => eps ^ k * _) (fun k => eps ^ k * rsum (map (fun q => comp (nth q S []) h * pdf_order S Ainv f0 force (k + 1) q [] x) (seq 0 (length S))) + (if Nat.eqb k 0 then shift h x else 0))).
  - rewrite rsum_plus. f_equal.
    + rewrite (rsum_ext _ (fun q => rsum (map (fun k => eps ^ k * (comp (nth q S []) h * pdf_order S Ainv f0 force (k + 1) q [] x)) (seq 0 N)))).
      * rewrite rsum_swap. apply rsum_ext. intros k _. rewrite rsum_scal. reflexivity.
      * intros q _. rewrite map_map. change 1%nat with (1 + 0)%nat at 2. rewrite seq_shift_map. rewrite <- rsum_scal. apply rsum_ext. intros k _. unfold jscal. replace (1 + k - 1)%nat with k by lia. replace (1 + k)%nat with (k + 1)%nat by lia. ring.
    + destruct N as [|N]; [lia|]. cbn [seq map]. rewrite rsum_cons, rsum_zero_in; [cbn [Nat.eqb]; ring|]. intros i Hi. apply in_seq in Hi. destruct i; [lia|reflexivity].
  - intros k _. destruct (Nat.eqb_spec k 0) as [->|]; cbn [pow]; ring.
Qed.
