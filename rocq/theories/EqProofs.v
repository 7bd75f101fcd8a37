From Coq Require Import String List ZArith Bool Arith QArith Reals Qreals Lra Lia.
From Verif Require Import StencilModel StencilProofs StencilProofs2 RealLib EqModel EqSpec.
Import ListNotations.
Local Open Scope R_scope.

(* ---- rational computation of moments ---- *)
Fixpoint zmono (c : vec) (e : list nat) : Z :=
  match c, e with x :: c, n :: e => (x ^ Z.of_nat n * zmono c e)%Z | _, _ => 1%Z end.
Lemma zmono_R c e : IZR (zmono c e) = monomial c e.
Proof.
  revert e; induction c as [|x c IH]; intros [|n e]; try reflexivity. cbn [zmono monomial].
  rewrite mult_IZR, IH, <- pow_IZR. reflexivity.
Qed.
Definition qsum (l : list Q) : Q := fold_right Qplus 0%Q l.
Definition qmom (ws : list Q) (S : stencil) (g : vec -> Z) : Q :=
  qsum (map (fun wc => (fst wc * inject_Z (g (snd wc)))%Q) (combine ws S)).
Lemma Q2R_inject z : Q2R (inject_Z z) = IZR z.
Proof. unfold Q2R, inject_Z. cbn. lra. Qed.
Lemma qmom_R ws S g : fsum (map Q2R ws) S (fun c => IZR (g c)) = Q2R (qmom ws S g).
Proof.
  unfold fsum, qmom. revert S; induction ws as [|w ws IH]; intros [|c S]; try (cbn; unfold Q2R; cbn; lra).
  cbn [map combine qsum fold_right]. rewrite Q2R_plus, Q2R_mult, Q2R_inject, rsum_cons, IH. reflexivity.
Qed.
Lemma raw_moment_Q ws S e : raw_moment (map Q2R ws) S e = Q2R (qmom ws S (fun c => zmono c e)).
Proof. rewrite <- qmom_R. unfold raw_moment, fsum. apply rsum_ext. intros a _. rewrite zmono_R. reflexivity. Qed.

(* ---- reduction of exponents on {-1,0,1} ---- *)
Definition canon (n : nat) : nat := if Nat.eqb n 0 then 0 else if Nat.odd n then 1 else 2.
Lemma pow_m1 n : (-1) ^ n = if Nat.odd n then -1 else 1.
Proof.
  induction n as [|n IH]; [reflexivity|]. cbn [pow]. rewrite IH, Nat.odd_succ, <- Nat.negb_odd. destruct (Nat.odd n); cbn; lra.
Qed.
Lemma pow_canon (x : Z) n : In x [-1; 0; 1]%Z -> IZR x ^ n = IZR x ^ canon n.
Proof.
  unfold canon. destruct (Nat.eqb_spec n 0) as [->|Hn]; [reflexivity|].
  intros [<-|[<-|[<-|[]]]].
  - rewrite pow_m1. destruct (Nat.odd n); cbn; lra.
  - rewrite pow_i by lia. destruct (Nat.odd n); cbn; lra.
  - rewrite pow1. destruct (Nat.odd n); cbn; lra.
Qed.
Definition unit_b (S : stencil) : bool := forallb (forallb (fun x => (Z.eqb x (-1) || Z.eqb x 0 || Z.eqb x 1)%bool)) S.
Lemma unit_b_In S c x : unit_b S = true -> In c S -> In x c -> In x [-1; 0; 1]%Z.
Proof.
  intros H Hc Hx. unfold unit_b in H. rewrite forallb_forall in H. specialize (H c Hc). rewrite forallb_forall in H. specialize (H x Hx).
  rewrite !orb_true_iff, !Z.eqb_eq in H. cbn. intuition lia.
Qed.
Lemma monomial_canon c e : (forall x, In x c -> In x [-1; 0; 1]%Z) -> monomial c e = monomial c (map canon e).
Proof.
  revert e; induction c as [|x c IH]; intros [|n e] H; try reflexivity. cbn [monomial map].
  rewrite (pow_canon x n) by (apply H; left; reflexivity). rewrite IH; [reflexivity|]. intros y Hy. apply H. right; exact Hy.
Qed.
Lemma raw_canon f S e : unit_b S = true -> raw_moment f S e = raw_moment f S (map canon e).
Proof.
  intros H. unfold raw_moment, fsum. apply rsum_ext. intros [w c] Hin. apply in_combine_r in Hin. cbn [fst snd].
  rewrite (monomial_canon c e); [reflexivity|]. intros x Hx. exact (unit_b_In S c x H Hin Hx).
Qed.

(* ---- closed form of all moments ---- *)
Definition nonzero_count (e : list nat) : nat := length (filter (fun n => negb (Nat.eqb n 0)) e).
Definition lattice_moment (size : nat) (e : list nat) : Q :=
  if existsb Nat.odd e then 0%Q
  else match nonzero_count e with
       | 0%nat => 1%Q
       | 1%nat => 1 # 3
       | 2%nat => if Nat.eqb size 7 then 0%Q else 1 # 9
       | _ => if Nat.eqb size 15 then 1 # 9 else if Nat.eqb size 27 then 1 # 27 else 0%Q
       end.
Fixpoint tuples {A} (n : nat) (vals : list A) : list (list A) :=
  match n with O => [[]] | S n => flat_map (fun v => map (cons v) (tuples n vals)) vals end.
Lemma in_tuples {A} n (vals : list A) l : length l = n -> (forall x, In x l -> In x vals) -> In l (tuples n vals).
Proof.
  revert l; induction n as [|n IH]; intros [|x l] H1 H2; try discriminate; [left; reflexivity|].
  cbn [tuples]. apply in_flat_map. exists x. split; [apply H2; left; reflexivity|]. apply in_map, IH; [injection H1; auto|].
  intros y Hy. apply H2. right; exact Hy.
Qed.

Definition has_weights (S : stencil) : bool := existsb (Nat.eqb (sizeQ S)) [9; 7; 15; 19; 27]%nat.
Definition same_speed (c d : vec) : bool := Nat.eqb (length (filter (fun x => negb (Z.eqb x 0)) c)) (length (filter (fun x => negb (Z.eqb x 0)) d)).
Definition weights_check (S : stencil) : bool :=
  match get_weights S with
  | Err _ => false
  | Ok ws =>
    unit_b S &&
    forallb (fun w => Qle_bool 0 w) ws &&
    forallb (fun e => Qeq_bool (qmom ws S (fun c => zmono c e)) (lattice_moment (sizeQ S) e)) (tuples (dimD S) [0; 1; 2]%nat) &&
    forallb (fun p => forallb (fun q => implb (same_speed (snd p) (snd q)) (Qeq_bool (fst p) (fst q))) (combine ws S)) (combine ws S)
  end.
Definition table_check (e : string * string * stencil) : bool :=
  let S := snd e in if has_weights S then weights_check S else match get_weights S with Err KeyError => true | _ => false end.
Lemma table_checked : forallb table_check predefined_table = true.
Proof. vm_compute. reflexivity. Qed.

Lemma canon_lattice size e : lattice_moment size (map canon e) = lattice_moment size e.
Proof.
  unfold lattice_moment, nonzero_count.
  assert (Hodd : existsb Nat.odd (map canon e) = existsb Nat.odd e).
  { induction e as [|n e IH]; [reflexivity|]. cbn [map existsb]. rewrite IH. f_equal. unfold canon.
    destruct (Nat.eqb_spec n 0) as [->|]; [reflexivity|]. destruct (Nat.odd n); reflexivity. }
  rewrite Hodd. assert (Hnz : forall l, length (filter (fun n => negb (Nat.eqb n 0)) (map canon l)) = length (filter (fun n => negb (Nat.eqb n 0)) l)).
  { induction l as [|n l IH]; [reflexivity|]. cbn [map filter]. unfold canon at 1. destruct (Nat.eqb_spec n 0) as [->|]; cbn [negb]; [exact IH|].
    destruct (Nat.odd n); cbn [negb Nat.eqb length]; rewrite IH; reflexivity. }
  rewrite Hnz. reflexivity.
Qed.

Lemma weights_facts name ord S : predefined_stencils name ord = Ok S -> has_weights S = true ->
  exists ws, get_weights S = Ok ws /\ unit_b S = true /\ Forall (fun w => (0 <= w)%Q) ws /\
    (forall e, length e = dimD S -> raw_moment (map Q2R ws) S e = Q2R (lattice_moment (sizeQ S) e)) /\
    (forall i j wi wj ci cj, nth_error ws i = Some wi -> nth_error ws j = Some wj ->
       nth_error S i = Some ci -> nth_error S j = Some cj -> same_speed ci cj = true -> wi == wj)%Q.
Proof.
  intros HS Hw. apply predefined_In in HS. pose proof table_checked as T. rewrite forallb_forall in T. specialize (T _ HS).
  unfold table_check in T. cbn [snd] in T. rewrite Hw in T. unfold weights_check in T.
  destruct (get_weights S) as [ws|] eqn:E; [|discriminate]. exists ws. split; [reflexivity|].
  rewrite !andb_true_iff in T. destruct T as [[[T1 T2] T3] T4]. split; [exact T1|].
  split. { rewrite forallb_forall in T2. apply Forall_forall. intros w Hin. apply Qle_bool_iff, T2, Hin. }
  split.
  - intros e He. rewrite (raw_canon _ S e T1), raw_moment_Q. apply Qeq_eqR. apply Qeq_bool_eq. rewrite <- (canon_lattice _ e).
    rewrite forallb_forall in T3. apply T3. apply in_tuples; [rewrite map_length; exact He|].
    intros x Hx. apply in_map_iff in Hx as (n & <- & _). unfold canon. destruct (Nat.eqb n 0); [left; reflexivity|].
    destruct (Nat.odd n); [right; left; reflexivity|right; right; left; reflexivity].
  - intros i j wi wj ci cj H1 H2 H3 H4 Hs. rewrite forallb_forall in T4.
    assert (C : forall k w c, nth_error ws k = Some w -> nth_error S k = Some c -> In (w, c) (combine ws S)).
    { clear. revert S; induction ws as [|a ws IH]; intros [|b S] [|k] w c H1 H2; try discriminate.
      - injection H1 as ->. injection H2 as ->. left; reflexivity.
      - right. exact (IH S k w c H1 H2). }
    specialize (T4 _ (C _ _ _ H1 H3)). rewrite forallb_forall in T4. specialize (T4 _ (C _ _ _ H2 H4)). cbn [fst snd] in T4.
    rewrite Hs in T4. apply Qeq_bool_eq. exact T4.
Qed.

Lemma weights_rejected S : S <> [] -> has_weights S = false -> get_weights S = Err KeyError.
Proof.
  intros Hne H. unfold get_weights, weight_for_direction.
  assert (E : weight_table (sizeQ S) = None).
  { unfold has_weights in H. cbn [existsb] in H. rewrite !orb_false_iff, !Nat.eqb_neq in H. destruct H as (H9 & H7 & H15 & H19 & H27 & _).
    revert H9 H7 H15 H19 H27. generalize (sizeQ S). intros n H9 H7 H15 H19 H27. unfold weight_table.
    do 28 (destruct n as [|n]; [reflexivity || lia|]). reflexivity. }
  rewrite E. destruct S as [|c S]; [contradiction|]. reflexivity.
Qed.

(* ---- isotropy in index form ---- *)
Definition zprod (c : vec) (l : list nat) : Z := fold_right Z.mul 1%Z (map (fun a => nth a c 0%Z) l).
Definition rprod (c : vec) (l : list nat) : R := fold_right Rmult 1 (map (comp c) l).
Lemma zprod_R c l : IZR (zprod c l) = rprod c l.
Proof. induction l as [|a l IH]; [reflexivity|]. unfold zprod, rprod in *. cbn. rewrite mult_IZR, IH. reflexivity. Qed.
Definition qdelta (a b : nat) : Q := if Nat.eqb a b then 1%Q else 0%Q.
Definition iso (l : list nat) : Q :=
  match l with
  | [] => 1%Q
  | [a; b] => qdelta a b * (1 # 3)
  | [a; b; c; d] => (qdelta a b * qdelta c d + qdelta a c * qdelta b d + qdelta a d * qdelta b c) * (1 # 9)
  | _ => 0%Q
  end.
Definition iso_check (n : nat) (S : stencil) : bool :=
  match get_weights S with
  | Err _ => false
  | Ok ws => forallb (fun k => forallb (fun l => Qeq_bool (qmom ws S (fun c => zprod c l)) (iso l)) (tuples k (seq 0 (dimD S)))) (seq 0 (Datatypes.S n))
  end.
Definition size_iso (e : string * string * stencil) : bool :=
  let S := snd e in
  if has_weights S then
    (Nat.eqb (dimD S) 2 || Nat.eqb (dimD S) 3) && iso_check (if Nat.eqb (sizeQ S) 7 then 3 else 5)%nat S && forallb (fun c => Nat.eqb (length c) (dimD S)) S
  else true.
Lemma table_iso : forallb size_iso predefined_table = true.
Proof. vm_compute. reflexivity. Qed.

Definition iso_order (S : stencil) : nat := if Nat.eqb (sizeQ S) 7 then 3 else 5.

Lemma iso_facts name ord S : predefined_stencils name ord = Ok S -> has_weights S = true ->
  exists ws, get_weights S = Ok ws /\ (dimD S = 2 \/ dimD S = 3)%nat /\ (forall c, In c S -> length c = dimD S) /\
    forall l, (length l <= iso_order S)%nat -> (forall a, In a l -> (a < dimD S)%nat) -> fsum (map Q2R ws) S (fun c => rprod c l) = Q2R (iso l).
Proof.
  intros HS Hw. apply predefined_In in HS. pose proof table_iso as T. rewrite forallb_forall in T. specialize (T _ HS).
  unfold size_iso in T. cbn [snd] in T. rewrite Hw in T. rewrite !andb_true_iff, orb_true_iff, !Nat.eqb_eq in T. destruct T as ((T1 & T2) & T3).
  unfold iso_check in T2. destruct (get_weights S) as [ws|]; [|discriminate]. exists ws. split; [reflexivity|]. split; [exact T1|].
  split. { intros c Hc. rewrite forallb_forall in T3. apply Nat.eqb_eq, T3, Hc. }
  intros l Hl Ha. rewrite forallb_forall in T2.
  specialize (T2 (length l)). rewrite forallb_forall in T2. erewrite <- (Qeq_eqR _ (iso l)).
  2:{ apply Qeq_bool_eq. apply T2; [apply in_seq; unfold iso_order in Hl; lia|]. apply in_tuples; [reflexivity|]. intros a Hin. apply in_seq. specialize (Ha a Hin). lia. }
  rewrite <- qmom_R. unfold fsum. apply rsum_ext. intros x _. rewrite zprod_R. reflexivity.
Qed.

Lemma Q2R_qdelta a b : Q2R (qdelta a b) = delta a b.
Proof. unfold qdelta, delta, Q2R. destruct (Nat.eqb a b); cbn; lra. Qed.
Lemma Q2R_frac n d : Q2R (n # d) = IZR n / IZR (Zpos d).
Proof. reflexivity. Qed.

(* linear functional *)
Lemma fsum_ext f S g h : (forall c, In c S -> g c = h c) -> fsum f S g = fsum f S h.
Proof. intros H. unfold fsum. apply rsum_ext. intros [w c] Hin. apply in_combine_r in Hin. cbn [fst snd]. rewrite (H c Hin). reflexivity. Qed.
Lemma fsum_plus f S g h : fsum f S (fun c => g c + h c) = fsum f S g + fsum f S h.
Proof. unfold fsum. rewrite <- rsum_plus. apply rsum_ext. intros; ring. Qed.
Lemma fsum_scal f S k g : fsum f S (fun c => k * g c) = k * fsum f S g.
Proof. unfold fsum. rewrite <- rsum_scal. apply rsum_ext. intros; ring. Qed.

Section Moments.
  Variables (S : stencil) (w : list R) (u : list R).
  Notation E := (fsum w S).
  Notation D := (dimD S).
  Definition ucomp (a : nat) : R := nth a u 0.
  Definition cu (c : vec) : R := e_times_u c (firstn D u).
  Definition uu : R := u_times_u (firstn D u).
  Context (HD : (D = 2 \/ D = 3)%nat) (Hlen : forall c, In c S -> length c = D).

  Lemma cu_sum c : In c S -> cu c = rsum (map (fun a => comp c a * ucomp a) (seq 0 D)).
  Proof.
    intros Hc. specialize (Hlen c Hc). unfold cu, e_times_u, ucomp, comp.
    destruct HD as [E2|E3].
    - rewrite E2 in *. destruct c as [|x [|y [|? ?]]]; try discriminate.
      destruct u as [|ux [|uy u']]; cbn; ring.
    - rewrite E3 in *. destruct c as [|x [|y [|z [|? ?]]]]; try discriminate.
      destruct u as [|ux [|uy [|uz u']]]; cbn; ring.
  Qed.
  Lemma uu_sum : uu = rsum (map (fun a => ucomp a * ucomp a) (seq 0 D)).
  Proof.
    unfold uu, u_times_u, ucomp. destruct HD as [E2|E3].
    - rewrite E2. destruct u as [|ux [|uy u']]; cbn; ring.
    - rewrite E3. destruct u as [|ux [|uy [|uz u']]]; cbn; ring.
  Qed.
  Lemma E_sum (g : nat -> vec -> R) (l : list nat) : E (fun c => rsum (map (fun a => g a c) l)) = rsum (map (fun a => E (g a)) l).
  Proof.
    induction l as [|a l IH].
    - cbn. unfold fsum. rewrite (rsum_ext _ (fun _ => 0)); [apply rsum_zero; intros; reflexivity|]. intros; ring.
    - cbn [map]. rewrite rsum_cons, <- IH, <- fsum_plus. apply fsum_ext. intros c _. rewrite rsum_cons. reflexivity.
  Qed.
  (* expanding one factor c.u *)
  Lemma E_cu l k : E (fun c => rprod c l * cu c ^ Datatypes.S k)
    = rsum (map (fun a => ucomp a * E (fun c => rprod c (l ++ [a]) * cu c ^ k)) (seq 0 D)).
  Proof.
    transitivity (E (fun c => rsum (map (fun a => ucomp a * (rprod c (l ++ [a]) * cu c ^ k)) (seq 0 D)))).
    - apply fsum_ext. intros c Hc. cbn [pow].
      replace (rprod c l * (cu c * cu c ^ k)) with ((rprod c l * cu c ^ k) * cu c) by ring.
      rewrite (cu_sum c Hc) at 2. rewrite <- rsum_scal. apply rsum_ext. intros a _.
      unfold rprod. rewrite map_app, fold_right_app. cbn [map fold_right].
      assert (A : forall m x, fold_right Rmult x m = fold_right Rmult 1 m * x).
      { clear. induction m as [|y m IH]; intros x; cbn; [ring|]. rewrite IH. ring. }
      rewrite (A _ (comp c a * 1)). ring.
    - rewrite (E_sum (fun a c => ucomp a * (rprod c (l ++ [a]) * cu c ^ k))). apply rsum_ext. intros a _. apply fsum_scal.
  Qed.
  Context (n : nat) (Hiso : forall l, (length l <= n)%nat -> (forall a, In a l -> (a < D)%nat) -> E (fun c => rprod c l) = Q2R (iso l)).
  Lemma E_cu0 l : (length l <= n)%nat -> (forall a, In a l -> (a < D)%nat) -> E (fun c => rprod c l * cu c ^ 0) = Q2R (iso l).
  Proof. intros H1 H2. rewrite <- Hiso by assumption. apply fsum_ext. intros; cbn; ring. Qed.
  Definition J (l : list nat) (k : nat) : R := E (fun c => rprod c l * cu c ^ k).
  Ltac solveJ :=
    intros; unfold J;
    destruct HD as [E2|E2];
    repeat (rewrite E_cu, E2; cbn [seq map app]; rewrite ?rsum_cons, ?rsum_nil);
    rewrite ?E_cu0 by (cbn [length] in *; try lia; cbn [In]; rewrite ?E2 in *; intuition (subst; lia));
    rewrite ?uu_sum, ?E2; unfold iso; cbn [seq map]; rewrite ?rsum_cons, ?rsum_nil;
    rewrite ?Q2R_mult, ?Q2R_plus, ?Q2R_mult, ?Q2R_qdelta, ?Q2R_frac, ?RMicromega.Q2R_0, ?RMicromega.Q2R_1.
  Lemma J_0_0 : J [] 0 = 1. Proof. solveJ; lra. Qed.
  Lemma J_0_1 : (1 <= n)%nat -> J [] 1 = 0. Proof. solveJ; lra. Qed.
  Lemma J_0_2 : (2 <= n)%nat -> J [] 2 = uu / 3. Proof. solveJ; unfold delta; cbn [Nat.eqb]; lra. Qed.
  Lemma J_0_3 : (3 <= n)%nat -> J [] 3 = 0. Proof. solveJ; lra. Qed.
  Lemma J_1_0 a : (a < D)%nat -> (1 <= n)%nat -> J [a] 0 = 0. Proof. solveJ; lra. Qed.
  Lemma J_1_1 a : (a < D)%nat -> (2 <= n)%nat -> J [a] 1 = ucomp a / 3.
  Proof. solveJ; destruct a as [|[|[|a]]]; try (exfalso; lia); unfold delta; cbn [Nat.eqb]; lra. Qed.
  Lemma J_1_2 a : (a < D)%nat -> (3 <= n)%nat -> J [a] 2 = 0. Proof. solveJ; lra. Qed.
  Lemma J_1_3 a : (a < D)%nat -> (4 <= n)%nat -> J [a] 3 = ucomp a * uu / 3.
  Proof. solveJ; destruct a as [|[|[|a]]]; try (exfalso; lia); unfold delta; cbn [Nat.eqb]; field. Qed.
  Lemma J_2_0 a b : (a < D)%nat -> (b < D)%nat -> (2 <= n)%nat -> J [a; b] 0 = delta a b / 3. Proof. solveJ; lra. Qed.
  Lemma J_2_1 a b : (a < D)%nat -> (b < D)%nat -> (3 <= n)%nat -> J [a; b] 1 = 0. Proof. solveJ; lra. Qed.
  Lemma J_2_2 a b : (a < D)%nat -> (b < D)%nat -> (4 <= n)%nat -> J [a; b] 2 = (uu * delta a b + 2 * ucomp a * ucomp b) / 9.
  Proof.
    solveJ; (destruct a as [|[|[|a]]]; try (exfalso; lia)); (destruct b as [|[|[|b]]]; try (exfalso; lia)); unfold delta; cbn [Nat.eqb]; field.
  Qed.
  Lemma J_2_3 a b : (a < D)%nat -> (b < D)%nat -> (5 <= n)%nat -> J [a; b] 3 = 0. Proof. solveJ; lra. Qed.
  Lemma J_3_0 a b c : (a < D)%nat -> (b < D)%nat -> (c < D)%nat -> (3 <= n)%nat -> J [a; b; c] 0 = 0. Proof. solveJ; lra. Qed.
  Lemma J_3_1 a b c : (a < D)%nat -> (b < D)%nat -> (c < D)%nat -> (4 <= n)%nat ->
    J [a; b; c] 1 = (ucomp a * delta b c + ucomp b * delta a c + ucomp c * delta a b) / 9.
  Proof.
    solveJ; (destruct a as [|[|[|a]]]; try (exfalso; lia)); (destruct b as [|[|[|b]]]; try (exfalso; lia));
      (destruct c as [|[|[|c]]]; try (exfalso; lia)); unfold delta; cbn [Nat.eqb]; field.
  Qed.
  Lemma J_3_2 a b c : (a < D)%nat -> (b < D)%nat -> (c < D)%nat -> (5 <= n)%nat -> J [a; b; c] 2 = 0. Proof. solveJ; lra. Qed.
End Moments.

(* ---- equilibrium populations as weighted polynomial ---- *)
Lemma fsum_pops ws S (F : vec -> R -> R) (P : vec -> R) g :
  (forall c x, F c x = P c * x) ->
  fsum (map (fun wc => F (snd wc) (Q2R (fst wc))) (combine ws S)) S g = fsum (map Q2R ws) S (fun c => g c * P c).
Proof.
  intros HF. unfold fsum. revert S; induction ws as [|x ws IH]; intros [|c S]; try reflexivity.
  cbn [combine map]. rewrite !rsum_cons, IH. cbn [fst snd]. rewrite HF. ring.
Qed.

Definition polyc (S : stencil) (u : list R) (rho : R) (order : Z) (compressible : bool) (c : vec) : R :=
  let cu := cu S u c in
  let r := if compressible then rho else 1 in
  ((if compressible then 1 else rho) + 3 * cu
   + (if (order <=? 1)%Z then 0 else 9 / 2 * cu ^ 2 - 3 / 2 * uu S u)
   + (if (order <=? 2)%Z then 0 else 9 / 2 * cu ^ 3 - 9 / 2 * uu S u * cu)) * r.
Lemma discrete_eq_poly S u rho order comp c x :
  discrete_equilibrium c (firstn (dimD S) u) rho x order (1 / 3) comp = polyc S u rho order comp c * x.
Proof.
  unfold discrete_equilibrium, polyc, cu, uu. generalize (e_times_u c (firstn (dimD S) u)), (u_times_u (firstn (dimD S) u)). intros A B.
  destruct (Z.leb_spec order 1) as [H1|H1]; destruct (Z.leb_spec order 2) as [H2|H2]; try lia; destruct comp; field.
Qed.

Lemma eq_moment S ws u rho order compr f l :
  get_weights S = Ok ws ->
  discrete_maxwellian_equilibrium S rho u order (1 / 3) compr = Ok f ->
  fsum f S (fun c => rprod c l) =
    (let r := if compr then rho else 1 in let j := J S (map Q2R ws) u l in
     ((if compr then 1 else rho) * j 0%nat + 3 * j 1%nat
      + (if (order <=? 1)%Z then 0 else 9 / 2 * j 2%nat - 3 / 2 * uu S u * j 0%nat)
      + (if (order <=? 2)%Z then 0 else 9 / 2 * j 3%nat - 9 / 2 * uu S u * j 1%nat)) * r).
Proof.
  intros Hw H. unfold discrete_maxwellian_equilibrium in H. rewrite Hw in H. cbn [rbind] in H. injection H as <-.
  rewrite (fsum_pops ws S (fun c x => discrete_equilibrium c (firstn (dimD S) u) rho x order (1/3) compr) (polyc S u rho order compr)).
  2:{ intros; apply discrete_eq_poly. }
  cbv zeta. unfold J.
  set (r := if compr then rho else 1). set (r0 := if compr then 1 else rho).
  transitivity (fsum (map Q2R ws) S (fun c =>
      r * r0 * (rprod c l * cu S u c ^ 0) + (r * 3 * (rprod c l * cu S u c ^ 1)
      + ((if (order <=? 1)%Z then 0 else r * (9/2)) * (rprod c l * cu S u c ^ 2)
      + ((if (order <=? 1)%Z then 0 else - r * (3/2) * uu S u) * (rprod c l * cu S u c ^ 0)
      + ((if (order <=? 2)%Z then 0 else r * (9/2)) * (rprod c l * cu S u c ^ 3)
      + (if (order <=? 2)%Z then 0 else - r * (9/2) * uu S u) * (rprod c l * cu S u c ^ 1))))))).
  - apply fsum_ext. intros c _. unfold polyc. fold r r0. destruct (order <=? 1)%Z, (order <=? 2)%Z; cbn [pow]; field.
  - rewrite !fsum_plus, !fsum_scal. destruct (order <=? 1)%Z, (order <=? 2)%Z; field.
Qed.

Section Equilibrium.
  Variables (name ord : string) (S : stencil) (u : list R) (rho : R) (order : Z) (compr : bool) (f : list R).
  Context (HS : predefined_stencils name ord = Ok S).
  Context (Hf : discrete_maxwellian_equilibrium S rho u order (1 / 3) compr = Ok f).
  Lemma eq_has_weights : has_weights S = true.
  Proof.
    destruct (has_weights S) eqn:E; [reflexivity|]. unfold discrete_maxwellian_equilibrium in Hf.
    assert (get_weights S = Err KeyError).
    { pose proof (predefined_In _ _ _ HS) as HI. pose proof table_checked as T. rewrite forallb_forall in T. specialize (T _ HI).
      unfold table_check in T. cbn [snd] in T. rewrite E in T. destruct (get_weights S) as [|[]]; discriminate. }
    rewrite H in Hf. discriminate.
  Qed.
  Let r := if compr then rho else 1.
  Lemma eq_density_aux : density f S = rho.
  Proof.
    destruct (iso_facts name ord S HS eq_has_weights) as (ws & Hw & HD & Hlen & Hiso).
    assert (3 <= iso_order S)%nat by (unfold iso_order; destruct (Nat.eqb _ _); lia).
    unfold density. change (fsum f S (fun c => rprod c []) = rho).
    rewrite (eq_moment S ws u rho order compr f [] Hw Hf). cbv zeta.
    rewrite (J_0_0 S _ u HD Hlen (iso_order S) Hiso), (J_0_1 S _ u HD Hlen (iso_order S) Hiso), (J_0_2 S _ u HD Hlen (iso_order S) Hiso), (J_0_3 S _ u HD Hlen (iso_order S) Hiso) by lia.
    destruct compr, (order <=? 1)%Z, (order <=? 2)%Z; field.
  Qed.
  Lemma eq_momentum_aux a : (a < dimD S)%nat -> (sizeQ S <> 7 \/ (order <= 2)%Z)%nat -> momentum f S a = r * ucomp u a.
  Proof.
    intros Ha Hq. destruct (iso_facts name ord S HS eq_has_weights) as (ws & Hw & HD & Hlen & Hiso).
    assert (3 <= iso_order S)%nat by (unfold iso_order; destruct (Nat.eqb _ _); lia).
    transitivity (fsum f S (fun c => rprod c [a])). { apply fsum_ext. intros; unfold rprod; cbn; ring. }
    rewrite (eq_moment S ws u rho order compr f [a] Hw Hf). cbv zeta. fold r.
    rewrite (J_1_0 S _ u HD Hlen (iso_order S) Hiso), (J_1_1 S _ u HD Hlen (iso_order S) Hiso), (J_1_2 S _ u HD Hlen (iso_order S) Hiso) by (assumption || lia).
    destruct (Z.leb_spec order 2) as [H2|H2].
    - destruct (Z.leb_spec order 1); destruct compr; field.
    - assert (sizeQ S <> 7)%nat by lia. assert (E5 : iso_order S = 5%nat) by (unfold iso_order; destruct (Nat.eqb_spec (sizeQ S) 7); [contradiction|reflexivity]).
      rewrite (J_1_3 S _ u HD Hlen (iso_order S) Hiso) by (assumption || lia). destruct (Z.leb_spec order 1); destruct compr; field.
  Qed.
  Lemma eq_stress_aux a b : (a < dimD S)%nat -> (b < dimD S)%nat -> sizeQ S <> 7%nat -> (2 <= order)%Z ->
    second_moment f S a b = rho * delta a b / 3 + r * ucomp u a * ucomp u b.
  Proof.
    intros Ha Hb Hq Ho. destruct (iso_facts name ord S HS eq_has_weights) as (ws & Hw & HD & Hlen & Hiso).
    assert (E5 : iso_order S = 5%nat) by (unfold iso_order; destruct (Nat.eqb_spec (sizeQ S) 7); [contradiction|reflexivity]).
    transitivity (fsum f S (fun c => rprod c [a; b])). { apply fsum_ext. intros; unfold rprod; cbn; ring. }
    rewrite (eq_moment S ws u rho order compr f [a; b] Hw Hf). cbv zeta. fold r.
    rewrite (J_2_0 S _ u HD Hlen (iso_order S) Hiso), (J_2_1 S _ u HD Hlen (iso_order S) Hiso), (J_2_2 S _ u HD Hlen (iso_order S) Hiso), (J_2_3 S _ u HD Hlen (iso_order S) Hiso) by (assumption || lia).
    unfold r. destruct (Z.leb_spec order 1); [lia|]. destruct (Z.leb_spec order 2); destruct compr; field.
  Qed.
  Lemma eq_stress1_aux a b : (a < dimD S)%nat -> (b < dimD S)%nat -> (order <= 1)%Z -> second_moment f S a b = rho * delta a b / 3.
  Proof.
    intros Ha Hb Ho. destruct (iso_facts name ord S HS eq_has_weights) as (ws & Hw & HD & Hlen & Hiso).
    assert (3 <= iso_order S)%nat by (unfold iso_order; destruct (Nat.eqb _ _); lia).
    transitivity (fsum f S (fun c => rprod c [a; b])). { apply fsum_ext. intros; unfold rprod; cbn; ring. }
    rewrite (eq_moment S ws u rho order compr f [a; b] Hw Hf). cbv zeta. fold r.
    rewrite (J_2_0 S _ u HD Hlen (iso_order S) Hiso), (J_2_1 S _ u HD Hlen (iso_order S) Hiso) by (assumption || lia).
    unfold r. destruct (Z.leb_spec order 1); [|lia]. destruct (Z.leb_spec order 2); [|lia]. destruct compr; field.
  Qed.
  Lemma eq_third_aux a b c : (a < dimD S)%nat -> (b < dimD S)%nat -> (c < dimD S)%nat -> sizeQ S <> 7%nat -> (order <= 2)%Z ->
    fsum f S (fun v => comp v a * comp v b * comp v c) = r / 3 * (ucomp u a * delta b c + ucomp u b * delta a c + ucomp u c * delta a b).
  Proof.
    intros Ha Hb Hc Hq Ho. destruct (iso_facts name ord S HS eq_has_weights) as (ws & Hw & HD & Hlen & Hiso).
    assert (E5 : iso_order S = 5%nat) by (unfold iso_order; destruct (Nat.eqb_spec (sizeQ S) 7); [contradiction|reflexivity]).
    transitivity (fsum f S (fun v => rprod v [a; b; c])). { apply fsum_ext. intros; unfold rprod; cbn; ring. }
    rewrite (eq_moment S ws u rho order compr f [a; b; c] Hw Hf). cbv zeta. fold r.
    rewrite (J_3_0 S _ u HD Hlen (iso_order S) Hiso), (J_3_1 S _ u HD Hlen (iso_order S) Hiso), (J_3_2 S _ u HD Hlen (iso_order S) Hiso) by (assumption || lia).
    destruct (Z.leb_spec order 2); [|lia]. destruct (Z.leb_spec order 1); destruct compr; unfold r; field.
  Qed.
End Equilibrium.

(* ---- deviation form, background, comparison with the continuous Maxwellian ---- *)
Lemma get_weights_length S ws : get_weights S = Ok ws -> length ws = length S.
Proof. apply mapM_Ok_length. Qed.
Lemma rest_equilibrium_gen S ws cs2 rho order compr : get_weights S = Ok ws -> (compr = true -> rho = 1) ->
  discrete_maxwellian_equilibrium S rho (repeat 0 (dimD S)) order cs2 compr = Ok (map (fun w => rho * Q2R w) ws).
Proof.
  intros Hw Hc. unfold discrete_maxwellian_equilibrium. rewrite Hw. cbn [rbind]. f_equal.
  pose proof (get_weights_length _ _ Hw) as HL. clear Hw.
  set (u0 := firstn (dimD S) (repeat 0 (dimD S))).
  assert (Hin : forall y, In y u0 -> y = 0).
  { intros y Hy. apply (repeat_spec (dimD S) 0). rewrite <- (firstn_skipn (dimD S) (repeat 0 (dimD S))). apply in_or_app; left; exact Hy. }
  assert (Hz : forall (c : vec), e_times_u c u0 = 0).
  { intros c. unfold e_times_u. rewrite (rsum_ext _ (fun _ => 0)); [apply rsum_zero|]. intros [x y] Hxy. apply in_combine_r in Hxy. cbn [fst snd]. rewrite (Hin y Hxy). ring. }
  assert (Hu : u_times_u u0 = 0).
  { unfold u_times_u. rewrite (rsum_ext _ (fun _ => 0)); [apply rsum_zero|]. intros y Hy. rewrite (Hin y Hy). ring. }
  revert HL. clearbody u0. revert S; induction ws as [|w ws IH]; intros [|c S] HL; try discriminate; [reflexivity|].
  cbn [combine map]. rewrite IH by (injection HL; auto). f_equal. cbn [fst snd]. unfold discrete_equilibrium. rewrite Hz, Hu.
  unfold Rdiv. destruct (order <=? 1)%Z, (order <=? 2)%Z; destruct compr; try rewrite (Hc eq_refl); cbn [pow]; ring.
Qed.
Lemma rest_equilibrium S ws cs2 : get_weights S = Ok ws ->
  discrete_maxwellian_equilibrium S 1 (repeat 0 (dimD S)) 0 cs2 false = Ok (map Q2R ws).
Proof.
  intros Hw. rewrite (rest_equilibrium_gen S ws cs2 1 0 false Hw) by discriminate. f_equal. apply map_ext. intros; ring.
Qed.
Lemma background_aux S ws order cs2 : get_weights S = Ok ws -> background_distribution S order cs2 = Ok (map Q2R ws).
Proof.
  intros Hw. unfold background_distribution, hydro_maxwellian. rewrite (rest_equilibrium_gen S ws cs2 1 _ true Hw) by reflexivity.
  cbn [rbind]. f_equal. apply map_ext. intros; ring.
Qed.
Lemma fsum_sub (f g : list R) S h : length f = length g ->
  fsum (map (fun fs => fst fs - snd fs) (combine f g)) S h = fsum f S h - fsum g S h.
Proof.
  unfold fsum. revert g S; induction f as [|x f IH]; intros [|y g] [|c S] HL; try discriminate; try (cbn; ring).
  cbn [combine map]. rewrite !rsum_cons, IH by (injection HL; auto). cbn [fst snd]. ring.
Qed.

Lemma hydro_split S ws compr dev order rho u cs2 f : get_weights S = Ok ws ->
  hydro_maxwellian S compr dev order rho u cs2 = Ok f ->
  exists f0, discrete_maxwellian_equilibrium S rho u (match order with Some o => o | None => 4%Z end) cs2 compr = Ok f0 /\
    length f0 = length S /\ length f = length S /\
    (forall h, fsum f S h = fsum f0 S h - (if dev then fsum (map Q2R ws) S h else 0)).
Proof.
  intros Hw H. unfold hydro_maxwellian in H.
  set (o := match order with Some o => o | None => 4%Z end) in *.
  assert (HE : exists f0, discrete_maxwellian_equilibrium S rho u o cs2 compr = Ok f0 /\ length f0 = length S).
  { unfold discrete_maxwellian_equilibrium. rewrite Hw. eexists. split; [reflexivity|]. rewrite map_length, combine_length, (get_weights_length _ _ Hw). lia. }
  destruct HE as (f0 & H0 & HL0). exists f0. split; [exact H0|]. split; [exact HL0|]. rewrite H0 in H. cbn [rbind] in H.
  destruct dev.
  - rewrite (rest_equilibrium S ws cs2 Hw) in H. cbn [rbind] in H. injection H as <-.
    pose proof (get_weights_length _ _ Hw).
    split. { rewrite map_length, combine_length, map_length. lia. }
    intros h. apply fsum_sub. rewrite map_length. lia.
  - injection H as <-. split; [exact HL0|]. intros; ring.
Qed.

Lemma density_weights name ord S ws : predefined_stencils name ord = Ok S -> get_weights S = Ok ws -> has_weights S = true ->
  (forall l, (length l <= iso_order S)%nat -> (forall a, In a l -> (a < dimD S)%nat) -> fsum (map Q2R ws) S (fun c => rprod c l) = Q2R (iso l)).
Proof.
  intros HS Hw HW. destruct (iso_facts name ord S HS HW) as (ws' & Hw' & _ & _ & Hiso). rewrite Hw in Hw'. injection Hw' as <-. exact Hiso.
Qed.

Lemma monomial_idx2 c a b : length c = 2%nat ->
  monomial c [a; b] = rprod c (repeat 0%nat a ++ repeat 1%nat b).
Proof.
  intros H. destruct c as [|x [|y [|? ?]]]; try discriminate. cbn [monomial].
  unfold rprod. rewrite map_app, fold_right_app.
  assert (A : forall i v n, fold_right Rmult v (map (comp [x; y]) (repeat i n)) = comp [x; y] i ^ n * v).
  { intros i v n; induction n as [|n IH]; cbn; [ring|]. rewrite IH. ring. }
  rewrite !A. reflexivity.
Qed.
Lemma monomial_idx3 c a b d : length c = 3%nat ->
  monomial c [a; b; d] = rprod c (repeat 0%nat a ++ repeat 1%nat b ++ repeat 2%nat d).
Proof.
  intros H. destruct c as [|x [|y [|z [|? ?]]]]; try discriminate. cbn [monomial].
  unfold rprod. rewrite !map_app, !fold_right_app.
  assert (A : forall i v n, fold_right Rmult v (map (comp [x; y; z]) (repeat i n)) = comp [x; y; z] i ^ n * v).
  { intros i v n; induction n as [|n IH]; cbn; [ring|]. rewrite IH. ring. }
  rewrite !A. reflexivity.
Qed.

Lemma small2 a b : (a + b <= 2 -> (a = 0 /\ b = 0) \/ (a = 1 /\ b = 0) \/ (a = 0 /\ b = 1) \/ (a = 2 /\ b = 0) \/ (a = 1 /\ b = 1) \/ (a = 0 /\ b = 2))%nat.
Proof. lia. Qed.

Section Continuous.
  Variables (name ord : string) (S : stencil) (u : list R) (rho : R) (order : option Z) (compr dev : bool) (f : list R).
  Context (HS : predefined_stencils name ord = Ok S).
  Context (Hf : hydro_maxwellian S compr dev order rho u (1 / 3) = Ok f).
  Let o := match order with Some o => o | None => 4%Z end.
  Lemma hydro_has_weights : exists ws, get_weights S = Ok ws /\ has_weights S = true.
  Proof.
    unfold hydro_maxwellian in Hf. fold o in Hf.
    destruct (discrete_maxwellian_equilibrium S rho u o (1/3) compr) as [f0|] eqn:E; [|discriminate].
    pose proof (eq_has_weights name ord S u rho o compr f0 HS E) as HW. destruct (iso_facts name ord S HS HW) as (ws & Hw & _).
    exists ws. split; assumption.
  Qed.
  Lemma hydro_density : density f S = rho - (if dev then 1 else 0).
  Proof.
    destruct hydro_has_weights as (ws & Hw & HW). destruct (hydro_split S ws compr dev order rho u (1/3) f Hw Hf) as (f0 & H0 & _ & _ & Hs).
    unfold density. rewrite Hs. fold (density f0 S). rewrite (eq_density_aux name ord S u rho _ compr f0 HS H0).
    destruct dev; [|reflexivity]. f_equal. change (fsum (map Q2R ws) S (fun c => rprod c []) = 1).
    rewrite (density_weights name ord S ws HS Hw HW) by (cbn; intros; try lia; contradiction). apply RMicromega.Q2R_1.
  Qed.
  Lemma hydro_momentum a : (a < dimD S)%nat -> (sizeQ S <> 7 \/ (o <= 2)%Z)%nat ->
    momentum f S a = (if compr then rho else 1) * nth a u 0.
  Proof.
    intros Ha Hq. destruct hydro_has_weights as (ws & Hw & HW). destruct (hydro_split S ws compr dev order rho u (1/3) f Hw Hf) as (f0 & H0 & _ & _ & Hs).
    unfold momentum. rewrite Hs. fold (momentum f0 S a). rewrite (eq_momentum_aux name ord S u rho _ compr f0 HS H0 a Ha Hq). unfold ucomp.
    destruct dev; [|ring]. assert (Z0 : fsum (map Q2R ws) S (fun c => rprod c [a]) = 0).
    { rewrite (density_weights name ord S ws HS Hw HW); [apply RMicromega.Q2R_0|unfold iso_order; destruct (Nat.eqb _ _); cbn; lia|intros x [<-|[]]; exact Ha]. }
    rewrite (fsum_ext _ S (fun c => comp c a) (fun c => rprod c [a])) by (intros; unfold rprod; cbn; ring). rewrite Z0. ring.
  Qed.
  Lemma weights_second ws a b : get_weights S = Ok ws -> has_weights S = true -> (a < dimD S)%nat -> (b < dimD S)%nat ->
    fsum (map Q2R ws) S (fun c => comp c a * comp c b) = delta a b / 3.
  Proof.
    intros Hw HW Ha Hb. rewrite (fsum_ext _ S _ (fun c => rprod c [a; b])) by (intros; unfold rprod; cbn; ring).
    rewrite (density_weights name ord S ws HS Hw HW).
    - cbn [iso]. rewrite Q2R_mult, Q2R_qdelta, Q2R_frac. lra.
    - unfold iso_order; destruct (Nat.eqb _ _); cbn; lia.
    - intros x [<-|[<-|[]]]; assumption.
  Qed.
  Lemma hydro_stress a b : (a < dimD S)%nat -> (b < dimD S)%nat -> sizeQ S <> 7%nat -> (2 <= o)%Z ->
    second_moment f S a b = (rho - if dev then 1 else 0) * delta a b / 3 + (if compr then rho else 1) * nth a u 0 * nth b u 0.
  Proof.
    intros Ha Hb Hq Ho. destruct hydro_has_weights as (ws & Hw & HW). destruct (hydro_split S ws compr dev order rho u (1/3) f Hw Hf) as (f0 & H0 & _ & _ & Hs).
    unfold second_moment. rewrite Hs. fold (second_moment f0 S a b). rewrite (eq_stress_aux name ord S u rho _ compr f0 HS H0 a b Ha Hb Hq Ho). unfold ucomp.
    rewrite (weights_second ws a b Hw HW Ha Hb). destruct dev; field.
  Qed.
  Lemma hydro_stress1 a b : (a < dimD S)%nat -> (b < dimD S)%nat -> (o <= 1)%Z ->
    second_moment f S a b = (rho - if dev then 1 else 0) * delta a b / 3.
  Proof.
    intros Ha Hb Ho. destruct hydro_has_weights as (ws & Hw & HW). destruct (hydro_split S ws compr dev order rho u (1/3) f Hw Hf) as (f0 & H0 & _ & _ & Hs).
    unfold second_moment. rewrite Hs. fold (second_moment f0 S a b). rewrite (eq_stress1_aux name ord S u rho _ compr f0 HS H0 a b Ha Hb Ho).
    rewrite (weights_second ws a b Hw HW Ha Hb). destruct dev; field.
  Qed.
  Lemma hydro_third a b c : (a < dimD S)%nat -> (b < dimD S)%nat -> (c < dimD S)%nat -> sizeQ S <> 7%nat -> (o <= 2)%Z ->
    fsum f S (fun v => comp v a * comp v b * comp v c) =
      (if compr then rho else 1) / 3 * (nth a u 0 * delta b c + nth b u 0 * delta a c + nth c u 0 * delta a b).
  Proof.
    intros Ha Hb Hc Hq Ho. destruct hydro_has_weights as (ws & Hw & HW). destruct (hydro_split S ws compr dev order rho u (1/3) f Hw Hf) as (f0 & H0 & _ & _ & Hs).
    rewrite Hs. rewrite (eq_third_aux name ord S u rho _ compr f0 HS H0 a b c Ha Hb Hc Hq Ho). unfold ucomp.
    destruct dev; [|ring]. rewrite (fsum_ext _ S _ (fun c0 => rprod c0 [a; b; c])) by (intros; unfold rprod; cbn; ring).
    rewrite (density_weights name ord S ws HS Hw HW).
    - cbn [iso]. rewrite RMicromega.Q2R_0. ring.
    - unfold iso_order; destruct (Nat.eqb _ _); cbn; lia.
    - intros x [<-|[<-|[<-|[]]]]; assumption.
  Qed.
  Lemma hydro_continuous e : length e = dimD S -> (dimD S <= length u)%nat -> sizeQ S <> 7%nat -> (2 <= o)%Z ->
    (fold_right Nat.add 0 e <= 2)%nat ->
    raw_moment f S e = continuous_maxwellian_moment (dimD S) compr dev rho u (1 / 3) e.
  Proof.
    intros He Hu Hq Ho Hs. destruct hydro_has_weights as (ws & Hw & HW). destruct (iso_facts name ord S HS HW) as (_ & _ & HD & Hlen & _).
    assert (HM1 : forall a, (a < dimD S)%nat -> fsum f S (fun c => rprod c [a]) = (if compr then rho else 1) * nth a u 0).
    { intros a Ha. rewrite <- (hydro_momentum a Ha (or_introl Hq)). apply fsum_ext. intros; unfold rprod; cbn; ring. }
    assert (HM2 : forall a b, (a < dimD S)%nat -> (b < dimD S)%nat -> fsum f S (fun c => rprod c [a; b]) =
      (rho - if dev then 1 else 0) * delta a b / 3 + (if compr then rho else 1) * nth a u 0 * nth b u 0).
    { intros a b Ha Hb. rewrite <- (hydro_stress a b Ha Hb Hq Ho). apply fsum_ext. intros; unfold rprod; cbn; ring. }
    pose proof hydro_density as HM0. unfold density in HM0. change (fsum f S (fun c => rprod c []) = rho - (if dev then 1 else 0)) in HM0.
    unfold raw_moment. destruct HD as [E|E].
    - rewrite E in *. destruct e as [|a [|b [|? ?]]]; try discriminate. cbn [fold_right] in Hs. destruct u as [|ux [|uy u']]; cbn [length] in Hu; try lia.
      rewrite (fsum_ext f S _ (fun c => rprod c (repeat 0%nat a ++ repeat 1%nat b))) by (intros c Hc; apply monomial_idx2, Hlen, Hc).
      destruct (small2 a b) as [[-> ->]|[[-> ->]|[[-> ->]|[[-> ->]|[[-> ->]|[-> ->]]]]]]; [lia|..]; cbn [repeat app];
        rewrite ?HM0, ?HM1, ?HM2 by lia; unfold continuous_maxwellian_moment, psi_moment, delta; cbn; destruct compr, dev; field.
    - rewrite E in *. destruct e as [|a [|b [|d [|? ?]]]]; try discriminate. cbn [fold_right] in Hs. destruct u as [|ux [|uy [|uz u']]]; cbn [length] in Hu; try lia.
      rewrite (fsum_ext f S _ (fun c => rprod c (repeat 0%nat a ++ repeat 1%nat b ++ repeat 2%nat d))) by (intros c Hc; apply monomial_idx3, Hlen, Hc).
      assert (Hd : (d = 0 \/ d = 1 \/ d = 2)%nat) by lia.
      destruct Hd as [->|[->| ->]].
      + destruct (small2 a b) as [[-> ->]|[[-> ->]|[[-> ->]|[[-> ->]|[[-> ->]|[-> ->]]]]]]; [lia|..]; cbn [repeat app];
        rewrite ?HM0, ?HM1, ?HM2 by lia; unfold continuous_maxwellian_moment, psi_moment, delta; cbn; destruct compr, dev; field.
      + assert (Hab : (a = 0 /\ b = 0 \/ a = 1 /\ b = 0 \/ a = 0 /\ b = 1)%nat) by lia.
        destruct Hab as [[-> ->]|[[-> ->]|[-> ->]]]; cbn [repeat app];
        rewrite ?HM0, ?HM1, ?HM2 by lia; unfold continuous_maxwellian_moment, psi_moment, delta; cbn; destruct compr, dev; field.
      + assert (Hab : (a = 0 /\ b = 0)%nat) by lia. destruct Hab as [-> ->]; cbn [repeat app];
        rewrite ?HM0, ?HM1, ?HM2 by lia; unfold continuous_maxwellian_moment, psi_moment, delta; cbn; destruct compr, dev; field.
  Qed.
End Continuous.

Lemma gauss_lattice size e : size <> 7%nat -> (length e = 2 \/ length e = 3)%nat -> (fold_right Nat.add 0 e <= 5)%nat ->
  Q2R (lattice_moment size e) = gauss_moment e.
Proof.
  intros Hs He Hsum.
  assert (G : forall a, (a <= 5)%nat -> (a = 0 \/ a = 1 \/ a = 2 \/ a = 3 \/ a = 4 \/ a = 5)%nat) by (intros; lia).
  destruct He as [He|He].
  - destruct e as [|a [|b [|? ?]]]; try discriminate. cbn [fold_right] in Hsum.
    destruct (G a ltac:(lia)) as [->|[->|[->|[->|[->| ->]]]]]; destruct (G b ltac:(lia)) as [->|[->|[->|[->|[->| ->]]]]]; try lia;
    unfold lattice_moment, nonzero_count, gauss_moment; cbn [existsb Nat.odd Nat.even negb orb filter Nat.eqb length map fold_right gauss];
    try (apply Nat.eqb_neq in Hs; rewrite Hs); rewrite ?Q2R_frac, ?RMicromega.Q2R_0, ?RMicromega.Q2R_1; cbn [INR]; lra.
  - destruct e as [|a [|b [|d [|? ?]]]]; try discriminate. cbn [fold_right] in Hsum.
    destruct (G a ltac:(lia)) as [->|[->|[->|[->|[->| ->]]]]]; destruct (G b ltac:(lia)) as [->|[->|[->|[->|[->| ->]]]]]; try lia;
    destruct (G d ltac:(lia)) as [->|[->|[->|[->|[->| ->]]]]]; try lia;
    unfold lattice_moment, nonzero_count, gauss_moment; cbn [existsb Nat.odd Nat.even negb orb filter Nat.eqb length map fold_right gauss];
    try (apply Nat.eqb_neq in Hs; rewrite Hs); rewrite ?Q2R_frac, ?RMicromega.Q2R_0, ?RMicromega.Q2R_1; cbn [INR]; lra.
Qed.
Lemma gauss_lattice7 e : (length e = 2 \/ length e = 3)%nat -> (fold_right Nat.add 0 e <= 3)%nat ->
  Q2R (lattice_moment 7 e) = gauss_moment e.
Proof.
  intros He Hsum.
  assert (G : forall a, (a <= 3)%nat -> (a = 0 \/ a = 1 \/ a = 2 \/ a = 3)%nat) by (intros; lia).
  destruct He as [He|He].
  - destruct e as [|a [|b [|? ?]]]; try discriminate. cbn [fold_right] in Hsum.
    destruct (G a ltac:(lia)) as [->|[->|[->| ->]]]; destruct (G b ltac:(lia)) as [->|[->|[->| ->]]]; try lia;
    unfold lattice_moment, nonzero_count, gauss_moment; cbn [existsb Nat.odd Nat.even negb orb filter Nat.eqb length map fold_right gauss];
    rewrite ?Q2R_frac, ?RMicromega.Q2R_0, ?RMicromega.Q2R_1; cbn [INR]; lra.
  - destruct e as [|a [|b [|d [|? ?]]]]; try discriminate. cbn [fold_right] in Hsum.
    destruct (G a ltac:(lia)) as [->|[->|[->| ->]]]; destruct (G b ltac:(lia)) as [->|[->|[->| ->]]]; try lia;
    destruct (G d ltac:(lia)) as [->|[->|[->| ->]]]; try lia;
    unfold lattice_moment, nonzero_count, gauss_moment; cbn [existsb Nat.odd Nat.even negb orb filter Nat.eqb length map fold_right gauss];
    rewrite ?Q2R_frac, ?RMicromega.Q2R_0, ?RMicromega.Q2R_1; cbn [INR]; lra.
Qed.
