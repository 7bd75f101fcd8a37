(* Reduction of a flow which depends on the row only to the one-dimensional dynamics. *)
From Coq Require Import String List ZArith Bool Arith Reals Lra Lia.
From Verif Require Import StencilModel StencilProofs AccessModel AccessProofs StreamModel StreamSpec StreamProofs StreamProofs2 RealLib LinLib EqSpec CollSpec CollProofs CollProofs2 EqProofs
  ChProofs2 BoundModel BoundSpec BoundProofs BoundProofs2 ChanSpec ChanProofs.
Import ListNotations.
Local Open Scope R_scope.

Lemma comp_vneg c a : comp (vneg c) a = - comp c a.
Proof. unfold comp. rewrite <- opp_IZR. f_equal. unfold vneg. change 0%Z with (- 0)%Z at 1. apply (map_nth Z.opp). Qed.
Lemma nth_vneg c a : nth a (vneg c) 0%Z = (- nth a c 0)%Z.
Proof. unfold vneg. change 0%Z with (- 0)%Z at 1. apply (map_nth Z.opp). Qed.
Lemma along_vneg D c u : along D (vneg c) u = - along D c u.
Proof.
  unfold along. replace (- _) with (-1 * rsum (map (fun a => comp c a * nth a u 0) (seq 0 D))) by ring. rewrite <- rsum_scal. apply rsum_ext.
  intros a _. rewrite comp_vneg. ring.
Qed.

Section Lay.
  Context (D : nat) (St : stencil) (b : nat).
  Hypothesis HSym : symmetric_stencil D St.
  Hypothesis Hnear : forall c, In c St -> (-1 <= nth b c 0 <= 1)%Z.
  Definition lay (s : Z) (g : vec -> R) (f : list R) : R := fsum f St (fun c => if Z.eqb (nth b c 0%Z) s then g c else 0).
  Lemma lay_moments s g f : (s = 1 \/ s = -1)%Z -> lay s g f = (fsum f St (fun c => g c * comp c b * comp c b) + IZR s * fsum f St (fun c => g c * comp c b)) / 2.
  Proof.
    intros Hs. unfold lay. transitivity (fsum f St (fun c => 1 / 2 * (g c * comp c b * comp c b) + IZR s / 2 * (g c * comp c b))).
    - apply fsum_ext. intros c Hc. specialize (Hnear c Hc). unfold comp. assert (E : (nth b c 0 = -1 \/ nth b c 0 = 0 \/ nth b c 0 = 1)%Z) by lia.
      destruct Hs as [-> | ->]; destruct E as [-> | [-> | ->]]; cbn [Z.eqb Pos.eqb]; field.
    - rewrite fsum_plus, !fsum_scal. field.
  Qed.
  Lemma lay_zero g f : lay 0 g f = fsum f St g - fsum f St (fun c => g c * comp c b * comp c b).
  Proof.
    unfold lay. transitivity (fsum f St (fun c => 1 * g c + -1 * (g c * comp c b * comp c b))).
    - apply fsum_ext. intros c Hc. specialize (Hnear c Hc). unfold comp. assert (E : (nth b c 0 = -1 \/ nth b c 0 = 0 \/ nth b c 0 = 1)%Z) by lia.
      destruct E as [-> | [-> | ->]]; cbn [Z.eqb Pos.eqb]; field.
    - rewrite fsum_plus, !fsum_scal. field.
  Qed.
  Lemma lay_sum g f : fsum f St g = lay 1 g f + lay 0 g f + lay (-1) g f.
  Proof. rewrite lay_zero, !lay_moments by auto. field. Qed.
  Lemma lay_first g f : fsum f St (fun c => g c * comp c b) = lay 1 g f - lay (-1) g f.
  Proof. rewrite !lay_moments by auto. field. Qed.
  Lemma lay_second g f : fsum f St (fun c => g c * comp c b * comp c b) = lay 1 g f + lay (-1) g f.
  Proof. rewrite !lay_moments by auto. field. Qed.
  Lemma rest_layers q f : at_rest_across St b q f <-> length f = length St /\ lay 1 (fun _ => 1) f = q / 6 /\ lay 0 (fun _ => 1) f = 2 * q / 3 /\ lay (-1) (fun _ => 1) f = q / 6.
  Proof.
    unfold at_rest_across, density, momentum, second_moment.
    pose proof (lay_sum (fun _ => 1) f) as E0. pose proof (lay_first (fun _ => 1) f) as E1. pose proof (lay_second (fun _ => 1) f) as E2. cbv beta in E1, E2.
    rewrite (fsum_ext f St (fun c => 1 * comp c b) (fun c => comp c b)) in E1 by (intros; ring).
    rewrite (fsum_ext f St (fun c => 1 * comp c b * comp c b) (fun c => comp c b * comp c b)) in E2 by (intros; ring).
    split; intros (A1 & A2 & A3 & A4); repeat split; try assumption; lra.
  Qed.
  Definition layers_of (a : nat) (f : list R) : layers := {| up := lay 1 (fun c => comp c a) f; mid := lay 0 (fun c => comp c a) f; dn := lay (-1) (fun c => comp c a) f |}.
  Lemma lj_of a f : lj (layers_of a f) = momentum f St a.
  Proof. unfold lj, momentum. cbn. now rewrite (lay_sum (fun c => comp c a)). Qed.
  Lemma lpi_of a f : lpi (layers_of a f) = second_moment f St a b.
  Proof. unfold lpi, second_moment. cbn. now rewrite (lay_first (fun c => comp c a)). Qed.
  Lemma lk_of a f : lk (layers_of a f) = third_moment f St a b.
  Proof. unfold lk, third_moment. cbn. now rewrite (lay_second (fun c => comp c a)). Qed.
  Lemma layers_modes p j pi k : lj p = j -> lpi p = pi -> lk p = k -> p = of_modes j pi k.
  Proof. intros <- <- <-. apply layers_eq; unfold lj, lpi, lk; cbn; field. Qed.

  (* reversing all directions *)
  Lemma lay_opp s g f : length f = length St ->
    rsum (map (fun j => nth (opp St j) f 0 * (if Z.eqb (nth b (dir St j) 0%Z) s then g (dir St j) else 0)) (seq 0 (length St))) = lay (- s) (fun c => g (vneg c)) f.
  Proof.
    intros Hf. unfold lay. rewrite fsum_index by exact Hf.
    rewrite <- (rsum_reindex (opp St) (fun j => nth j f 0 * (if Z.eqb (nth b (nth j St []) 0%Z) (- s) then g (vneg (nth j St [])) else 0)) (seq 0 (length St)) (seq 0 (length St))).
    - apply rsum_ext. intros j Hj. apply in_seq in Hj. f_equal. change (nth (opp St j) St []) with (dir St (opp St j)).
      rewrite (dir_opp D St HSym j) by lia. rewrite vneg_involutive, nth_vneg.
      destruct (Z.eqb_spec (nth b (dir St j) 0%Z) s), (Z.eqb_spec (- nth b (dir St j) 0%Z) (- s)); try lia; reflexivity.
    - apply seq_NoDup.
    - apply seq_NoDup.
    - intros j Hj. apply in_seq in Hj. apply in_seq. pose proof (opp_lt D St HSym j ltac:(lia)). lia.
    - intros i j Hi Hj E. apply in_seq in Hi, Hj. rewrite <- (opp_opp D St HSym i), <- (opp_opp D St HSym j) by lia. now rewrite E.
    - intros j Hj. apply in_seq in Hj. exists (opp St j). split; [apply in_seq; pose proof (opp_lt D St HSym j ltac:(lia)); lia|apply (opp_opp D St HSym); lia].
  Qed.

  (* impulse of the moving wall *)
  Context (ws u : list R).
  Hypothesis Hb : (b < D)%nat.
  Hypothesis Hiso : isotropic_weights D St ws.
  Hypothesis Hw4 : wall_isotropic D St b ws.
  Hypothesis Hu : nth b u 0 = 0.
  Lemma fsum_along (g : vec -> R) : fsum ws St (fun c => g c * along D c u) = rsum (map (fun d => nth d u 0 * fsum ws St (fun c => g c * comp c d)) (seq 0 D)).
  Proof.
    unfold along. rewrite (fsum_ext _ _ _ (fun c => rsum (map (fun d => nth d u 0 * (g c * comp c d)) (seq 0 D)))).
    - rewrite fsum_sum. apply rsum_ext. intros d _. apply fsum_scal.
    - intros c _. rewrite <- rsum_scal. apply rsum_ext. intros d _. ring.
  Qed.
  Lemma rsum_one (g : nat -> R) a n : (a < n)%nat -> (forall d, (d < n)%nat -> d <> a -> g d = 0) -> rsum (map g (seq 0 n)) = g a.
  Proof.
    induction n as [|n IH]; intros Ha Hg; [lia|]. rewrite seq_S, map_app, rsum_app. cbn [map plus]. rewrite rsum_cons. change (rsum []) with 0.
    destruct (Nat.eq_dec a n) as [->|N].
    - replace (rsum (map g (seq 0 n))) with 0; [ring|]. symmetry. rewrite (rsum_ext g (fun _ => 0)); [|intros d Hd; apply in_seq in Hd; apply Hg; lia].
      apply rsum_zero.
    - rewrite IH by (first [lia | intros; apply Hg; lia]). rewrite (Hg n) by lia. ring.
  Qed.
  Lemma rsum_none (g : nat -> R) n : (forall d, (d < n)%nat -> g d = 0) -> rsum (map g (seq 0 n)) = 0.
  Proof.
    intros Hg. rewrite (rsum_ext g (fun _ => 0)); [|intros d Hd; apply in_seq in Hd; apply Hg; lia].
    apply rsum_zero.
  Qed.
  Lemma wall_shear s a : (s = 1 \/ s = -1)%Z -> (a < D)%nat -> a <> b -> 6 * lay s (fun c => comp c a * along D c u) ws = nth a u 0 / 3.
  Proof.
    intros Hs Ha Hab. rewrite lay_moments by exact Hs. destruct Hiso as (_ & _ & _ & _ & H3).
    rewrite (fsum_ext ws St (fun c => comp c a * along D c u * comp c b * comp c b) (fun c => (comp c a * (comp c b * comp c b)) * along D c u)) by (intros; ring).
    rewrite (fsum_ext ws St (fun c => comp c a * along D c u * comp c b) (fun c => (comp c a * comp c b) * along D c u)) by (intros; ring).
    rewrite !fsum_along. rewrite (rsum_one _ a D Ha), (rsum_none (fun d => nth d u 0 * fsum ws St (fun c => comp c a * comp c b * comp c d))).
    - rewrite (fsum_ext ws St _ (fun c => comp c a * comp c a * (comp c b * comp c b))) by (intros; ring). rewrite Hw4 by auto. unfold delta. rewrite Nat.eqb_refl. field.
    - intros d Hd. rewrite H3 by assumption. ring.
    - intros d Hd Hda. destruct (Nat.eq_dec d b) as [->|N]; [rewrite Hu; ring|].
      rewrite (fsum_ext ws St _ (fun c => comp c a * comp c d * (comp c b * comp c b))) by (intros; ring). rewrite Hw4 by auto.
      unfold delta. destruct (Nat.eqb_spec a d); [congruence|field].
  Qed.
  Lemma wall_mass s : (s = 1 \/ s = -1)%Z -> 6 * lay s (fun c => 1 * along D c u) ws = 0.
  Proof.
    intros Hs. rewrite lay_moments by exact Hs. destruct Hiso as (_ & _ & _ & H2 & H3).
    rewrite (fsum_ext ws St (fun c => 1 * along D c u * comp c b * comp c b) (fun c => (comp c b * comp c b) * along D c u)) by (intros; ring).
    rewrite (fsum_ext ws St (fun c => 1 * along D c u * comp c b) (fun c => comp c b * along D c u)) by (intros; ring).
    rewrite !fsum_along. rewrite !rsum_none; [field| |].
    - intros d Hd. change (nth d u 0 * second_moment ws St b d = 0). rewrite H2 by assumption. unfold delta. destruct (Nat.eqb_spec b d) as [<-|]; [rewrite Hu|]; field.
    - intros d Hd. rewrite H3 by assumption. ring.
  Qed.
End Lay.

Section Reduction.
  Context (L : lattice) (St : stencil) (b H : nat) (fluid : cell L -> bool) (row : cell L -> nat) (ws : list R) (q we wo : R) (Fv lo hi : list R).
  Context (Col : list R -> list R) (B : nat -> cell L -> nat -> brule R).
  Notation D := (ldim L).
  Hypothesis HSym : symmetric_stencil D St.
  Hypothesis Hb : (b < D)%nat.
  Hypothesis Hnear : forall c, In c St -> (-1 <= nth b c 0 <= 1)%Z.
  Hypothesis Hiso : isotropic_weights D St ws.
  Hypothesis Hw4 : wall_isotropic D St b ws.
  Hypothesis Hwo : forall i, (i < length St)%nat -> nth (opp St i) ws 0 = nth i ws 0.
  Hypothesis Hch : channel b H fluid row.
  Hypothesis Hwall : forall n, wall_rules St ws b q fluid lo hi (B n).
  Hypothesis Hcol : shear_collision D St b q we wo Fv Col.

  (* populations arriving in row k *)
  Definition arr (t : nat -> list R) (k : nat) : list R :=
    map (fun j => let z := (Z.of_nat k - nth b (dir St j) 0)%Z in
      if ((0 <=? z) && (z <? Z.of_nat H))%Z%bool then nth j (t (Z.to_nat z)) 0
      else nth (opp St j) (t k) 0 + 6 * nth j ws 0 * along D (dir St j) (if (0 <? nth b (dir St j) 0)%Z then lo else hi)) (seq 0 (length St)).
  Fixpoint line (t : nat -> list R) (n : nat) : nat -> list R := match n with O => t | S n' => fun k => Col (arr (line t n') k) end.

  Lemma dir_In j : (j < length St)%nat -> In (dir St j) St.
  Proof. intros. apply nth_In. assumption. Qed.
  Lemma arriving_arr n t f x : (forall y, fluid y = true -> f y = t (row y)) -> (forall k, (k < H)%nat -> at_rest_across St b q (t k)) -> fluid x = true ->
    arriving St fluid (B n) f x = arr t (row x).
  Proof.
    intros Hf Ht Hx. unfold arriving, arr. apply map_ext_in. intros j Hj. apply in_seq in Hj. assert (Hj' : (j < length St)%nat) by lia.
    destruct (Hch x Hx) as [Hr Hsh]. specialize (Hsh (vneg (dir St j))). rewrite nth_vneg in Hsh.
    assert (Hl : length (vneg (dir St j)) = D) by (unfold vneg; rewrite map_length; apply HSym, dir_In; exact Hj').
    specialize (Hsh Hl ltac:(pose proof (Hnear _ (dir_In j Hj')); lia)). cbv zeta in *.
    replace (Z.of_nat (row x) + - nth b (dir St j) 0)%Z with (Z.of_nat (row x) - nth b (dir St j) 0)%Z in Hsh by lia.
    destruct ((0 <=? _) && _)%Z%bool eqn:E.
    - destruct Hsh as [Hfl Hrow]. rewrite Hfl. rewrite Hf by exact Hfl. now rewrite <- Hrow, Nat2Z.id.
    - rewrite Hsh. destruct (Hwall n) as (_ & _ & HW). rewrite HW.
      + rewrite Hwo by exact Hj'. rewrite (dir_opp D St HSym j Hj'), along_vneg, nth_vneg, Hf by exact Hx.
        replace (- nth b (dir St j) 0 <? 0)%Z with (0 <? nth b (dir St j) 0)%Z; [ring|].
        destruct (Z.ltb_spec 0 (nth b (dir St j) 0%Z)), (Z.ltb_spec (- nth b (dir St j) 0%Z) 0); try lia; reflexivity.
      + split; [exact Hx|]. split; [apply (opp_lt D St HSym j Hj')|]. cbn [fst snd]. now rewrite (dir_opp D St HSym j Hj').
      + rewrite Hf by exact Hx. apply Ht, Hr.
  Qed.

  Lemma arr_length t k : length (arr t k) = length St.
  Proof. unfold arr. now rewrite map_length, seq_length. Qed.
  Lemma arr_fsum t k G : fsum (arr t k) St G = rsum (map (fun j => nth j (arr t k) 0 * G (dir St j)) (seq 0 (length St))).
  Proof. rewrite fsum_index by apply arr_length. reflexivity. Qed.
  Lemma arr_nth t k j : (j < length St)%nat -> nth j (arr t k) 0 = let z := (Z.of_nat k - nth b (dir St j) 0)%Z in
      if ((0 <=? z) && (z <? Z.of_nat H))%Z%bool then nth j (t (Z.to_nat z)) 0
      else nth (opp St j) (t k) 0 + 6 * nth j ws 0 * along D (dir St j) (if (0 <? nth b (dir St j) 0)%Z then lo else hi).
  Proof.
    intros Hj. unfold arr. set (G := fun j => _). rewrite (nth_indep _ 0 (G 0%nat)) by (rewrite map_length, seq_length; exact Hj).
    rewrite (map_nth G). rewrite seq_nth by exact Hj. reflexivity.
  Qed.
  Lemma lay_in s g t k k' : Z.of_nat k' = (Z.of_nat k - s)%Z -> (k' < H)%nat -> length (t k') = length St -> lay St b s g (arr t k) = lay St b s g (t k').
  Proof.
    intros Hk Hk' Hl. unfold lay. rewrite arr_fsum, fsum_index by exact Hl. apply rsum_ext. intros j Hj. apply in_seq in Hj. rewrite arr_nth by lia. cbv zeta.
    change (nth j St []) with (dir St j). destruct (Z.eqb_spec (nth b (dir St j) 0%Z) s) as [E|E]; [|ring]. rewrite E, <- Hk, Nat2Z.id.
    rewrite (proj2 (Z.leb_le 0 (Z.of_nat k'))), (proj2 (Z.ltb_lt (Z.of_nat k') (Z.of_nat H))) by lia. reflexivity.
  Qed.
  Lemma lay_out s g t k : (s = 1 /\ k = 0%nat \/ s = -1 /\ S k = H)%Z -> length (t k) = length St ->
    lay St b s g (arr t k) = lay St b (- s) (fun c => g (vneg c)) (t k) + 6 * lay St b s (fun c => g c * along D c (if (0 <? s)%Z then lo else hi)) ws.
  Proof.
    intros Hs Hl. rewrite <- (lay_opp D St b HSym s g (t k) Hl). unfold lay at 1. rewrite arr_fsum.
    unfold lay. rewrite (fsum_index ws) by apply Hiso. rewrite <- rsum_scal, <- rsum_plus. apply rsum_ext. intros j Hj. apply in_seq in Hj. rewrite arr_nth by lia. cbv zeta.
    change (nth j St []) with (dir St j). destruct (Z.eqb_spec (nth b (dir St j) 0%Z) s) as [E|E]; [|ring]. rewrite E.
    replace ((0 <=? Z.of_nat k - s) && (Z.of_nat k - s <? Z.of_nat H))%Z%bool with false; [ring|].
    symmetry. apply andb_false_iff. destruct Hs as [[-> ->] | [-> Hk]]; [left; reflexivity|right; apply Z.ltb_ge; lia].
  Qed.
  Lemma lay_opp_one s f : lay St b s (fun c => (fun _ => 1) (vneg c)) f = lay St b s (fun _ => 1) f.
  Proof. reflexivity. Qed.
  Lemma lay_opp_comp s a f : lay St b s (fun c => comp (vneg c) a) f = - lay St b s (fun c => comp c a) f.
  Proof.
    unfold lay. replace (- fsum _ _ _) with (-1 * fsum f St (fun c => if Z.eqb (nth b c 0%Z) s then comp c a else 0)) by ring. rewrite <- fsum_scal. apply fsum_ext.
    intros c _. rewrite comp_vneg. destruct (_ =? s)%Z; ring.
  Qed.
  Lemma sel_b s : nth b (if (0 <? s)%Z then lo else hi) 0 = 0.
  Proof. destruct (Hwall 0%nat) as (A & A' & _). destruct (0 <? s)%Z; assumption. Qed.

  Lemma arr_rest t k : (k < H)%nat -> (forall i, (i < H)%nat -> at_rest_across St b q (t i)) -> at_rest_across St b q (arr t k).
  Proof.
    intros Hk Ht. assert (Ht' : forall i, (i < H)%nat -> length (t i) = length St) by (intros; apply Ht; assumption).
    apply (rest_layers St b Hnear). split; [apply arr_length|].
    assert (T : forall i, (i < H)%nat -> lay St b 1 (fun _ => 1) (t i) = q / 6 /\ lay St b 0 (fun _ => 1) (t i) = 2 * q / 3 /\ lay St b (-1) (fun _ => 1) (t i) = q / 6)
      by (intros i Hi; apply (rest_layers St b Hnear), Ht; exact Hi).
    repeat split.
    - destruct k as [|k].
      + rewrite lay_out by (auto; lia). cbv beta. rewrite (wall_mass D St b Hnear ws _ Hb Hiso (sel_b 1)) by auto. rewrite Rplus_0_r. apply T; lia.
      + rewrite (lay_in 1 _ t (S k) k) by (try lia; apply Ht'; lia). apply T; lia.
    - rewrite (lay_in 0 _ t k k) by (try lia; apply Ht'; lia). apply T; lia.
    - destruct (Nat.eq_dec (S k) H) as [E|E].
      + rewrite lay_out by (auto; lia). cbv beta. rewrite (wall_mass D St b Hnear ws _ Hb Hiso (sel_b (-1))) by auto. rewrite Rplus_0_r. apply T; lia.
      + rewrite (lay_in (-1) _ t k (S k)) by (try lia; apply Ht'; lia). apply T; lia.
  Qed.
  Lemma arr_layers t k a : (k < H)%nat -> (forall i, (i < H)%nat -> length (t i) = length St) -> (a < D)%nat -> a <> b ->
    layers_of St b a (arr t k) = arrive H (nth a lo 0) (nth a hi 0) (fun i => layers_of St b a (t i)) k.
  Proof.
    intros Hk Ht Ha Hab. apply layers_eq; cbn [layers_of arrive up mid dn].
    - destruct k as [|k].
      + rewrite lay_out by (auto; lia). cbv beta. rewrite lay_opp_comp, (wall_shear D St b Hnear ws (if (0 <? 1)%Z then lo else hi) Hb Hiso Hw4 (sel_b 1) 1 a) by auto. reflexivity.
      + rewrite (lay_in 1 _ t (S k) k) by (try lia; apply Ht; lia). reflexivity.
    - apply lay_in; try lia. apply Ht; lia.
    - destruct (Nat.ltb_spec (S k) H) as [E|E].
      + rewrite (lay_in (-1) _ t k (S k)) by (try lia; apply Ht; lia). reflexivity.
      + rewrite lay_out by (first [right; split; [reflexivity|lia] | apply Ht; lia]). cbv beta. rewrite lay_opp_comp, (wall_shear D St b Hnear ws (if (0 <? -1)%Z then lo else hi) Hb Hiso Hw4 (sel_b (-1)) (-1) a) by auto. reflexivity.
  Qed.
  Lemma line_rest t n : (forall i, (i < H)%nat -> at_rest_across St b q (t i)) -> forall k, (k < H)%nat -> at_rest_across St b q (line t n k).
  Proof. intros Ht. induction n as [|n IH]; intros k Hk; [apply Ht; exact Hk|]. cbn [line]. apply Hcol. apply arr_rest; assumption. Qed.
  Lemma col_layers f a : at_rest_across St b q f -> (a < D)%nat -> a <> b -> layers_of St b a (Col f) = collide_row we wo (nth a Fv 0) (layers_of St b a f).
  Proof.
    intros Hf Ha Hab. destruct (Hcol f Hf) as [_ HC]. destruct (HC a Ha Hab) as (E1 & E2 & E3). unfold collide_row.
    apply layers_modes; rewrite ?(lj_of St b Hnear), ?(lpi_of St b Hnear), ?(lk_of St b Hnear); assumption.
  Qed.
  Lemma line_rows t n a : (forall i, (i < H)%nat -> at_rest_across St b q (t i)) -> (a < D)%nat -> a <> b -> forall k, (k < H)%nat ->
    layers_of St b a (line t n k) = rows H we wo (nth a Fv 0) (nth a lo 0) (nth a hi 0) (fun i => layers_of St b a (t i)) n k.
  Proof.
    intros Ht Ha Hab. induction n as [|n IH]; intros k Hk; [reflexivity|]. cbn [line rows].
    rewrite col_layers by (first [assumption | apply arr_rest; [exact Hk|apply line_rest; exact Ht]]). f_equal.
    rewrite arr_layers by (first [assumption | intros i Hi; apply (line_rest t n Ht i Hi)]). apply arrive_ext; assumption.
  Qed.
  Lemma post_line f0 t n : (forall x, fluid x = true -> f0 x = t (row x)) -> (forall i, (i < H)%nat -> at_rest_across St b q (t i)) ->
    forall x, fluid x = true -> post 0 St fluid (fun _ _ => Col) B f0 n x = line t n (row x).
  Proof.
    intros Hf0 Ht. induction n as [|n IH]; intros x Hx; [apply Hf0; exact Hx|]. cbn [post line]. f_equal.
    rewrite <- (arriving_arr n (line t n) (post 0 St fluid (fun _ _ => Col) B f0 n) x IH (line_rest t n Ht) Hx). reflexivity.
  Qed.

  Theorem channel_converges f0 t x a : 0 < we < 2 -> 0 < wo < 2 ->
    (forall x, fluid x = true -> f0 x = t (row x)) -> (forall i, (i < H)%nat -> at_rest_across St b q (t i)) -> fluid x = true -> (a < D)%nat -> a <> b ->
    (forall n, at_rest_across St b q (post 0 St fluid (fun _ _ => Col) B f0 n x)) /\
    Un_cv (fun n => momentum (post 0 St fluid (fun _ _ => Col) B f0 (S n) x) St a - nth a Fv 0 / 2) (profile H we wo (nth a Fv 0) (nth a lo 0) (nth a hi 0) (row x)).
  Proof.
    intros H1 H2 Hf0 Ht Hx Ha Hab. destruct (Hch x Hx) as [Hr _]. split.
    - intros n. rewrite (post_line f0 t n Hf0 Ht x Hx). apply line_rest; assumption.
    - eapply cv_ext; [|apply (rows_converge H we wo (nth a Fv 0) (nth a lo 0) (nth a hi 0) (fun i => layers_of St b a (t i)) (row x) H1 H2 Hr)].
      intros n. cbv beta. rewrite <- (line_rows t (S n) a Ht Ha Hab (row x) Hr), (lj_of St b Hnear), (post_line f0 t (S n) Hf0 Ht x Hx). reflexivity.
  Qed.
End Reduction.
