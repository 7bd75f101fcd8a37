From Coq Require Import String List ZArith QArith Qreals Reals Lra Lia Bool Arith Permutation.
From Verif Require Import StencilModel StencilProofs RealLib LinLib LinQ TransSpec MomModel EqModel ModeModel ModeSpec ModeProofs ModeProofs2.
Import ListNotations.
Local Open Scope nat_scope.

(* ---- shear and bulk ---- *)
Lemma shear_fold p : forall q, fold_left shear_step p (Some q) =
  if existsb (fun t => 2 <? nsum (snd t)) p then None else Some (q || existsb (fun t => nsum (snd t) =? 2) p).
Proof.
  assert (N : forall p, fold_left shear_step p None = None) by (clear; induction p; auto).
  induction p as [|t p IH]; intros q; cbn [fold_left existsb]; [now rewrite orb_false_r|]. cbn [shear_step].
  destruct (Nat.eqb_spec (nsum (snd t)) 2) as [E|E].
  - rewrite E, IH. cbn [Nat.ltb Nat.leb orb]. now rewrite orb_true_r.
  - destruct (2 <? nsum (snd t)); cbn [orb]; [apply N|]. apply IH.
Qed.
Definition zero_found (dim : nat) := repeat 0%Q dim.
Lemma add_at_length f e c : length (add_at f e c) = length f.
Proof. unfold add_at. rewrite map_length, combine_length, app_length, repeat_length. lia. Qed.
Lemma nth_add_at f e c i : i < length f -> length e = 3 -> length f <= 3 ->
  nth i (add_at f e c) 0%Q = if nth i e 0 =? 2 then (nth i f 0 + c)%Q else nth i f 0%Q.
Proof.
  intros Hi He Hf. destruct e as [|a [|b [|d [|]]]]; try discriminate. clear He.
  destruct f as [|x [|y [|z [|]]]]; cbn in Hf, Hi; try lia; destruct i as [|[|[|i]]]; try lia; cbn; reflexivity.
Qed.
Lemma bulk_fold p : three p -> forall q found, length found <= 3 ->
  match fold_left bulk_step p (Some (q, found)) with
  | None => existsb (fun t => 2 <? nsum (snd t)) p = true
  | Some (q', found') => existsb (fun t => 2 <? nsum (snd t)) p = false /\ q' = q || existsb (fun t => nsum (snd t) =? 2) p /\
      length found' = length found /\ forall i, i < length found -> (nth i found' 0 == nth i found 0 + coefficient p (square i))%Q
  end.
Proof.
  assert (N : forall p, fold_left bulk_step p None = None) by (clear; induction p; auto).
  intros H3. induction H3 as [|t p Ht Hp IH]; intros q found Hf; cbn [fold_left existsb].
  - split; [reflexivity|]. split; [now rewrite orb_false_r|]. split; [reflexivity|]. intros i _. unfold coefficient. cbn. ring.
  - cbn [bulk_step]. destruct (Nat.eqb_spec (nsum (snd t)) 2) as [E|E].
    + specialize (IH true (add_at found (snd t) (fst t)) ltac:(now rewrite add_at_length)).
      destruct (fold_left bulk_step p (Some (true, add_at found (snd t) (fst t)))) as [[q' found']|].
      * destruct IH as (H1 & H2 & H3 & H4). rewrite add_at_length in H3, H4. rewrite E, H1. split; [reflexivity|]. split; [now rewrite H2, orb_true_r|]. split; [exact H3|].
        intros i Hi. rewrite H4, nth_add_at by auto. unfold coefficient. cbn [filter].
        assert (K : (nth i (snd t) 0 =? 2) = tuple_eqb (snd t) (square i)).
        { destruct t as [c e]. cbn [snd] in *. destruct e as [|a [|b [|d [|]]]]; try discriminate.
          assert (i < 3) by lia. destruct (tuple_eqb [a; b; d] (square i)) eqn:Et.
          - apply tuple_eqb_eq in Et. rewrite Et. destruct i as [|[|[|i]]]; [reflexivity|reflexivity|reflexivity|lia].
          - apply Nat.eqb_neq. intros E2. cbn [nsum fold_right] in E. assert (X : tuple_eqb [a; b; d] (square i) = true); [|congruence].
            apply tuple_eqb_eq. destruct i as [|[|[|i]]]; cbn [nth] in E2; [| | |lia]; unfold square; cbn; repeat f_equal; lia. }
        rewrite K. destruct (tuple_eqb (snd t) (square i)); cbn [map qsum fold_right]; [|reflexivity].
        change (fold_right Qplus 0%Q (map fst (filter (fun t0 => tuple_eqb (snd t0) (square i)) p))) with (qsum (map fst (filter (fun t0 => tuple_eqb (snd t0) (square i)) p))). ring.
      * rewrite IH. now rewrite orb_true_r.
    + destruct (2 <? nsum (snd t)) eqn:E2; cbn [orb]; [now rewrite N|].
      specialize (IH q found Hf). destruct (fold_left bulk_step p (Some (q, found))) as [[q' found']|]; [|exact IH].
      destruct IH as (H1 & H2 & H3 & H4). split; [exact H1|]. split; [exact H2|]. split; [exact H3|]. intros i Hi. rewrite H4 by exact Hi.
      unfold coefficient. cbn [filter]. destruct (tuple_eqb (snd t) (square i)) eqn:Et; [|reflexivity].
      apply tuple_eqb_eq in Et. exfalso. apply E. rewrite Et. assert (i < 3) by lia. destruct i as [|[|[|i]]]; [reflexivity|reflexivity|reflexivity|lia].
Qed.
Lemma degree_two_b p : degree_two p <-> existsb (fun t => 2 <? nsum (snd t)) p = false /\ existsb (fun t => nsum (snd t) =? 2) p = true.
Proof.
  unfold degree_two. split; intros [H1 H2]; split.
  - destruct (existsb _ p) eqn:E; [|reflexivity]. apply existsb_exists in E. destruct E as (t & Ht & E). apply Nat.ltb_lt in E. specialize (H1 t Ht). lia.
  - apply existsb_exists. destruct H2 as (t & Ht & E). exists t. split; auto. now apply Nat.eqb_eq.
  - intros t Ht. destruct (Nat.le_gt_cases (nsum (snd t)) 2) as [L|L]; [exact L|]. exfalso. assert (existsb (fun t => 2 <? nsum (snd t)) p = true); [|congruence].
    apply existsb_exists. exists t. split; auto. now apply Nat.ltb_lt.
  - apply existsb_exists in H2. destruct H2 as (t & Ht & E). exists t. split; auto. now apply Nat.eqb_eq.
Qed.
Lemma is_bulk_spec p dim : three p -> 1 <= dim <= 3 -> is_bulk_moment p dim = true <-> trace_like dim p.
Proof.
  intros H3 Hd. unfold is_bulk_moment, trace_like. rewrite degree_two_b.
  pose proof (bulk_fold p H3 false (repeat 0%Q dim) ltac:(rewrite repeat_length; lia)) as F. rewrite repeat_length in F.
  destruct (fold_left bulk_step p (Some (false, repeat 0%Q dim))) as [[q found]|].
  2:{ split; [discriminate|]. intros [[E _] _]. congruence. }
  destruct F as (E1 & E2 & L & F). cbn [orb] in E2. subst q.
  assert (F' : forall i, i < dim -> (nth i found 0 == coefficient p (square i))%Q).
  { intros i Hi. rewrite F by exact Hi. rewrite nth_repeat. ring. }
  rewrite !andb_true_iff, negb_true_iff. split.
  - intros [[Hq Hnz] Heq]. split; [auto|]. rewrite forallb_forall in Heq.
    assert (A : forall i, i < dim -> (nth i found 0 == nth 0 found 0)%Q).
    { intros i Hi. replace (nth 0 found 0%Q) with (hd 0%Q found) by (destruct found; reflexivity). apply Qeq_bool_iff. apply Heq. apply nth_In. lia. }
    exists (nth 0 found 0%Q). split.
    + intros Hz. assert (forallb (fun f => Qeq_bool f 0) found = true); [|congruence]. apply forallb_forall. intros f Hf.
      apply (In_nth _ _ 0%Q) in Hf. destruct Hf as (i & Hi & <-). apply Qeq_bool_iff. rewrite A, Hz by lia. reflexivity.
    + intros a Ha. rewrite <- F' by exact Ha. now apply A.
  - intros [[_ Hq] (c & Hc & Hall)]. split; [split; [exact Hq|]|].
    + destruct (forallb _ found) eqn:E; [|reflexivity]. exfalso. apply Hc. rewrite <- (Hall 0) by lia. rewrite <- F' by lia.
      rewrite forallb_forall in E. apply Qeq_bool_iff. apply E. apply nth_In. lia.
    + apply forallb_forall. intros f Hf. apply (In_nth _ _ 0%Q) in Hf. destruct Hf as (i & Hi & <-). apply Qeq_bool_iff.
      replace (hd 0%Q found) with (nth 0 found 0%Q) by (destruct found; reflexivity). rewrite !F', !Hall by lia. reflexivity.
Qed.
Lemma is_shear_spec p dim : three p -> 1 <= dim <= 3 -> is_shear_moment p dim = true <-> degree_two p /\ ~ trace_like dim p.
Proof.
  intros H3 Hd. unfold is_shear_moment. pose proof (is_bulk_spec p dim H3 Hd) as B. rewrite shear_fold, degree_two_b. cbn [orb].
  destruct (is_bulk_moment p dim).
  - split; [discriminate|]. intros [_ H]. exfalso. apply H. now apply B.
  - assert (NB : ~ trace_like dim p) by (intros H; apply B in H; discriminate).
    destruct (existsb (fun t => 2 <? nsum (snd t)) p); [split; [discriminate|]; intros [[E _] _]; congruence|]. tauto.
Qed.
Lemma trace_exact p dim : expanded p -> 1 <= dim <= 3 -> trace_like dim p -> no_cross_terms p ->
  (forall t, In t p -> nsum (snd t) = 2 -> exists a, snd t = square a /\ a < 3) /\
  exists c, ~ (c == 0)%Q /\ forall a, a < dim -> (coefficient p (square a) == c)%Q.
Proof.
  intros [HN HE] Hd [[H1 H2] (c & Hc & Hall)] HX. split; [|eauto]. intros t Ht E. destruct (HX t Ht E) as (a & Ha). exists a. split; [exact Ha|].
  rewrite Ha in E. destruct a as [|[|[|a]]]; try lia. discriminate.
Qed.

(* ---- relaxation rates ---- *)
Lemma nth_skipn {A} n (l : list A) i x : nth i (skipn n l) x = nth (n + i) l x.
Proof. revert l. induction n as [|n IH]; intros [|a l]; cbn; auto. destruct i; reflexivity. Qed.
Lemma combine_map_l {A B C} (f : A -> B) (l : list A) (l' : list C) : combine (map f l) l' = map (fun x => (f (fst x), snd x)) (combine l l').
Proof. revert l'. induction l as [|a l IH]; intros [|c l']; cbn; [reflexivity..|]. now rewrite IH. Qed.
Lemma NoDup_app_l {A} (l l' : list A) : NoDup (l ++ l') -> NoDup l.
Proof. induction l as [|a l IH]; cbn [app]; intros H; [constructor|]. inversion H; subst. constructor; [|auto]. intros Hin. apply H2, in_or_app. now left. Qed.
Section Rates.
  Context {M V : Type} (Meqb : M -> M -> bool) (rep : M -> qpoly) (vzero vone : V).
  Hypothesis Meqb_eq : forall a b, Meqb a b = true <-> a = b.
  Notation dset := (dict_set Meqb).
  Notation dget := (dict_get Meqb).

  Lemma dict_set_fresh d k (v : V) : ~ In k (map fst d) -> dset d k v = d ++ [(k, v)].
  Proof.
    induction d as [|[k' v'] d IH]; cbn [dict_set map fst app]; intros H; [reflexivity|].
    destruct (Meqb k' k) eqn:E; [apply Meqb_eq in E; subst; cbn in H; tauto|]. rewrite IH by (cbn in H; tauto). reflexivity.
  Qed.
  Lemma dict_get_in d k (v : V) : NoDup (map fst d) -> In (k, v) d -> dget d k = Some v.
  Proof.
    induction d as [|[k' v'] d IH]; cbn [dict_get map fst]; intros HN H; [destruct H|]. inversion HN; subst.
    destruct H as [H|H].
    - injection H as -> ->. destruct (Meqb k k) eqn:E; [reflexivity|]. assert (Meqb k k = true) by now apply Meqb_eq. congruence.
    - destruct (Meqb k' k) eqn:E; [|now apply IH]. apply Meqb_eq in E. subst. exfalso. apply H2. apply in_map_iff. exists (k, v). auto.
  Qed.
  Lemma fold_set (h : M -> V) ms : forall d, NoDup (map fst d ++ ms) -> fold_left (fun d m => dset d m (h m)) ms d = d ++ map (fun m => (m, h m)) ms.
  Proof.
    induction ms as [|m ms IH]; intros d H; cbn [fold_left map]; [now rewrite app_nil_r|].
    rewrite dict_set_fresh. 2:{ intros Hin. apply NoDup_remove_2 in H. apply H, in_or_app. now left. }
    rewrite IH; [now rewrite <- app_assoc|]. rewrite map_app, <- app_assoc. exact H.
  Qed.
  Lemma zip_rates_ok ms : forall d (rates : list V), NoDup (map fst d ++ ms) -> length ms <= length rates ->
    zip_rates Meqb d ms rates = Ok (d ++ combine ms rates).
  Proof.
    induction ms as [|m ms IH]; intros d rates H L; cbn [zip_rates]; [now rewrite app_nil_r|]. destruct rates as [|r rates]; [cbn in L; lia|].
    rewrite dict_set_fresh. 2:{ intros Hin. apply NoDup_remove_2 in H. apply H, in_or_app. now left. }
    rewrite IH; [now rewrite <- app_assoc|rewrite map_app, <- app_assoc; exact H|cbn in L; lia].
  Qed.
  Lemma dict_set_present ms (h : M -> V) m v pre post : NoDup (pre ++ m :: post) ->
    ms = pre ++ m :: post -> exists h', (forall k, In k ms -> k <> m -> h' k = h k) /\ h' m = v /\
    dset (map (fun k => (k, h k)) ms) m v = map (fun k => (k, h' k)) ms.
  Proof.
    intros HN ->. exists (fun k => if Meqb k m then v else h k). split; [|split].
    - intros k _ Hk. destruct (Meqb k m) eqn:E; [apply Meqb_eq in E; congruence|reflexivity].
    - destruct (Meqb m m) eqn:E; [reflexivity|]. assert (Meqb m m = true) by now apply Meqb_eq. congruence.
    - induction pre as [|a pre IH]; cbn [app map dict_set].
      + assert (E : Meqb m m = true) by now apply Meqb_eq. rewrite E. f_equal. apply map_ext_in. intros k Hk.
        cbn [app] in HN. inversion HN; subst. destruct (Meqb k m) eqn:E'; [apply Meqb_eq in E'; subst; contradiction|reflexivity].
      + cbn [app] in HN. inversion HN; subst. destruct (Meqb a m) eqn:E; [apply Meqb_eq in E; subst; exfalso; apply H1, in_or_app; right; now left|].
        f_equal. now apply IH.
  Qed.

  (* one rate *)
  Lemma one_rate_dict nested dim conserved (r : V) : NoDup (concat nested) -> length (concat nested) <> 1 ->
    get_relaxation_info_dict Meqb rep vzero vone (Rates [r]) nested dim conserved None =
    Ok (map (fun m => (m, one_rate rep vzero vone dim conserved r m)) (concat nested)).
  Proof.
    intros HN Hl. unfold get_relaxation_info_dict. cbn [length]. rewrite (fold_set (one_rate rep vzero vone dim conserved r)) by exact HN.
    replace (1 =? length (concat nested)) with false by (symmetry; apply Nat.eqb_neq; lia). reflexivity.
  Qed.
  (* one rate per moment *)
  Lemma zip_rates_set ms : forall d (rates : list V) (out : list (M * V)), NoDup ms -> length ms = length rates ->
    zip_rates Meqb d ms rates = Ok out -> forall i m, nth_error ms i = Some m -> dget out m = nth_error rates i.
  Proof.
    assert (G1 : forall d k (v : V), dget (dset d k v) k = Some v).
    { induction d as [|[k' v'] d IH]; intros k v; cbn [dict_set dict_get].
      - assert (E : Meqb k k = true) by now apply Meqb_eq. now rewrite E.
      - destruct (Meqb k' k) eqn:E; cbn [dict_get]; rewrite E; auto. }
    assert (G2 : forall d k k' (v : V), k <> k' -> dget (dset d k v) k' = dget d k').
    { induction d as [|[a v'] d IH]; intros k k' v Hk; cbn [dict_set dict_get].
      - destruct (Meqb k k') eqn:E; [apply Meqb_eq in E; congruence|reflexivity].
      - destruct (Meqb a k) eqn:E; cbn [dict_get].
        + apply Meqb_eq in E. subst a. destruct (Meqb k k') eqn:E; [apply Meqb_eq in E; congruence|reflexivity].
        + destruct (Meqb a k'); auto. }
    assert (G3 : forall l d (rates : list V) out, zip_rates Meqb d l rates = Ok out -> forall m, ~ In m l -> dget out m = dget d m).
    { clear ms. induction l as [|m l IH]; intros d rates out H k Hk; cbn [zip_rates] in H; [injection H as <-; reflexivity|].
      destruct rates as [|r rates]; [discriminate|]. rewrite (IH _ _ _ H) by (cbn in Hk; tauto). apply G2. cbn in Hk. tauto. }
    induction ms as [|m ms IH]; intros d rates out HN L H i k Hi; [destruct i; discriminate|]. destruct rates as [|r rates]; [discriminate|].
    cbn [zip_rates] in H. inversion HN; subst. destruct i as [|i]; cbn [nth_error] in *.
    - injection Hi as <-. rewrite (G3 _ _ _ _ H) by assumption. apply G1.
    - eapply IH; eauto.
  Qed.
  Lemma zip_rates_total ms : forall d (rates : list V), length ms <= length rates -> exists out, zip_rates Meqb d ms rates = Ok out.
  Proof.
    induction ms as [|m ms IH]; intros d rates L; cbn [zip_rates]; [eauto|]. destruct rates as [|r rates]; [cbn in L; lia|]. apply IH. cbn in L; lia.
  Qed.

  (* groups *)
  Section Groups.
    Context (dim : nat) (conserved : bool) (srr brr : option V).
    Notation oth := (other rep dim).
    Definition gval (rr : V) (m : M) : option V :=
      if low_order rep m then (if conserved then Some vzero else srr)
      else if shear rep dim m then srr else if bulk rep dim m then brr else Some rr.
    Lemma gval_code rr m : low_order rep m = false \/ conserved = true \/ True -> forall d b group,
      fallback_group Meqb rep vzero dim conserved srr brr rr d b (m :: group) =
      match (if conserved then gval rr m else if shear rep dim m then srr else gval rr m) with
      | Some v => fallback_group Meqb rep vzero dim conserved srr brr rr (dset d m v) (b || oth m) group
      | None => Err UnboundLocalError
      end.
    Proof.
      intros _ d b group. cbn [fallback_group]. cbv zeta. unfold gval, other, low_order, shear, bulk.
      destruct conserved, (get_order (rep m) <=? 1), (is_shear_moment (rep m) dim), (is_bulk_moment (rep m) dim), srr, brr; cbn [negb andb orb];
        rewrite ?orb_false_r, ?orb_true_r; reflexivity.
    Qed.
    Lemma gval_same rr m : (if conserved then gval rr m else if shear rep dim m then srr else gval rr m) = gval rr m.
    Proof. unfold gval. destruct conserved, (low_order rep m), (shear rep dim m); reflexivity. Qed.
    Lemma group_ok rr group : forall d b, NoDup (map fst d ++ group) -> (forall m, In m group -> gval rr m <> None) ->
      fallback_group Meqb rep vzero dim conserved srr brr rr d b group =
      Ok (d ++ map (fun m => (m, match gval rr m with Some v => v | None => vzero end)) group, b || existsb oth group).
    Proof.
      induction group as [|m group IH]; intros d b HN HV; [cbn; now rewrite app_nil_r, orb_false_r|].
      rewrite gval_code by auto. rewrite gval_same. cbn [map existsb].
      destruct (gval rr m) as [v|] eqn:E; [|exfalso; apply (HV m); [now left|exact E]].
      rewrite dict_set_fresh. 2:{ intros Hin. apply NoDup_remove_2 in HN. apply HN, in_or_app. now left. }
      rewrite IH. - rewrite <- app_assoc, orb_assoc. reflexivity.
      - rewrite map_app, <- app_assoc. exact HN.
      - intros m' Hm'. apply HV. now right.
    Qed.
    Lemma other_groups_cons g nested : other_groups rep dim (g :: nested) = (if existsb oth g then 1 else 0) + other_groups rep dim nested.
    Proof. unfold other_groups. cbn [filter]. destruct (existsb oth g); reflexivity. Qed.
    Lemma groups_ok (rs : list V) nested : forall (j : nat) (next : bool) (rr : option V) (rates : list V) (d : list (M * V)),
      NoDup (map fst d ++ concat nested) -> (forall m r, In m (concat nested) -> gval r m <> None) ->
      (if next then rates = skipn j rs else (j < length rs) /\ rr = Some (nth j rs vzero) /\ rates = skipn (Datatypes.S j) rs) ->
      fallback_groups Meqb rep vzero dim conserved srr brr next rr rates d nested =
      match nested with
      | [] => Ok d
      | _ => if j + 1 + other_groups rep dim (removelast nested) <=? length rs
             then Ok (d ++ concat (map (fun gn => map (fun m => (m, match gval (nth (j + other_groups rep dim (firstn (fst gn) nested)) rs vzero) m with Some v => v | None => vzero end)) (snd gn)) (combine (seq 0 (length nested)) nested)))
             else Err ValueError
      end.
    Proof.
      induction nested as [|group nested IH]; intros j next rr rates d HN HV HI; [reflexivity|]. cbn [fallback_groups]. cbv zeta.
      assert (Run : j < length rs -> forall rest, rest = skipn (Datatypes.S j) rs ->
        rbind (fallback_group Meqb rep vzero dim conserved srr brr (nth j rs vzero) d false group)
          (fun dn => fallback_groups Meqb rep vzero dim conserved srr brr (snd dn) (Some (nth j rs vzero)) rest (fst dn) nested) =
        if j + 1 + other_groups rep dim (removelast (group :: nested)) <=? length rs
        then Ok (d ++ concat (map (fun gn => map (fun m => (m, match gval (nth (j + other_groups rep dim (firstn (fst gn) (group :: nested))) rs vzero) m with Some v => v | None => vzero end)) (snd gn)) (combine (seq 0 (length (group :: nested))) (group :: nested))))
        else Err ValueError).
      { intros Hj rest Hrest. cbn [concat] in HN, HV. rewrite app_assoc in HN.
        rewrite group_ok.
        2:{ now apply NoDup_app_l in HN. }
        2:{ intros m Hm. apply HV, in_or_app. now left. }
        cbn [rbind fst snd orb]. set (d' := d ++ map _ group).
        assert (Hd' : map fst d' = map fst d ++ group).
        { unfold d'. rewrite map_app, map_map. cbn [fst]. now rewrite map_id. }
        rewrite (IH (j + (if existsb oth group then 1 else 0))).
        - cbn [length seq combine map concat fst snd]. rewrite <- seq_shift, combine_map_l, map_map.
          replace (other_groups rep dim (firstn 0 (group :: nested))) with 0 by reflexivity. rewrite Nat.add_0_r.
          destruct nested as [|g2 nested].
          + cbn [removelast concat map combine seq length]. unfold other_groups. cbn [filter length]. rewrite Nat.add_0_r.
            replace (j + 1 <=? length rs) with true by (symmetry; apply Nat.leb_le; lia). unfold d'. now rewrite app_nil_r.
          + replace (removelast (group :: g2 :: nested)) with (group :: removelast (g2 :: nested)) by reflexivity.
            rewrite other_groups_cons.
            replace (j + 1 + ((if existsb oth group then 1 else 0) + other_groups rep dim (removelast (g2 :: nested))))
               with (j + (if existsb oth group then 1 else 0) + 1 + other_groups rep dim (removelast (g2 :: nested))) by lia.
            destruct (_ <=? length rs); [|reflexivity]. f_equal. unfold d'. rewrite <- app_assoc. f_equal. f_equal. f_equal.
            apply map_ext. intros [k g]. cbn [fst snd]. replace (firstn (Datatypes.S k) (group :: g2 :: nested)) with (group :: firstn k (g2 :: nested)) by reflexivity.
            rewrite other_groups_cons, Nat.add_assoc. reflexivity.
        - rewrite Hd'. exact HN.
        - intros m r Hm. apply HV, in_or_app. now right.
        - destruct (existsb oth group).
          + subst rest. f_equal. lia.
          + rewrite Nat.add_0_r. auto. }
      destruct next.
      - subst rates. destruct (skipn j rs) as [|r rest] eqn:Es.
        + assert (Lj : length rs <= j). { apply (f_equal (@length V)) in Es. rewrite skipn_length in Es. cbn in Es. lia. }
          replace (_ <=? length rs) with false by (symmetry; apply Nat.leb_gt; lia). reflexivity.
        + assert (Lj : j < length rs). { apply (f_equal (@length V)) in Es. rewrite skipn_length in Es. cbn in Es. lia. }
          assert (Er : r = nth j rs vzero /\ rest = skipn (Datatypes.S j) rs).
          { clear - Es. revert rs Es. induction j as [|j IH]; intros [|a rs] Es; try discriminate; cbn [skipn nth] in *; [injection Es as -> ->; auto|]. apply IH in Es. exact Es. }
          destruct Er as [-> Er]. now apply Run.
      - destruct HI as (Hj & -> & Hr). now apply Run.
    Qed.
  End Groups.

  Lemma count_some (P : M -> bool) (nested : list (list M)) : (0 <? count_moments P nested) = (some P nested =? 1).
  Proof.
    unfold count_moments, some. destruct (existsb P (concat nested)) eqn:E.
    - apply existsb_exists in E. destruct E as (m & Hm & E). assert (Hf : In m (filter P (concat nested))) by (apply filter_In; auto).
      destruct (filter P (concat nested)); [destruct Hf|reflexivity].
    - replace (filter P (concat nested)) with (@nil M); [reflexivity|]. symmetry.
      induction (concat nested) as [|m l IH]; [reflexivity|]. cbn [existsb filter] in *. apply orb_false_iff in E. destruct E as [E1 E2]. rewrite E1. auto.
  Qed.
  Lemma some_in (P : M -> bool) nested m : In m (concat nested) -> P m = true -> some P nested = 1.
  Proof. intros H E. unfold some. replace (existsb P (concat nested)) with true; [reflexivity|]. symmetry. apply existsb_exists. eauto. Qed.

  Lemma fallback_ok dim conserved (rates : list V) nested : NoDup (concat nested) -> conserved = true \/ some (shear rep dim) nested = 1 ->
    fallback_rates Meqb rep vzero dim conserved rates nested =
    if rates_needed rep dim nested <=? length rates
    then Ok (concat (map (fun gn => map (fun m => (m, rate_by_group rep vzero dim conserved rates nested (fst gn) m)) (snd gn)) (combine (seq 0 (length nested)) nested)))
    else Err ValueError.
  Proof.
    intros HN HC. unfold fallback_rates. cbv zeta. rewrite !count_some.
    change (fun m => is_shear_moment (rep m) dim) with (shear rep dim). change (fun m => is_bulk_moment (rep m) dim) with (bulk rep dim).
    assert (Fin : forall srr brr rs a b,
      some (shear rep dim) nested = a -> some (bulk rep dim) nested = b ->
      (a = 1 -> srr = Some (nth 0 rates vzero)) -> (b = 1 -> brr = Some (nth a rates vzero)) -> rs = skipn (a + b) rates -> a + b <= length rates ->
      fallback_groups Meqb rep vzero dim conserved srr brr true None rs [] nested =
      if rates_needed rep dim nested <=? length rates
      then Ok (concat (map (fun gn => map (fun m => (m, rate_by_group rep vzero dim conserved rates nested (fst gn) m)) (snd gn)) (combine (seq 0 (length nested)) nested)))
      else Err ValueError).
    { intros srr brr rs a b Ha Hb Hs Hbr Hrs Hle.
      assert (HV : forall m r, In m (concat nested) -> gval dim conserved srr brr r m <> None).
      { intros m r Hm. unfold gval. destruct (low_order rep m).
        - destruct conserved; [discriminate|]. destruct HC as [HC|HC]; [discriminate|]. rewrite Hs by congruence. discriminate.
        - destruct (shear rep dim m) eqn:E1; [rewrite (some_in _ _ m Hm E1) in Ha; rewrite Hs by congruence; discriminate|].
          destruct (bulk rep dim m) eqn:E2; [rewrite (some_in _ _ m Hm E2) in Hb; rewrite Hbr by congruence; discriminate|]. discriminate. }
      rewrite (groups_ok dim conserved srr brr rs nested 0); [|exact HN|exact HV|reflexivity].
      assert (Lr : length rs = length rates - (a + b)) by (subst rs; apply skipn_length).
      unfold rates_needed. rewrite Ha, Hb. destruct nested as [|g0 nested']; [replace (a + b + 0 <=? length rates) with true by (symmetry; apply Nat.leb_le; lia); reflexivity|].
      replace (0 + 1 + other_groups rep dim (removelast (g0 :: nested')) <=? length rs) with (a + b + (1 + other_groups rep dim (removelast (g0 :: nested'))) <=? length rates).
      2:{ apply eq_true_iff_eq. rewrite !Nat.leb_le, Lr. lia. }
      destruct (_ <=? length rates); [|reflexivity]. f_equal. cbn [app]. f_equal. apply map_ext_in. intros [k g] Hk. cbn [fst snd]. apply map_ext_in. intros m Hm. f_equal.
      assert (Hin : In m (concat (g0 :: nested'))). { apply in_concat. exists g. split; [|exact Hm]. now apply in_combine_r in Hk. }
      specialize (HV m (nth (0 + other_groups rep dim (firstn k (g0 :: nested'))) rs vzero) Hin). unfold gval in *. unfold rate_by_group. rewrite Ha, Hb.
      destruct (low_order rep m) eqn:E0.
      - destruct conserved; [reflexivity|]. destruct HC as [HC|HC]; [discriminate|]. now rewrite Hs by congruence.
      - destruct (shear rep dim m) eqn:E1; [rewrite (some_in _ _ m Hin E1) in Ha; now rewrite Hs by congruence|].
        destruct (bulk rep dim m) eqn:E2; [rewrite (some_in _ _ m Hin E2) in Hb; now rewrite Hbr by congruence|].
        subst rs. rewrite nth_skipn. cbn [Nat.add]. reflexivity. }
    assert (S01 : some (shear rep dim) nested = 0 \/ some (shear rep dim) nested = 1) by (unfold some; destruct (existsb _ _); auto).
    assert (B01 : some (bulk rep dim) nested = 0 \/ some (bulk rep dim) nested = 1) by (unfold some; destruct (existsb _ _); auto).
    assert (Short : length rates < some (shear rep dim) nested + some (bulk rep dim) nested -> (rates_needed rep dim nested <=? length rates) = false).
    { intros H. apply Nat.leb_gt. unfold rates_needed. lia. }
    destruct S01 as [Es|Es], B01 as [Eb|Eb]; rewrite Es, Eb in *; cbn [Nat.eqb].
    - eapply Fin; [reflexivity..|discriminate|discriminate|reflexivity|lia].
    - destruct rates as [|r rates]; [rewrite Short by (cbn; lia); reflexivity|]. eapply Fin; [reflexivity..|discriminate|reflexivity|reflexivity|cbn; lia].
    - destruct rates as [|r rates]; [rewrite Short by (cbn; lia); reflexivity|]. eapply Fin; [reflexivity..|reflexivity|discriminate|reflexivity|cbn; lia].
    - destruct rates as [|r [|r2 rates]]; [rewrite Short by (cbn; lia); reflexivity..|]. eapply Fin; [reflexivity..|reflexivity|reflexivity|reflexivity|cbn; lia].
  Qed.
  (* the dictionary listed by groups answers look-ups *)
  Lemma lookup_by_group (h : nat -> M -> V) nested : NoDup (concat nested) -> forall g group m, nth_error nested g = Some group -> In m group ->
    dget (concat (map (fun gn => map (fun m => (m, h (fst gn) m)) (snd gn)) (combine (seq 0 (length nested)) nested))) m = Some (h g m).
  Proof.
    intros HN g group m Hg Hm. apply dict_get_in.
    - replace (map fst _) with (concat nested); [exact HN|]. clear. generalize 0. induction nested as [|a nested IH]; intros k; [reflexivity|].
      cbn [length seq combine map concat fst snd]. rewrite map_app, map_map. cbn [fst]. rewrite map_id. f_equal. apply IH.
    - apply in_concat. exists (map (fun m => (m, h g m)) group). split.
      + apply in_map_iff. exists (g, group). split; [reflexivity|].
        assert (Hl : g < length nested) by (apply nth_error_Some; congruence).
        replace (g, group) with (nth g (combine (seq 0 (length nested)) nested) (0, [])).
        * apply nth_In. rewrite combine_length, seq_length. lia.
        * rewrite combine_nth by (now rewrite seq_length). rewrite seq_nth by exact Hl. now rewrite (nth_error_nth _ _ _ Hg).
      + apply in_map_iff. eauto.
  Qed.
  Lemma keys_by_group (h : nat -> M -> V) nested : map fst (concat (map (fun gn => map (fun m => (m, h (fst gn) m)) (snd gn)) (combine (seq 0 (length nested)) nested))) = concat nested.
  Proof.
    generalize 0. induction nested as [|a nested IH]; intros k; [reflexivity|].
    cbn [length seq combine map concat fst snd]. rewrite map_app, map_map. cbn [fst]. rewrite map_id. f_equal. apply IH.
  Qed.

  (* ---- reading the rates back ---- *)
  Section Back.
    Context (Veqb : V -> V -> bool) (Veqb_eq : forall a b, Veqb a b = true <-> a = b).
    Lemma rate_set_const r l : l <> [] -> (forall v, In v l -> v = r) -> rate_set Veqb l = [r].
    Proof.
      assert (K : forall l, (forall v, In v l -> v = r) -> fold_left (fun s v => add_rate Veqb v s) l [r] = [r]).
      { clear l. induction l as [|v l IH]; intros H; cbn [fold_left]; [reflexivity|]. cbn [add_rate]. rewrite (H v (or_introl eq_refl)).
        assert (E : Veqb r r = true) by now apply Veqb_eq. rewrite E. apply IH. intros w Hw. apply H. now right. }
      destruct l as [|v l]; [congruence|]. intros _ H. unfold rate_set. cbn [fold_left add_rate]. rewrite (H v (or_introl eq_refl)).
      apply K. intros w Hw. apply H. now right.
    Qed.
    Lemma rate_set_in l v : In v (rate_set Veqb l) <-> In v l.
    Proof.
      assert (A : forall v s w, In w (add_rate Veqb v s) <-> w = v \/ In w s).
      { clear l v. intros v s w. induction s as [|a s IH]; cbn [add_rate].
        - cbn; intuition.
        - destruct (Veqb a v) eqn:E; [apply Veqb_eq in E; subst; cbn; intuition|]. cbn [In]. rewrite IH. intuition. }
      assert (K : forall l s, In v (fold_left (fun s v => add_rate Veqb v s) l s) <-> In v l \/ In v s).
      { clear l. induction l as [|a l IH]; intros s; cbn [fold_left In]; [intuition|]. rewrite IH, A. intuition congruence. }
      unfold rate_set. rewrite K. cbn. intuition.
    Qed.
    Lemma rate_set_nodup l : NoDup (rate_set Veqb l).
    Proof.
      assert (A : forall v s w, In w (add_rate Veqb v s) -> w = v \/ In w s).
      { clear l. intros v s w. induction s as [|a s IH]; cbn [add_rate]; [cbn; intuition|].
        destruct (Veqb a v) eqn:E; [cbn; intuition|]. cbn [In]. intuition. }
      assert (B : forall v s, NoDup s -> NoDup (add_rate Veqb v s)).
      { clear l. intros v s H. induction H as [|a s Ha Hs IH]; cbn [add_rate]; [repeat constructor; auto|].
        destruct (Veqb a v) eqn:E; [now constructor|]. constructor; [|exact IH]. intros Hin. apply A in Hin. destruct Hin as [->|Hin]; [|auto].
        assert (Veqb v v = true) by now apply Veqb_eq. congruence. }
      unfold rate_set. assert (H : NoDup (@nil V)) by constructor. revert H. generalize (@nil V). induction l as [|a l IH]; intros s H; cbn [fold_left]; auto.
    Qed.
    Lemma rate_set_two l a b : In a l -> In b l -> a <> b -> exists x y r, rate_set Veqb l = x :: y :: r.
    Proof.
      intros Ha Hb Hab. apply rate_set_in in Ha, Hb. destruct (rate_set Veqb l) as [|x [|y r]]; [destruct Ha|exfalso|eauto].
      cbn in Ha, Hb. intuition congruence.
    Qed.
    Lemma shear_rate_const dim d r : (exists kv, In kv d /\ shear rep dim (fst kv) = true) -> (forall k v, In (k, v) d -> shear rep dim k = true -> v = r) ->
      get_shear_relaxation_rate rep Veqb dim d = Ok r.
    Proof.
      intros (kv & Hin & Hs) H. unfold get_shear_relaxation_rate.
      rewrite (rate_set_const r); [reflexivity| |].
      - intros E. apply map_eq_nil in E. assert (F : In kv (filter (fun kv => is_shear_moment (rep (fst kv)) dim) d)) by (apply filter_In; auto). rewrite E in F. destruct F.
      - intros v Hv. apply in_map_iff in Hv. destruct Hv as ([k w] & <- & Hf). apply filter_In in Hf. destruct Hf as [Hf Hk]. eapply H; [exact Hf|exact Hk].
    Qed.
    Lemma shear_rate_two dim d k1 v1 k2 v2 : In (k1, v1) d -> In (k2, v2) d -> shear rep dim k1 = true -> shear rep dim k2 = true -> v1 <> v2 ->
      get_shear_relaxation_rate rep Veqb dim d = Err ValueError.
    Proof.
      intros H1 H2 S1 S2 Hv. unfold get_shear_relaxation_rate.
      destruct (rate_set_two (map snd (filter (fun kv => is_shear_moment (rep (fst kv)) dim) d)) v1 v2) as (x & y & r & ->); [| |exact Hv|reflexivity].
      - apply in_map_iff. exists (k1, v1). split; [reflexivity|]. apply filter_In. auto.
      - apply in_map_iff. exists (k2, v2). split; [reflexivity|]. apply filter_In. auto.
    Qed.
    Lemma bulk_rate_const dim d r : (exists kv, In kv d /\ bulk rep dim (fst kv) = true) -> (forall k v, In (k, v) d -> bulk rep dim k = true -> v = r) ->
      get_bulk_relaxation_rate rep Veqb dim d = Ok r.
    Proof.
      intros (kv & Hin & Hs) H. unfold get_bulk_relaxation_rate. destruct (find _ d) as [[k v]|] eqn:E.
      - apply find_some in E. destruct E as [E1 E2]. cbn [snd]. f_equal. eapply H; [exact E1|exact E2].
      - exfalso. apply (find_none _ _ E) in Hin. unfold bulk in Hs. congruence.
    Qed.
  End Back.
End Rates.
