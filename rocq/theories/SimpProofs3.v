(* Common subexpressions in opposing directions. *)
From Coq Require Import String List ZArith QArith Qreals Bool Arith Lia Reals Lra Permutation Sorting.
From Verif Require Import StencilModel StencilProofs SimpModel SimpSpec SimpProofs SimpProofs2.
Import ListNotations.
Local Open Scope R_scope.

Section P.
  Context {Op : Type} (sem : Op -> R -> R -> R) (K : cas Op) (mixed : name -> Prop) (HK : cas_ok sem K mixed).
  Notation env := (name -> R).
  Notation eval := (eval sem).
  Notation sat := (sat sem).
  Notation asg := (asg Op).

  Definition coeff_defs (cs : coefficients) : list asg := map (fun p => (Xi (snd p), Mul (Cst (fst (fst p))) (Sym (snd (fst p))))) cs.
  Definition defs (st : cse_state Op) : list asg := q_found Op st ++ coeff_defs (q_coeffs Op st).
  Definition old_rate (n0 : nat) (r : name) : Prop := forall k, r = Xi k -> (k < n0)%nat.
  Record cse_inv (n0 : nat) (st : cse_state Op) : Prop := {
    c_gen : (n0 <= q_gen Op st)%nat;
    c_nodup : NoDup (map fst (defs st));
    c_defs : forall s x, In (s, x) (defs st) -> exists k, s = Xi k /\ (n0 <= k < q_gen Op st)%nat /\ below k x
  }.
  Lemma cse_numbered n0 st : cse_inv n0 st -> numbered (defs st).
  Proof. intros [_ HN H]. split; [exact HN|]. intros s x Hin. destruct (H s x Hin) as (k & -> & _ & Hb). exists k. auto. Qed.

  (* a coefficient symbol is looked up or generated *)
  Lemma lookup_coefficient_ok n0 st q r k n cs : lookup_coefficient (q_gen Op st) (q_coeffs Op st) q r = (k, n, cs) -> cse_inv n0 st -> old_rate n0 r ->
    let st' := {| q_gen := n; q_found := q_found Op st; q_coeffs := cs |} in
    cse_inv n0 st' /\ (q_gen Op st <= n)%nat /\ (k < n)%nat /\ (forall d, In d (defs st) -> In d (defs st')) /\ forall e, sat e (defs st') -> e (Xi k) = Q2R q * e r.
  Proof.
    unfold lookup_coefficient. intros H HI Hr. destruct (find _ _) as [[[q' r'] j]|] eqn:E.
    - injection H as <- <- <-. apply find_some in E. destruct E as [Hin Hs]. cbn [fst snd] in *. apply andb_true_iff in Hs. destruct Hs as [Hq Hs].
      apply name_eqb_eq in Hs. subst r'. apply Qeq_bool_iff in Hq.
      assert (Hin' : In (Xi j, Mul (Cst q') (Sym r)) (defs st)). { apply in_app_iff. right. apply in_map_iff. exists (q', r, j). auto. }
      cbn zeta. split; [destruct HI; constructor; assumption|]. split; [lia|]. split; [destruct (c_defs _ _ HI _ _ Hin') as (k & [= <-] & Hk & _); lia|].
      split; [auto|]. intros e He. rewrite (He _ _ Hin'). cbn [SimpSpec.eval]. now rewrite (Qeq_eqR _ _ Hq).
    - injection H as <- <- <-. cbn zeta. destruct HI as [Hg HN HD].
      assert (Hdefs : forall d, In d (defs {| q_gen := S (q_gen Op st); q_found := q_found Op st; q_coeffs := q_coeffs Op st ++ [(q, r, q_gen Op st)] |}) <->
        In d (defs st) \/ d = (Xi (q_gen Op st), Mul (Cst q) (Sym r))).
      { intros d. unfold defs, coeff_defs. cbn [q_found q_coeffs]. rewrite map_app, !in_app_iff. cbn [map In fst snd]. intuition. }
      split; [constructor; cbn [q_gen]|].
      + lia.
      + assert (E' : map fst (defs {| q_gen := S (q_gen Op st); q_found := q_found Op st; q_coeffs := q_coeffs Op st ++ [(q, r, q_gen Op st)] |}) = map fst (defs st) ++ [Xi (q_gen Op st)]).
        { unfold defs, coeff_defs. cbn [q_found q_coeffs]. rewrite !map_app, <- app_assoc. reflexivity. }
        rewrite E'. apply NoDup_app_in; [exact HN|constructor; [intros []|constructor]|]. intros z Hz [<-|[]]. apply in_map_iff in Hz. destruct Hz as ([s x] & Es & Hz). cbn [fst] in Es. subst s.
        destruct (HD _ _ Hz) as (k & [= <-] & Hk & _). lia.
      + intros s x Hin. apply Hdefs in Hin. destruct Hin as [Hin|[= -> ->]].
        * destruct (HD s x Hin) as (k & -> & Hk & Hb). exists k. split; [reflexivity|]. split; [lia|exact Hb].
        * exists (q_gen Op st). split; [reflexivity|]. split; [lia|]. intros j Hj. cbn [mentions orb] in Hj. apply name_eqb_eq in Hj. specialize (Hr j Hj). lia.
      + split; [lia|]. split; [lia|]. split; [intros d Hd; apply Hdefs; auto|]. intros e He. rewrite (He (Xi (q_gen Op st)) (Mul (Cst q) (Sym r))); [reflexivity|]. apply Hdefs. auto.
  Qed.
  (* the definitions found by cse *)
  Lemma cse_call_ok n0 st xs n' found new : c_cse Op K (q_gen Op st) xs = (n', found, new) -> cse_inv n0 st -> (forall x, In x xs -> below (q_gen Op st) x) ->
    let st' := {| q_gen := n'; q_found := q_found Op st ++ found; q_coeffs := q_coeffs Op st |} in
    cse_inv n0 st' /\ (q_gen Op st <= n')%nat /\ length new = length xs /\ (forall y, In y new -> below n' y) /\ (forall d, In d (defs st) -> In d (defs st')) /\
    forall e, sat e (defs st') -> map (eval e) new = map (eval e) xs.
  Proof.
    intros H [Hg HN HD] Hb. destruct (ok_cse _ _ _ HK _ _ _ _ _ H) as (H1 & H2 & H3 & H4 & H5 & H6). cbn zeta.
    assert (Hdefs : forall d, In d (defs {| q_gen := n'; q_found := q_found Op st ++ found; q_coeffs := q_coeffs Op st |}) <-> In d (defs st) \/ In d found).
    { intros d. unfold defs. cbn [q_found q_coeffs]. rewrite !in_app_iff. tauto. }
    assert (FB : forall s y, In (s, y) found -> exists k, s = Xi k /\ (q_gen Op st <= k < n')%nat /\ below k y).
    { intros s y Hin. destruct (H4 s y Hin) as (k & -> & Hk & Hm). exists k. split; [reflexivity|]. split; [exact Hk|]. intros j Hj.
      destruct (Hm _ Hj) as [(x & Hx & Hx')|(i & [= <-] & Hi)]; [specialize (Hb x Hx j Hx'); lia|lia]. }
    split; [constructor; cbn [q_gen]|].
    - lia.
    - apply (Permutation_NoDup (l := map fst (defs st) ++ map fst found)).
      + unfold defs. cbn [q_found q_coeffs]. rewrite <- map_app. apply Permutation_map. rewrite <- !app_assoc. apply Permutation_app_head, Permutation_app_comm.
      + apply NoDup_app_in; [exact HN|exact H3|]. intros t Ht Ht'. apply in_map_iff in Ht, Ht'. destruct Ht as ([s x] & <- & Hx), Ht' as ([s' x'] & E & Hx'). cbn [fst] in *. subst s'.
        destruct (HD _ _ Hx) as (k & -> & Hk & _). destruct (FB _ _ Hx') as (k' & [= <-] & Hk' & _). lia.
    - intros s x Hin. apply Hdefs in Hin. destruct Hin as [Hin|Hin].
      + destruct (HD s x Hin) as (k & -> & Hk & Hbk). exists k. split; [reflexivity|]. split; [lia|exact Hbk].
      + destruct (FB s x Hin) as (k & -> & Hk & Hbk). exists k. split; [reflexivity|]. split; [lia|exact Hbk].
    - split; [exact H1|]. split; [exact H2|]. split; [|split; [intros d Hd; apply Hdefs; auto|]].
      + intros y Hy j Hj. destruct (H5 y _ Hy Hj) as [(x & Hx & Hx')|(i & [= <-] & Hi)]; [specialize (Hb x Hx j Hx'); lia|lia].
      + intros e He. apply H6. intros s x Hin. apply He, Hdefs. auto.
  Qed.

  (* what one treatment of a pair guarantees *)
  Definition pair_ok (n0 : nat) (u v : asg) (st : cse_state Op) (u' v' : asg) (st' : cse_state Op) : Prop :=
    cse_inv n0 st' /\ (q_gen Op st <= q_gen Op st')%nat /\ fst u' = fst u /\ fst v' = fst v /\ below (q_gen Op st') (snd u') /\ below (q_gen Op st') (snd v') /\
    (forall d, In d (defs st) -> In d (defs st')) /\ forall e, sat e (defs st') -> eval e (snd u') = eval e (snd u) /\ eval e (snd v') = eval e (snd v).
  Lemma sat_incl e (l l' : list asg) : (forall d, In d l -> In d l') -> sat e l' -> sat e l.
  Proof. intros H He s x Hin. apply He, H, Hin. Qed.
  Lemma cse_rate_ok n0 r u v st u' v' st' : old_rate n0 r -> cse_inv n0 st -> below (q_gen Op st) (snd u) -> below (q_gen Op st) (snd v) ->
    cse_rate Op K r (u, v) st = ((u', v'), st') -> pair_ok n0 u v st u' v' st'.
  Proof.
    intros Hr HI Bu Bv H. unfold cse_rate in H. set (tu := c_coeff Op K (snd u) r) in *. set (tv := c_coeff Op K (snd v) r) in *.
    destruct (c_factor Op K tu) as [fu wu] eqn:Fu. destruct (c_factor Op K tv) as [fv wv] eqn:Fv.
    assert (Btu : below (q_gen Op st) tu) by (intros k Hk; apply Bu, (ok_coeff _ _ _ HK _ _ _ Hk)).
    assert (Btv : below (q_gen Op st) tv) by (intros k Hk; apply Bv, (ok_coeff _ _ _ HK _ _ _ Hk)).
    destruct (ok_factor _ _ _ HK _ _ _ Fu) as [Vu Mu]. destruct (ok_factor _ _ _ HK _ _ _ Fv) as [Vv Mv].
    destruct (if Qeq_bool fu fv && negb (Qeq_bool fu 1) then _ else _) as [[[[co hu] hv] n] cs] eqn:E.
    set (st1 := {| q_gen := n; q_found := q_found Op st; q_coeffs := cs |}).
    assert (A : cse_inv n0 st1 /\ (q_gen Op st <= n)%nat /\ (forall k, co = Xi k -> (k < n)%nat) /\ (forall d, In d (defs st) -> In d (defs st1)) /\
      below (q_gen Op st) hu /\ below (q_gen Op st) hv /\ forall e, sat e (defs st1) -> e co * eval e hu = e r * eval e tu /\ e co * eval e hv = e r * eval e tv).
    { destruct (Qeq_bool fu fv && negb (Qeq_bool fu 1)) eqn:C.
      - destruct (lookup_coefficient (q_gen Op st) (q_coeffs Op st) fu r) as [[k n1] cs1] eqn:L. injection E as <- <- <- <- <-.
        destruct (lookup_coefficient_ok n0 st _ _ _ _ _ L HI Hr) as (I1 & G1 & K1 & D1 & V1).
        split; [exact I1|]. split; [exact G1|]. split; [intros j [= <-]; exact K1|]. split; [exact D1|].
        split; [intros j Hj; apply Btu, Mu, Hj|]. split; [intros j Hj; apply Btv, Mv, Hj|].
        intros e He. specialize (V1 e He). rewrite V1, Vu, Vv. apply andb_true_iff in C. destruct C as [C _]. apply Qeq_bool_iff, Qeq_eqR in C. rewrite <- C. split; ring.
      - injection E as <- <- <- <- <-. assert (E1 : st1 = st) by (unfold st1; now destruct st). rewrite E1.
        split; [exact HI|]. split; [lia|]. split; [intros k Hk; specialize (Hr k Hk); pose proof (c_gen _ _ HI); lia|]. split; [auto|]. split; [exact Btu|]. split; [exact Btv|]. auto. }
    destruct A as (I1 & G1 & Kc & D1 & Bhu & Bhv & V1).
    destruct (c_cse Op K n [hu; hv]) as [[n' found] new] eqn:C.
    destruct (cse_call_ok n0 st1 [hu; hv] n' found new C I1) as (I2 & G2 & L2 & B2 & D2 & V2).
    { intros x [<-|[<-|[]]]; cbn [st1 q_gen]; eapply below_mono; eauto. }
    destruct new as [|nu [|nv [|]]]; try discriminate L2. injection H as <- <- <-. cbn [st1 q_gen] in G2.
    assert (Hv : forall e, sat e (defs {| q_gen := n'; q_found := q_found Op st ++ found; q_coeffs := cs |}) ->
      e co * eval e nu = e r * eval e tu /\ e co * eval e nv = e r * eval e tv).
    { intros e He. specialize (V2 e He). cbn [map] in V2. injection V2 as -> ->. apply V1. eapply sat_incl; [|exact He]. exact D2. }
    assert (Bnu : below n' nu) by (apply B2; now left). assert (Bnv : below n' nv) by (apply B2; right; now left).
    unfold pair_ok. cbn [fst snd q_gen]. split; [exact I2|]. split; [lia|]. split; [reflexivity|]. split; [reflexivity|].
    split; [|split; [|split]].
    - intros k Hk. destruct (proj2 (ok_subs _ _ _ HK _ _ _) _ Hk) as [Hk'|Hk']; [specialize (Bu k Hk'); lia|]. cbn [mentions] in Hk'. apply orb_true_iff in Hk'.
      destruct Hk' as [Hk'|Hk']; [apply name_eqb_eq in Hk'; specialize (Kc k Hk'); lia|auto].
    - intros k Hk. destruct (proj2 (ok_subs _ _ _ HK _ _ _) _ Hk) as [Hk'|Hk']; [specialize (Bv k Hk'); lia|]. cbn [mentions] in Hk'. apply orb_true_iff in Hk'.
      destruct Hk' as [Hk'|Hk']; [apply name_eqb_eq in Hk'; specialize (Kc k Hk'); lia|auto].
    - intros d Hd. apply D2, D1, Hd.
    - intros e He. destruct (Hv e He) as [Hvu Hvv]. split; apply (ok_subs _ _ _ HK); cbn [SimpSpec.eval]; symmetry; assumption.
  Qed.
  Lemma pair_ok_refl n0 u v st : cse_inv n0 st -> below (q_gen Op st) (snd u) -> below (q_gen Op st) (snd v) -> pair_ok n0 u v st u v st.
  Proof. intros H Bu Bv. unfold pair_ok. repeat (split; [auto|]). auto. Qed.
  Lemma pair_ok_trans n0 u v st u1 v1 st1 u2 v2 st2 : pair_ok n0 u v st u1 v1 st1 -> pair_ok n0 u1 v1 st1 u2 v2 st2 -> pair_ok n0 u v st u2 v2 st2.
  Proof.
    intros (A1 & A2 & A3 & A4 & A5 & A6 & A7 & A8) (B1 & B2 & B3 & B4 & B5 & B6 & B7 & B8). unfold pair_ok.
    split; [exact B1|]. split; [lia|]. split; [congruence|]. split; [congruence|]. split; [exact B5|]. split; [exact B6|]. split; [auto|].
    intros e He. destruct (B8 e He) as [-> ->]. apply A8. eapply sat_incl; eauto.
  Qed.
  Lemma cse_rates_ok n0 rs : (forall r, In r rs -> old_rate n0 r) -> forall u v st u' v' st', cse_inv n0 st -> below (q_gen Op st) (snd u) -> below (q_gen Op st) (snd v) ->
    cse_rates Op K rs (u, v) st = ((u', v'), st') -> pair_ok n0 u v st u' v' st'.
  Proof.
    induction rs as [|r rs IH]; intros Hr u v st u' v' st' HI Bu Bv H; cbn [cse_rates] in H.
    - injection H as <- <- <-. now apply pair_ok_refl.
    - destruct (cse_rate Op K r (u, v) st) as [[u1 v1] st1] eqn:E. pose proof (cse_rate_ok n0 r u v st u1 v1 st1 (Hr r (or_introl eq_refl)) HI Bu Bv E) as P1.
      eapply pair_ok_trans; [exact P1|]. destruct P1 as (A1 & _ & _ & _ & A5 & A6 & _). apply IH; auto. intros r' Hr'. apply Hr. now right.
  Qed.
  Lemma cse_plain_ok n0 u v st u' v' st' : cse_inv n0 st -> below (q_gen Op st) (snd u) -> below (q_gen Op st) (snd v) ->
    cse_plain Op K (u, v) st = ((u', v'), st') -> pair_ok n0 u v st u' v' st'.
  Proof.
    intros HI Bu Bv H. unfold cse_plain in H. destruct (c_cse Op K (q_gen Op st) [snd u; snd v]) as [[n' found] new] eqn:C.
    destruct (cse_call_ok n0 st _ _ _ _ C HI) as (I2 & G2 & L2 & B2 & D2 & V2); [intros x [<-|[<-|[]]]; assumption|].
    destruct new as [|nu [|nv [|]]]; try discriminate L2. injection H as <- <- <-. unfold pair_ok. cbn [fst snd q_gen].
    split; [exact I2|]. split; [exact G2|]. split; [reflexivity|]. split; [reflexivity|]. split; [apply B2; now left|]. split; [apply B2; right; now left|]. split; [exact D2|].
    intros e He. specialize (V2 e He). cbn [map] in V2. now injection V2 as -> ->.
  Qed.

  (* ---- the dictionary of rules ---- *)
  Lemma vec_eqb_refl c : vec_eqb c c = true. Proof. now apply vec_eqb_eq. Qed.
  Lemma rd_get_del (d : rule_dict Op) c c' : rd_get Op (rd_del Op d c) c' = if vec_eqb c c' then None else rd_get Op d c'.
  Proof.
    unfold rd_get, rd_del. induction d as [|[b x] d IH]; [cbn; now destruct (vec_eqb c c')|]. cbn [filter fst]. destruct (vec_eqb b c) eqn:E; cbn [negb find fst].
    - apply vec_eqb_eq in E. subst b. rewrite IH. now destruct (vec_eqb c c').
    - destruct (vec_eqb b c') eqn:E'; [|exact IH]. apply vec_eqb_eq in E'. subst b. destruct (vec_eqb c c') eqn:E2; [apply vec_eqb_eq in E2; subst; rewrite vec_eqb_refl in E; discriminate|reflexivity].
  Qed.
  Lemma rd_get_set (d : rule_dict Op) c x c' : rd_get Op (rd_set Op d c x) c' = if vec_eqb c c' then Some x else rd_get Op d c'.
  Proof.
    unfold rd_set. unfold rd_get at 1. cbn [find fst]. destruct (vec_eqb c c') eqn:E; [reflexivity|]. fold (rd_get Op (rd_del Op d c) c'). rewrite rd_get_del, E. reflexivity.
  Qed.
  Lemma rules_of (pairs : list (asg * vec)) : NoDup (map snd pairs) -> forall r c, In (r, c) pairs <-> rd_get Op (fold_left (fun d p => rd_set Op d (snd p) (fst p)) pairs []) c = Some r.
  Proof.
    assert (G : forall pairs d, NoDup (map snd pairs) -> forall c r, rd_get Op (fold_left (fun d p => rd_set Op d (snd p) (fst p)) pairs d) c = Some r <->
      In (r, c) pairs \/ (~ In c (map snd pairs) /\ rd_get Op d c = Some r)).
    { clear. induction pairs as [|[x b] pairs IH]; intros d HN c r; cbn [fold_left map snd fst]; [cbn; tauto|]. cbn [map snd] in HN. apply NoDup_cons_iff in HN. destruct HN as [HB HN].
      rewrite IH by exact HN. rewrite rd_get_set. cbn [In]. destruct (vec_eqb b c) eqn:E.
      - apply vec_eqb_eq in E. subst b. split.
        + intros [H|[H1 [= ->]]]; [auto|]. left. now left.
        + intros [[[= ->]|H]|[H _]]; [right; auto|auto|]. exfalso. apply H. now left.
      - assert (b <> c) by (intros ->; rewrite vec_eqb_refl in E; discriminate). split.
        + intros [H1|[H1 H2]]; [auto|]. right. split; [intros [|]; congruence|exact H2].
        + intros [[[= -> ->]|H1]|[H1 H2]]; [congruence|auto|]. right. split; [|exact H2]. intros Hin. apply H1. now right. }
    intros HN r c. rewrite G by exact HN. cbn. split; [auto|]. intros [H|[_ H]]; [exact H|discriminate].
  Qed.

  (* ---- the loop ---- *)
  Section Loop.
    Context (n0 : nat) (rates : list name) (pairs : list (asg * vec)).
    Hypothesis Hrates : forall r, In r rates -> old_rate n0 r.
    Hypothesis Hvecs : NoDup (map snd pairs).
    Hypothesis Hlhs : NoDup (map (fun p => fst (fst p)) pairs).
    Hypothesis Hbelow : forall r c, In (r, c) pairs -> below n0 (snd r).
    Lemma by_vec r r' c : In (r, c) pairs -> In (r', c) pairs -> r = r'.
    Proof.
      clear - Hvecs. intros H H'. induction pairs as [|[x b] l IH]; [destruct H|]. cbn [map snd] in Hvecs. apply NoDup_cons_iff in Hvecs. destruct Hvecs as [HB HN].
      destruct H as [H|H], H' as [H'|H']; [congruence| | |auto]; exfalso; apply HB, in_map_iff; [exists (r', c)|exists (r, c)]; (split; [cbn [snd]; congruence|assumption]).
    Qed.
    Lemma by_lhs r r' c c' : In (r, c) pairs -> In (r', c') pairs -> fst r = fst r' -> (r, c) = (r', c').
    Proof.
      clear - Hlhs. intros H H' E. induction pairs as [|[x b] l IH]; [destruct H|]. cbn [map fst] in Hlhs. apply NoDup_cons_iff in Hlhs. destruct Hlhs as [HB HN].
      destruct H as [H|H], H' as [H'|H']; [congruence| | |auto]; exfalso; apply HB, in_map_iff; [exists (r', c')|exists (r, c)]; (split; [cbn [fst]; congruence|assumption]).
    Qed.
    Definition represents (st : cse_state Op) (r r' : asg) : Prop := fst r' = fst r /\ forall e, sat e (defs st) -> eval e (snd r') = eval e (snd r).
    Lemma represents_mono st st' r r' : (forall d, In d (defs st) -> In d (defs st')) -> represents st r r' -> represents st' r r'.
    Proof. intros H [E V]. split; [exact E|]. intros e He. apply V. eapply sat_incl; eauto. Qed.
    Record loop_inv (l : list (asg * vec)) (d : rule_dict Op) (result : list asg) (st : cse_state Op) : Prop := {
      l_inv : cse_inv n0 st;
      l_d : forall r c, rd_get Op d c = Some r -> In (r, c) pairs;
      l_l : forall p, In p l -> In p pairs;
      l_nodup : NoDup (map snd l);
      l_none : forall r c, In (r, c) pairs -> rd_get Op d c = None -> exists r', In r' result /\ represents st r r';
      l_done : forall r c, In (r, c) pairs -> In (r, c) l \/ exists r', In r' result /\ represents st r r';
      l_sound : forall r', In r' result -> exists r c, In (r, c) pairs /\ represents st r r' /\ (rd_get Op d c = None \/ (vneg c = c /\ ~ In c (map snd l)));
      l_once : NoDup (map fst result)
    }.
    Lemma cse_loop_ok : forall l d result st result' st', cse_loop Op K rates l d result st = Ok (result', st') -> loop_inv l d result st ->
      cse_inv n0 st' /\ NoDup (map fst result') /\ (forall r c, In (r, c) pairs -> exists r', In r' result' /\ represents st' r r') /\
      (forall r', In r' result' -> exists r c, In (r, c) pairs /\ represents st' r r').
    Proof.
      induction l as [|[rule c] l IH]; intros d result st result' st' H [I1 I2 I3 I4 I5 I6 I7 I8]; cbn [cse_loop] in H.
      - injection H as <- <-. split; [exact I1|]. split; [exact I8|]. split.
        + intros r c Hp. destruct (I6 r c Hp) as [[]|]; assumption.
        + intros r' Hr'. destruct (I7 r' Hr') as (r & c & Hp & Hrep & _). eauto.
      - cbn [map snd] in I4. apply NoDup_cons_iff in I4. destruct I4 as [Ic I4].
        assert (Hrule : In (rule, c) pairs) by (apply I3; now left).
        destruct (rd_get Op d c) as [rule'|] eqn:E.
        + destruct (rd_get Op d (vneg c)) as [inv|] eqn:Ei; [|discriminate]. pose proof (I2 _ _ Ei) as Hinv. destruct (vec_eqb (vneg c) c) eqn:Ec.
          * apply vec_eqb_eq in Ec. apply IH in H; [exact H|]. constructor; auto.
            -- intros p Hp. apply I3. now right.
            -- intros r b Hr Hb. destruct (I5 r b Hr Hb) as (r' & Hr' & Hrep). exists r'. split; [apply in_app_iff; now left|exact Hrep].
            -- intros r b Hr. destruct (I6 r b Hr) as [[[= -> ->]|Hl]|(r' & Hr' & Hrep)]; [|auto|right; exists r'; split; [apply in_app_iff; now left|exact Hrep]].
               right. exists r. split; [apply in_app_iff; right; now left|split; auto].
            -- intros r' Hr'. apply in_app_iff in Hr'. destruct Hr' as [Hr'|[<-|[]]].
               ++ destruct (I7 r' Hr') as (r & b & Hp & Hrep & [Hn|[Hz Hn]]); exists r, b; (split; [exact Hp|]); (split; [exact Hrep|]); [auto|].
                  right. split; [exact Hz|]. intros Hin. apply Hn. now right.
               ++ exists rule, c. split; [exact Hrule|]. split; [split; auto|]. right. auto.
            -- rewrite map_app. cbn [map]. apply NoDup_app_in; [exact I8|constructor; [intros []|constructor]|]. intros t Ht [<-|[]]. apply in_map_iff in Ht. destruct Ht as (r' & Er' & Hr').
               destruct (I7 r' Hr') as (r & b & Hp & [Erep _] & Hcase). assert (Eq : (r, b) = (rule, c)) by (apply by_lhs; [exact Hp|exact Hrule|congruence]). injection Eq as -> ->.
               destruct Hcase as [Hn|[_ Hn]]; [congruence|]. apply Hn. now left.
          * assert (Hne : vneg c <> c) by (intros Hc; rewrite Hc, vec_eqb_refl in Ec; discriminate).
            destruct (match rates with [] => _ | _ => _ end) as [[u v] st1] eqn:Ep.
            assert (Bu : below (q_gen Op st) (snd rule)) by (eapply below_mono; [apply (c_gen _ _ I1)|eapply Hbelow; eauto]).
            assert (Bv : below (q_gen Op st) (snd inv)) by (eapply below_mono; [apply (c_gen _ _ I1)|eapply Hbelow; eauto]).
            assert (P1 : pair_ok n0 rule inv st u v st1).
            { destruct rates as [|r0 rs]; [now apply cse_plain_ok|]. apply (cse_rates_ok n0 (r0 :: rs)); auto. }
            destruct P1 as (J1 & J2 & J3 & J4 & _ & _ & J7 & J8).
            assert (Get : forall b, rd_get Op (rd_del Op (rd_del Op d (vneg c)) c) b = if vec_eqb c b then None else if vec_eqb (vneg c) b then None else rd_get Op d b)
              by (intros b; now rewrite !rd_get_del).
            assert (Ru : represents st1 rule u) by (split; [exact J3|intros e He; apply (J8 e He)]).
            assert (Rv : represents st1 inv v) by (split; [exact J4|intros e He; apply (J8 e He)]).
            apply IH in H; [exact H|]. constructor; auto.
            -- intros r b Hb. rewrite Get in Hb. destruct (vec_eqb c b); [discriminate|]. destruct (vec_eqb (vneg c) b); [discriminate|]. auto.
            -- intros p Hp. apply I3. now right.
            -- intros r b Hr Hb. rewrite Get in Hb. destruct (vec_eqb c b) eqn:E1.
               ++ apply vec_eqb_eq in E1. subst b. rewrite (by_vec _ _ _ Hr Hrule). exists u. split; [apply in_app_iff; right; now left|exact Ru].
               ++ destruct (vec_eqb (vneg c) b) eqn:E2.
                  ** apply vec_eqb_eq in E2. subst b. rewrite (by_vec _ _ _ Hr Hinv). exists v. split; [apply in_app_iff; right; right; now left|exact Rv].
                  ** destruct (I5 r b Hr Hb) as (r' & Hr' & Hrep). exists r'. split; [apply in_app_iff; now left|eapply represents_mono; eauto].
            -- intros r b Hr. destruct (I6 r b Hr) as [[[= -> ->]|Hl]|(r' & Hr' & Hrep)]; [|auto|right; exists r'; split; [apply in_app_iff; now left|eapply represents_mono; eauto]].
               right. exists u. split; [apply in_app_iff; right; now left|exact Ru].
            -- intros r' Hr'. apply in_app_iff in Hr'. destruct Hr' as [Hr'|[<-|[<-|[]]]].
               ++ destruct (I7 r' Hr') as (r & b & Hp & Hrep & [Hn|[Hz Hn]]); exists r, b; (split; [exact Hp|]); (split; [eapply represents_mono; eauto|]).
                  ** left. rewrite Get. destruct (vec_eqb c b); [reflexivity|]. destruct (vec_eqb (vneg c) b); [reflexivity|exact Hn].
                  ** right. split; [exact Hz|]. intros Hin. apply Hn. now right.
               ++ exists rule, c. split; [exact Hrule|]. split; [exact Ru|]. left. rewrite Get, vec_eqb_refl. reflexivity.
               ++ exists inv, (vneg c). split; [exact Hinv|]. split; [exact Rv|]. left. rewrite Get, vec_eqb_refl. now destruct (vec_eqb c (vneg c)).
            -- assert (No : forall r0 b, In (r0, b) pairs -> rd_get Op d b <> None -> (vneg b = b -> In b (map snd ((rule, c) :: l))) -> ~ In (fst r0) (map fst result)).
               { intros r0 b Hr0 Hb Hz Hin. apply in_map_iff in Hin. destruct Hin as (r' & Er' & Hr'). destruct (I7 r' Hr') as (r & b' & Hp & [Erep _] & Hcase).
                 assert (Eq : (r, b') = (r0, b)) by (apply by_lhs; [exact Hp|exact Hr0|congruence]). injection Eq as -> ->. destruct Hcase as [Hn|[Hn1 Hn2]]; [congruence|auto]. }
               rewrite map_app. cbn [map]. apply NoDup_app_in; [exact I8| |].
               ++ constructor; [|constructor; [intros []|constructor]]. intros [Euv|[]]. apply Hne.
                  assert (Eq : (inv, vneg c) = (rule, c)) by (apply by_lhs; [exact Hinv|exact Hrule|congruence]). congruence.
               ++ intros t Ht [<-|[<-|[]]].
                  ** rewrite J3 in Ht. revert Ht. apply (No rule c Hrule); [congruence|]. intros _. now left.
                  ** rewrite J4 in Ht. revert Ht. apply (No inv (vneg c) Hinv); [congruence|]. intros Hz. rewrite vneg_involutive in Hz. congruence.
        + apply IH in H; [exact H|]. constructor; auto.
          * intros p Hp. apply I3. now right.
          * intros r b Hr. destruct (I6 r b Hr) as [[[= -> ->]|Hl]|Hrep]; [|auto|auto]. right. now apply (I5 _ b).
          * intros r' Hr'. destruct (I7 r' Hr') as (r & b & Hp & Hrep & [Hn|[Hz Hn]]); exists r, b; (split; [exact Hp|]); (split; [exact Hrep|]); [auto|].
            right. split; [exact Hz|]. intros Hin. apply Hn. now right.
    Qed.
  End Loop.

  (* ---- symbols that are not used ---- *)
  Section Clean.
    Context (n0 : nat) (bad : name -> Prop) (Hxi : forall k, bad (Xi k) -> (k < n0)%nat).
    Definition clean (x : expr Op) : Prop := forall s, bad s -> mentions s x = false.
    Definition clean_coeffs (cs : coefficients) : Prop := forall q r k, In (q, r, k) cs -> (n0 <= k)%nat /\ ~ bad r.
    Definition clean_state (st : cse_state Op) : Prop := (n0 <= q_gen Op st)%nat /\ (forall d, In d (q_found Op st) -> clean (snd d)) /\ clean_coeffs (q_coeffs Op st).
    Lemma clean_defs st : clean_state st -> forall d, In d (defs st) -> clean (snd d).
    Proof.
      intros (_ & H1 & H2) d Hd. apply in_app_iff in Hd. destruct Hd as [Hd|Hd]; [auto|]. apply in_map_iff in Hd. destruct Hd as ([[q r] k] & <- & Hin). cbn [fst snd]. intros s Hb. cbn [mentions orb].
      destruct (name_eqb r s) eqn:E; [|reflexivity]. apply name_eqb_eq in E. subst r. destruct (H2 q s k Hin). contradiction.
    Qed.
    Lemma not_clean x s : clean x -> bad s -> mentions s x = true -> False. Proof. intros H Hb E. rewrite (H s Hb) in E. discriminate. Qed.
    Lemma cse_call_clean n xs n' found new : (n0 <= n)%nat -> c_cse Op K n xs = (n', found, new) -> (forall x, In x xs -> clean x) -> (n <= n')%nat /\ (forall d, In d found -> clean (snd d)) /\ forall y, In y new -> clean y.
    Proof.
      intros Hn H Hx. destruct (ok_cse _ _ _ HK _ _ _ _ _ H) as (H1 & _ & _ & H4 & H5 & _). split; [exact H1|]. split.
      - intros [s y] Hd t Hb. cbn [snd]. destruct (mentions t y) eqn:E; [exfalso|reflexivity]. destruct (H4 s y Hd) as (k & -> & Hk & Hm). destruct (Hm t E) as [(x & Hin & Ex)|(j & -> & Hj)]; [exact (not_clean x t (Hx x Hin) Hb Ex)|].
        specialize (Hxi j Hb). lia.
      - intros y Hy t Hb. destruct (mentions t y) eqn:E; [exfalso|reflexivity]. destruct (H5 y t Hy E) as [(x & Hin & Ex)|(j & -> & Hj)]; [exact (not_clean x t (Hx x Hin) Hb Ex)|]. specialize (Hxi j Hb). lia.
    Qed.
    Lemma cse_rate_clean r u v st u' v' st' : ~ bad r -> clean_state st -> clean (snd u) -> clean (snd v) -> cse_rate Op K r (u, v) st = ((u', v'), st') -> clean_state st' /\ clean (snd u') /\ clean (snd v').
    Proof.
      intros Hr (Hg & Hs & Hc) Cu Cv H. unfold cse_rate in H. set (tu := c_coeff Op K (snd u) r) in *. set (tv := c_coeff Op K (snd v) r) in *.
      destruct (c_factor Op K tu) as [fu wu] eqn:Fu. destruct (c_factor Op K tv) as [fv wv] eqn:Fv.
      assert (Ctu : clean tu) by (intros s Hb; destruct (mentions s tu) eqn:E; [|reflexivity]; apply (ok_coeff _ _ _ HK) in E; destruct (not_clean _ _ Cu Hb E)).
      assert (Ctv : clean tv) by (intros s Hb; destruct (mentions s tv) eqn:E; [|reflexivity]; apply (ok_coeff _ _ _ HK) in E; destruct (not_clean _ _ Cv Hb E)).
      destruct (ok_factor _ _ _ HK _ _ _ Fu) as [_ Mu]. destruct (ok_factor _ _ _ HK _ _ _ Fv) as [_ Mv].
      assert (Cwu : clean wu) by (intros s Hb; destruct (mentions s wu) eqn:E; [|reflexivity]; apply Mu in E; destruct (not_clean _ _ Ctu Hb E)).
      assert (Cwv : clean wv) by (intros s Hb; destruct (mentions s wv) eqn:E; [|reflexivity]; apply Mv in E; destruct (not_clean _ _ Ctv Hb E)).
      destruct (if Qeq_bool fu fv && negb (Qeq_bool fu 1) then _ else _) as [[[[co hu] hv] n] cs] eqn:E.
      assert (A : (n0 <= n)%nat /\ ~ bad co /\ clean hu /\ clean hv /\ clean_coeffs cs).
      { destruct (Qeq_bool fu fv && negb (Qeq_bool fu 1)).
        - unfold lookup_coefficient in E. destruct (find _ _) as [[[q' r'] j]|] eqn:F; injection E as <- <- <- <- <-.
          + split; [exact Hg|]. split; [|auto]. cbn [snd]. intros Hb. apply find_some in F. destruct F as [F _]. destruct (Hc _ _ _ F) as [Hj _]. specialize (Hxi j Hb). lia.
          + split; [lia|]. split; [intros Hb; specialize (Hxi _ Hb); lia|]. split; [exact Cwu|]. split; [exact Cwv|]. intros q1 r1 k1 Hin. apply in_app_iff in Hin.
            destruct Hin as [Hin|[[= <- <- <-]|[]]]; [eauto|]. split; [lia|exact Hr].
        - injection E as <- <- <- <- <-. auto. }
      destruct A as (Hn & Hco & Chu & Chv & Hcs). destruct (c_cse Op K n [hu; hv]) as [[n' found] new] eqn:C.
      destruct (cse_call_clean n [hu; hv] n' found new Hn C) as (H1 & H2 & H3); [intros x [<-|[<-|[]]]; assumption|].
      destruct (ok_cse _ _ _ HK _ _ _ _ _ C) as (_ & L2 & _). destruct new as [|nu [|nv [|]]]; try discriminate L2. injection H as <- <- <-.
      assert (G : forall t nt x, clean x -> clean nt -> clean (c_subs Op K (Mul (Sym r) t) (Mul (Sym co) nt) x)).
      { intros t nt x Cx Cn s Hb. destruct (mentions s (c_subs _ _ _ _ _)) eqn:Em; [exfalso|reflexivity]. apply (ok_subs _ _ _ HK) in Em. destruct Em as [Em|Em]; [exact (not_clean _ _ Cx Hb Em)|].
        cbn [mentions] in Em. apply orb_true_iff in Em. destruct Em as [Em|Em]; [apply name_eqb_eq in Em; subst; contradiction|exact (not_clean _ _ Cn Hb Em)]. }
      split; [split; [cbn [q_gen]; lia|split; [|exact Hcs]]|].
      - cbn [q_found]. intros d Hd. apply in_app_iff in Hd. destruct Hd; auto.
      - cbn [snd]. split; apply G; auto; apply H3; [now left|right; now left].
    Qed.
    Lemma cse_rates_clean rs : (forall r, In r rs -> ~ bad r) -> forall u v st u' v' st', clean_state st -> clean (snd u) -> clean (snd v) ->
      cse_rates Op K rs (u, v) st = ((u', v'), st') -> clean_state st' /\ clean (snd u') /\ clean (snd v').
    Proof.
      induction rs as [|r rs IH]; intros Hr u v st u' v' st' HS Cu Cv H; cbn [cse_rates] in H; [injection H as <- <- <-; auto|].
      destruct (cse_rate Op K r (u, v) st) as [[u1 v1] st1] eqn:E. destruct (cse_rate_clean r u v st u1 v1 st1 (Hr r (or_introl eq_refl)) HS Cu Cv E) as (A & B & C).
      exact (IH (fun r' Hr' => Hr r' (or_intror Hr')) u1 v1 st1 u' v' st' A B C H).
    Qed.
    Lemma cse_plain_clean u v st u' v' st' : clean_state st -> clean (snd u) -> clean (snd v) -> cse_plain Op K (u, v) st = ((u', v'), st') -> clean_state st' /\ clean (snd u') /\ clean (snd v').
    Proof.
      intros (Hg & Hs & Hc) Cu Cv H. unfold cse_plain in H. destruct (c_cse Op K (q_gen Op st) [snd u; snd v]) as [[n' found] new] eqn:C.
      destruct (cse_call_clean _ _ _ _ _ Hg C) as (H1 & H2 & H3); [intros x [<-|[<-|[]]]; assumption|]. destruct (ok_cse _ _ _ HK _ _ _ _ _ C) as (_ & L2 & _). destruct new as [|nu [|nv [|]]]; try discriminate L2. injection H as <- <- <-.
      split; [split; [cbn [q_gen]; lia|split; [|exact Hc]]|].
      - cbn [q_found]. intros d Hd. apply in_app_iff in Hd. destruct Hd; auto.
      - cbn [snd]. split; apply H3; [now left|right; now left].
    Qed.
    Lemma cse_loop_clean rates : (forall r, In r rates -> ~ bad r) -> forall l d result st result' st', (forall r c, In (r, c) l -> clean (snd r)) -> (forall r c, rd_get Op d c = Some r -> clean (snd r)) ->
      (forall r, In r result -> clean (snd r)) -> clean_state st -> cse_loop Op K rates l d result st = Ok (result', st') -> clean_state st' /\ forall r, In r result' -> clean (snd r).
    Proof.
      intros Hr. induction l as [|[rule c] l IH]; intros d result st result' st' Hl Hd Hres HS H; cbn [cse_loop] in H; [injection H as <- <-; auto|].
      assert (Hl' : forall r c, In (r, c) l -> clean (snd r)) by (intros r c' Hin; apply (Hl r c'); now right). assert (Crule : clean (snd rule)) by (apply (Hl rule c); now left).
      destruct (rd_get Op d c) as [rule'|]; [|eapply IH; eauto]. destruct (rd_get Op d (vneg c)) as [inv|] eqn:Ei; [|discriminate]. destruct (vec_eqb (vneg c) c).
      - apply IH in H; auto. intros r Hin. apply in_app_iff in Hin. destruct Hin as [Hin|[<-|[]]]; auto.
      - destruct (match rates with [] => _ | _ => _ end) as [[u v] st1] eqn:Ep. pose proof (Hd _ _ Ei) as Cinv.
        assert (P1 : clean_state st1 /\ clean (snd u) /\ clean (snd v)). { destruct rates as [|r0 rs]; [eapply cse_plain_clean; [| | |exact Ep]; auto|eapply cse_rates_clean; [| | | |exact Ep]; auto]. }
        destruct P1 as (A & B & C). apply IH in H; auto.
        + intros r b Hb. rewrite !rd_get_del in Hb. destruct (vec_eqb c b); [discriminate|]. destruct (vec_eqb (vneg c) b); [discriminate|]. eauto.
        + intros r Hin. apply in_app_iff in Hin. destruct Hin as [Hin|[<-|[<-|[]]]]; auto.
    Qed.
  End Clean.

  (* ---- sorting ---- *)
  Lemma insert_keyed_perm (x : nat * asg) l : Permutation (insert_keyed Op x l) (x :: l).
  Proof. induction l as [|y l IH]; cbn [insert_keyed]; [reflexivity|]. destruct (fst y <? fst x)%nat; [|reflexivity]. rewrite IH. apply perm_swap. Qed.
  Lemma sort_keyed_perm l : Permutation (fold_right (insert_keyed Op) [] l) l.
  Proof. induction l as [|x l IH]; cbn [fold_right]; [reflexivity|]. rewrite insert_keyed_perm. now constructor. Qed.
  Lemma mapM_length {A B} (f : A -> res B) l ks : mapM f l = Ok ks -> length ks = length l.
  Proof. revert ks. induction l as [|x l IH]; intros ks H; cbn [mapM] in H; [now injection H as <-|]. destruct (f x); [|discriminate]. cbn [rbind] in H. destruct (mapM f l) as [ys|]; [|discriminate]. cbn [rbind] in H. injection H as <-. cbn [length]. now rewrite (IH ys). Qed.
  Lemma map_snd_combine {A B} (ks : list A) (l : list B) : length ks = length l -> map snd (combine ks l) = l.
  Proof. revert ks. induction l as [|x l IH]; intros [|k ks] H; try discriminate H; [reflexivity|]. cbn [combine map snd]. now rewrite IH by (injection H; auto). Qed.
  Lemma sort_rules_perm posts l l' : sort_rules Op posts l = Ok l' -> Permutation l l'.
  Proof.
    unfold sort_rules. destruct (mapM _ l) as [ks|] eqn:E; [|discriminate]. cbn [rbind]. intros [= <-]. apply mapM_length in E.
    rewrite <- (map_snd_combine ks l E) at 1. apply Permutation_map. symmetry. apply sort_keyed_perm.
  Qed.
  Definition keyed_le (x y : nat * asg) : Prop := (fst x <= fst y)%nat.
  Lemma insert_keyed_sorted x l : StronglySorted keyed_le l -> StronglySorted keyed_le (insert_keyed Op x l).
  Proof.
    induction l as [|y l IH]; intros H; cbn [insert_keyed]; [repeat constructor|]. apply StronglySorted_inv in H as HS. destruct HS as [H1 H2]. destruct (fst y <? fst x)%nat eqn:E.
    - apply Nat.ltb_lt in E. constructor; [auto|]. apply Forall_forall. intros z Hz. apply (Permutation_in _ (insert_keyed_perm x l)) in Hz. destruct Hz as [<-|Hz]; [unfold keyed_le; lia|].
      rewrite Forall_forall in H2. auto.
    - apply Nat.ltb_ge in E. constructor; [exact H|]. constructor; [exact E|]. eapply Forall_impl; [|exact H2]. intros z. unfold keyed_le. lia.
  Qed.
  Lemma sort_keyed_sorted l : StronglySorted keyed_le (fold_right (insert_keyed Op) [] l).
  Proof. induction l as [|x l IH]; cbn [fold_right]; [constructor|]. now apply insert_keyed_sorted. Qed.
  Lemma mapM_combine {A B} (f : A -> res B) l ks : mapM f l = Ok ks -> forall k x, In (k, x) (combine ks l) -> f x = Ok k.
  Proof.
    revert ks. induction l as [|y l IH]; intros ks H k x Hin; cbn [mapM] in H; [injection H as <-; destruct Hin|]. destruct (f y) as [k0|] eqn:E; [|discriminate]. cbn [rbind] in H.
    destruct (mapM f l) as [ys|] eqn:E2; [|discriminate]. cbn [rbind] in H. injection H as <-. cbn [combine] in Hin. destruct Hin as [[= <- <-]|Hin]; [exact E|eauto].
  Qed.
  Lemma enum_from_nth {A} (l : list A) n k x : In (k, x) (combine (seq n (length l)) l) -> exists i, k = (n + i)%nat /\ nth_error l i = Some x.
  Proof.
    revert n. induction l as [|y l IH]; intros n H; [destruct H|]. cbn [length seq combine] in H. destruct H as [[= <- <-]|H]; [exists 0%nat; split; [lia|reflexivity]|].
    destruct (IH _ H) as (i & -> & Hi). exists (S i). split; [lia|exact Hi].
  Qed.
  Lemma post_index_nth posts (x : asg) k : post_index Op posts x = Ok k -> nth_error posts k = Some (fst x).
  Proof.
    unfold post_index. destruct (find _ (enum posts)) as [[i s]|] eqn:E; [|discriminate]. intros [= <-]. apply find_some in E. destruct E as [Hin Hs]. cbn [fst snd] in *.
    apply name_eqb_eq in Hs. subst s. unfold enum in Hin. destruct (enum_from_nth _ _ _ _ Hin) as (j & -> & Hj). exact Hj.
  Qed.
  Lemma sort_rules_sorted posts l l' : sort_rules Op posts l = Ok l' -> NoDup (map fst l) -> forall l1 x l2 y, l' = l1 ++ x :: l2 -> In y l2 -> before posts (fst x) (fst y).
  Proof.
    intros H HN. pose proof (sort_rules_perm _ _ _ H) as HP. unfold sort_rules in H. destruct (mapM _ l) as [ks|] eqn:E; [|discriminate]. cbn [rbind] in H. injection H as <-.
    intros l1 x l2 y Eq Hy. apply map_eq_app in Eq. destruct Eq as (m1 & m2 & Em & <- & E2). destruct m2 as [|[kx x'] m2]; [discriminate|]. cbn [map snd] in E2. injection E2 as -> <-.
    apply in_map_iff in Hy. destruct Hy as ([ky y'] & <- & Hy). cbn [snd].
    assert (HS := sort_keyed_sorted (combine ks l)). rewrite Em in HS.
    assert (Hle : (kx <= ky)%nat).
    { clear - HS Hy. induction m1 as [|z m1 IH]; cbn [app] in HS; apply StronglySorted_inv in HS; destruct HS as [HS HF]; [|auto]. rewrite Forall_forall in HF. exact (HF _ Hy). }
    assert (Hin : forall k z, In (k, z) (m1 ++ (kx, x) :: m2) -> nth_error posts k = Some (fst z)).
    { intros k z Hz. rewrite <- Em in Hz. apply (Permutation_in _ (sort_keyed_perm _)) in Hz. apply post_index_nth. exact (mapM_combine _ _ _ E _ _ Hz). }
    exists kx, ky. assert (Nx : nth_error posts kx = Some (fst x)) by (apply Hin; apply in_app_iff; right; now left).
    assert (Ny : nth_error posts ky = Some (fst y')) by (apply Hin; apply in_app_iff; right; now right).
    split; [|auto]. assert (Hne : kx <> ky).
    { intros ->. assert (Exy : fst x = fst y') by congruence. assert (HN' : NoDup (map fst (map snd (m1 ++ (ky, x) :: m2)))) by (rewrite <- Em; eapply Permutation_NoDup; [|exact HN]; now apply Permutation_map).
      rewrite map_app, map_app in HN'. cbn [map snd] in HN'. apply NoDup_app_r in HN'. apply NoDup_cons_iff in HN'. destruct HN' as [HN' _]. apply HN'. apply in_map_iff. exists y'. split; [auto|]. apply in_map_iff. exists (ky, y'). auto. }
    lia.
  Qed.

  (* ---- the pass ---- *)
  Lemma combine_fst {A B} (l : list A) (m : list B) : map fst (combine l m) = firstn (length m) l.
  Proof. revert m. induction l as [|x l IH]; intros [|y m]; cbn [length combine map fst firstn]; try reflexivity. now rewrite IH. Qed.
  Lemma combine_snd_nodup {A B} (l : list A) (m : list B) : NoDup m -> NoDup (map snd (combine l m)).
  Proof.
    revert m. induction l as [|x l IH]; intros [|y m] H; cbn [combine map snd]; try constructor; apply NoDup_cons_iff in H; destruct H as [H1 H2]; [|auto].
    intros Hin. apply H1. apply in_map_iff in Hin. destruct Hin as ([a b] & <- & Hin). exact (in_combine_r _ _ _ _ Hin).
  Qed.
  Lemma firstn_in {A} n (l : list A) x : In x (firstn n l) -> In x l.
  Proof. intros H. rewrite <- (firstn_skipn n l). apply in_app_iff. now left. Qed.
  (* only the first rules, one per direction, are kept *)
  Definition kept (S : stencil) (a : ac Op) : list asg := firstn (length S) (mains a).
  Lemma cse_result S posts rates a a' : fresh a -> NoDup (map fst (mains a)) -> NoDup S -> (forall r, In r rates -> old_rate (gen a) r) ->
    cse_in_opposing_directions Op K S posts (Some (true, rates)) a = Ok a' ->
    exists st, cse_inv (gen a) st /\ subs a' = subs a ++ defs st /\ gen a' = q_gen Op st /\ Permutation (map fst (kept S a)) (map fst (mains a')) /\
      (forall x', In x' (mains a') -> exists x, In x (kept S a) /\ represents st x x') /\
      (forall l1 x l2 y, mains a' = l1 ++ x :: l2 -> In y l2 -> before posts (fst x) (fst y)).
  Proof.
    intros HF HN HS Hr H. unfold cse_in_opposing_directions in H. set (pairs := combine (mains a) S) in *.
    assert (Ef : map fst pairs = kept S a) by (apply combine_fst).
    assert (HNk : NoDup (map fst (kept S a))). { apply (NoDup_app_l _ (map fst (skipn (length S) (mains a)))). rewrite <- map_app. unfold kept. rewrite firstn_skipn. exact HN. }
    assert (Hv : NoDup (map snd pairs)) by (now apply combine_snd_nodup).
    assert (Hl : NoDup (map (fun p => fst (fst p)) pairs)). { refine (eq_ind_r (fun l => NoDup l) HNk _). rewrite <- Ef. symmetry. exact (map_map fst fst pairs). }
    destruct (cse_loop _ _ _ _ _ _ _) as [[result st]|] eqn:E; [|discriminate]. cbn [rbind] in H. destruct (sort_rules Op posts result) as [sorted|] eqn:E2; [|discriminate]. cbn [rbind] in H. injection H as <-.
    pose proof (rules_of pairs Hv) as HD.
    apply (cse_loop_ok (gen a) rates pairs Hr Hv Hl) in E.
    - destruct E as (E1 & E3 & E4 & E5). exists st. split; [exact E1|]. split; [reflexivity|]. split; [reflexivity|]. cbn [mains].
      pose proof (sort_rules_perm _ _ _ E2) as HP. split; [|split].
      + transitivity (map fst result); [|now apply Permutation_map]. apply NoDup_Permutation; [exact HNk|exact E3|]. intros s. split; intros Hs.
        * apply in_map_iff in Hs. destruct Hs as (x & <- & Hx). rewrite <- Ef in Hx. apply in_map_iff in Hx. destruct Hx as ([x0 c] & <- & Hx). cbn [fst].
          destruct (E4 _ _ Hx) as (x' & Hx' & [<- _]). now apply in_map.
        * apply in_map_iff in Hs. destruct Hs as (x' & <- & Hx'). destruct (E5 x' Hx') as (x & c & Hx & [-> _]). apply in_map. rewrite <- Ef. apply in_map_iff. exists (x, c). auto.
      + intros x' Hx'. apply (Permutation_in _ (Permutation_sym HP)) in Hx'. destruct (E5 x' Hx') as (x & c & Hx & Hrep). exists x. split; [|exact Hrep]. rewrite <- Ef. apply in_map_iff. exists (x, c). auto.
      + intros l1 x l2 y Eq Hy. exact (sort_rules_sorted _ _ _ E2 E3 l1 x l2 y Eq Hy).
    - intros r c Hin k Hk. apply HF. right. exists r. split; [|exact Hk]. apply in_app_iff. right. apply (firstn_in (length S)). fold (kept S a). rewrite <- Ef. apply in_map_iff. exists (r, c). auto.
    - constructor.
      + constructor; [cbn [q_gen]; lia|constructor|intros s x []].
      + intros r c Hg. now apply HD.
      + auto.
      + exact Hv.
      + intros r c Hin Hg. apply HD in Hin. congruence.
      + auto.
      + intros r' [].
      + constructor.
  Qed.
  Lemma cse_clean S posts rates a a' (bad : name -> Prop) : (forall k, bad (Xi k) -> (k < gen a)%nat) -> NoDup S -> (forall r, In r rates -> ~ bad r) ->
    (forall d, In d (mains a) -> clean bad (snd d)) -> cse_in_opposing_directions Op K S posts (Some (true, rates)) a = Ok a' ->
    exists st, subs a' = subs a ++ defs st /\ (forall d, In d (defs st) -> clean bad (snd d)) /\ forall d, In d (mains a') -> clean bad (snd d).
  Proof.
    intros Hxi HS Hr Hm H. unfold cse_in_opposing_directions in H. set (pairs := combine (mains a) S) in *.
    destruct (cse_loop _ _ _ _ _ _ _) as [[result st]|] eqn:E; [|discriminate]. cbn [rbind] in H. destruct (sort_rules Op posts result) as [sorted|] eqn:E2; [|discriminate]. cbn [rbind] in H. injection H as <-.
    assert (Hp : forall r c, In (r, c) pairs -> clean bad (snd r)) by (intros r c Hin; apply Hm; exact (in_combine_l _ _ _ _ Hin)).
    apply (cse_loop_clean (gen a) bad Hxi rates Hr) in E; auto.
    - destruct E as [HC HR]. exists st. split; [reflexivity|]. split; [now apply (clean_defs (gen a))|]. cbn [mains]. intros d Hd. apply HR. eapply Permutation_in; [symmetry; eapply sort_rules_perm; exact E2|exact Hd].
    - intros r c Hg. apply (rules_of pairs (combine_snd_nodup _ _ HS)) in Hg. eauto.
    - intros r [].
    - split; [cbn [q_gen]; lia|]. split; [intros d []|intros q r k []].
  Qed.
End P.
