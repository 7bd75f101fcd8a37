(* relaxation-rate symbols and force symbols *)
From Coq Require Import String List ZArith Bool Arith Reals Lra Lia DecimalString DecimalNat DecimalFacts.
From Verif Require Import StencilModel RealLib LinLib MomModel MomProofs MacroModel.
Import ListNotations.
Local Open Scope R_scope.

Lemma str_nat_inj n m : str_nat n = str_nat m -> n = m.
Proof.
  intros H. unfold str_nat in H. apply (f_equal NilEmpty.uint_of_string) in H. rewrite !NilEmpty.usu in H. injection H as H.
  now apply Unsigned.to_uint_inj.
Qed.
Lemma rr_symbol_inj n m : rr_symbol n = rr_symbol m -> n = m.
Proof. intros H. apply append_inj_l in H. now apply str_nat_inj. Qed.

Section Rates.
  Variables (K : Type) (keqb : K -> K -> bool) (is_zero : K -> bool) (float_zero : K).
  Hypothesis Hk : forall a b, keqb a b = true <-> a = b.
  Notation step := (symbolic_step K keqb is_zero float_zero).
  Definition norm (k : K) : K := if is_zero k then float_zero else k.
  Definition assigned (env : string -> R) (val : K -> R) (subs : list (K * string)) (s : string) : R :=
    match find (fun e => String.eqb (snd e) s) subs with Some e => val (fst e) | None => env s end.
  Definition rate_value (env : string -> R) (val : K -> R) (r : rate K) : R := match r with RSym s => env s | RVal k => val k end.
  (* symbol of a rate in the final dictionary *)
  Definition symbol_of (subs : list (K * string)) (r : rate K) (s : string) : Prop :=
    match r with RSym s' => s = s' | RVal k => In (norm k, s) subs end.
  Definition inv (subs : list (K * string)) : Prop := (forall i e, nth_error subs i = Some e -> snd e = rr_symbol i) /\ NoDup (map fst subs).
  Lemma find_symbol_spec k subs : match find_symbol K keqb k subs with Some s => In (k, s) subs | None => ~ In k (map fst subs) end.
  Proof.
    unfold find_symbol. destruct (find (fun e => keqb (fst e) k) subs) as [[k' s]|] eqn:E.
    - apply find_some in E as [E1 E2]. apply Hk in E2. cbn in E2. now subst.
    - intros H. apply in_map_iff in H as ([k' s] & <- & Hin). pose proof (find_none _ _ E _ Hin) as F. cbn in F. assert (keqb k' k' = true) by now apply Hk. cbn in *. congruence.
  Qed.
  Lemma symbolic_inv rates : forall st, inv (fst st) ->
    let st' := fold_left step rates st in inv (fst st') /\ incl (fst st) (fst st') /\ exists new, snd st' = snd st ++ new /\ Forall2 (symbol_of (fst st')) rates new.
  Proof.
    induction rates as [|r rates IH]; intros [subs syms] Hi; cbn [fold_left].
    - split; [exact Hi|]. split; [apply incl_refl|]. exists []. split; [now rewrite List.app_nil_r|constructor].
    - assert (S1 : exists subs' s, step (subs, syms) r = (subs', syms ++ [s]) /\ inv subs' /\ incl subs subs' /\ symbol_of subs' r s).
      { destruct r as [s|k]; cbn [symbolic_step fst snd].
        - exists subs, s. repeat split; try apply Hi. apply incl_refl.
        - fold (norm k). pose proof (find_symbol_spec (norm k) subs) as F. destruct (find_symbol K keqb (norm k) subs) as [s|].
          + exists subs, s. repeat split; try apply Hi; [apply incl_refl|exact F].
          + exists (subs ++ [(norm k, rr_symbol (length subs))]), (rr_symbol (length subs)). destruct Hi as [H1 H2]. repeat split.
            * intros i e He. destruct (Nat.lt_ge_cases i (length subs)); [rewrite nth_error_app1 in He by auto; auto|]. rewrite nth_error_app2 in He by auto.
              destruct (i - length subs)%nat as [|j] eqn:Ej; [|destruct j; discriminate]. injection He as <-. cbn [snd]. replace i with (length subs) by lia. reflexivity.
            * rewrite map_app. cbn. apply NoDup_Add with (a := norm k) (l := map fst subs); [rewrite <- (List.app_nil_r (map fst subs)) at 1; apply Add_app|]. now split.
            * apply incl_appl, incl_refl.
            * cbn. apply in_or_app. right. now left. }
      destruct S1 as (subs' & s & -> & I1 & I2 & I3). destruct (IH (subs', syms ++ [s]) I1) as (J1 & J2 & new & J3 & J4). cbn [fst snd] in *.
      split; [exact J1|]. split; [eapply incl_tran; eauto|]. exists (s :: new). split; [rewrite J3, <- List.app_assoc; reflexivity|].
      constructor; [|exact J4]. destruct r as [s'|k]; cbn in *; auto.
  Qed.
  Lemma inv_snd subs k k' s : inv subs -> In (k, s) subs -> In (k', s) subs -> k = k'.
  Proof.
    intros [H1 H2] A B. apply In_nth_error in A as [i A], B as [j B]. pose proof (H1 _ _ A) as E1. pose proof (H1 _ _ B) as E2. cbn in *. rewrite E1 in E2. apply rr_symbol_inj in E2. subst j. congruence.
  Qed.
  Lemma inv_fst subs k s s' : inv subs -> In (k, s) subs -> In (k, s') subs -> s = s'.
  Proof.
    intros [H1 H2] A B. apply In_nth_error in A as [i A], B as [j B]. assert (i = j).
    { rewrite NoDup_nth_error in H2. apply H2; [rewrite map_length; apply nth_error_Some; congruence|]. rewrite (map_nth_error fst _ _ A), (map_nth_error fst _ _ B). reflexivity. }
    subst. congruence.
  Qed.
  Lemma assigned_in env val subs k s : inv subs -> In (k, s) subs -> assigned env val subs s = val k.
  Proof.
    intros Hi Hin. unfold assigned. destruct (find _ subs) as [[k' s']|] eqn:E.
    - apply find_some in E as [E1 E2]. apply String.eqb_eq in E2. cbn in *. subst s'. now rewrite (inv_snd _ _ _ _ Hi E1 Hin).
    - pose proof (find_none _ _ E _ Hin) as F. cbn in F. now rewrite String.eqb_refl in F.
  Qed.
  Lemma assigned_out env val subs s : inv subs -> (forall i, s <> rr_symbol i) -> assigned env val subs s = env s.
  Proof.
    intros [Hi _] Hs. unfold assigned. destruct (find _ subs) as [[k' s']|] eqn:E; [|reflexivity]. apply find_some in E as [E1 E2]. apply String.eqb_eq in E2. cbn in *. subst s'.
    apply In_nth_error in E1 as [i E1]. apply Hi in E1. cbn in E1. exfalso. eapply Hs; eauto.
  Qed.
  Lemma symbolic_main rates : let r := symbolic_rates K keqb is_zero float_zero rates in inv (fst r) /\ Forall2 (symbol_of (fst r)) rates (snd r).
  Proof.
    cbn zeta. destruct (symbolic_inv rates ([], [])) as (H1 & _ & new & H3 & H4).
    { split; [intros [|i] e; discriminate|constructor]. }
    split; [exact H1|]. unfold symbolic_rates. cbn [snd app] in H3. rewrite H3. exact H4.
  Qed.
End Rates.

(* ---- force symbols ---- *)
Section Force.
  Variable env : string -> R.
  Lemma dict_set_find k v d s : find (fun e => String.eqb (fst e) s) (dict_set k v d) = if String.eqb k s then Some (k, v) else find (fun e => String.eqb (fst e) s) d.
  Proof.
    induction d as [|[k' v'] d IH]; cbn [dict_set find fst]; [destruct (String.eqb k s) eqn:E; cbn; now rewrite ?E|].
    destruct (String.eqb_spec k k') as [<-|Hk]; cbn [find fst].
    - destruct (String.eqb k s); reflexivity.
    - destruct (String.eqb_spec k' s) as [->|Hs]; [|exact IH]. destruct (String.eqb_spec k s); [congruence|reflexivity].
  Qed.
  Definition fstep (d : list (string * force_entry)) (p : string * force_entry) :=
    match snd p with FSym s => if String.eqb (fst p) s then d else dict_set (fst p) (snd p) d | FNum _ => dict_set (fst p) (snd p) d end.
  (* symbols whose entries agree *)
  Lemma fold_value l : forall d, (forall k v, In (k, v) l -> (forall v', In (k, v') l -> entry_value env v' = entry_value env v) /\
      (forall e, find (fun e => String.eqb (fst e) k) d = Some e -> entry_value env (snd e) = entry_value env v)) ->
    forall k v, In (k, v) l -> kernel_force_value env (fold_left fstep l d) k = entry_value env v.
  Proof.
    assert (KEEP : forall l d k x, (forall v, In (k, v) l -> entry_value env v = x) -> kernel_force_value env d k = x -> kernel_force_value env (fold_left fstep l d) k = x).
    { clear l. induction l as [|[k' v'] l IH]; intros d k x Hl Hd; [exact Hd|]. cbn [fold_left]. apply IH; [intros v Hv; apply Hl; now right|].
      unfold fstep. cbn [fst snd]. assert (SET : kernel_force_value env (dict_set k' v' d) k = x).
      { unfold kernel_force_value in *. rewrite dict_set_find. destruct (String.eqb_spec k' k) as [->|]; [cbn; apply Hl; now left|exact Hd]. }
      destruct v' as [s|z]; [destruct (String.eqb k' s)|]; auto. }
    induction l as [|[k1 v1] l IH]; intros d H k v Hin; [destruct Hin|]. cbn [fold_left]. destruct Hin as [E|Hin].
    - injection E as -> ->. destruct (H k v (or_introl eq_refl)) as [H1 H2]. apply KEEP; [intros v' Hv'; apply H1; now right|].
      unfold fstep. cbn [fst snd]. assert (SET : kernel_force_value env (dict_set k v d) k = entry_value env v).
      { unfold kernel_force_value. rewrite dict_set_find, String.eqb_refl. reflexivity. }
      destruct v as [s|z]; [|exact SET]. destruct (String.eqb_spec k s) as [<-|]; [|exact SET]. unfold kernel_force_value in *. destruct (find _ d) as [e|] eqn:E; [now apply H2|reflexivity].
    - apply IH; [|exact Hin]. intros k2 v2 Hin2. destruct (H k2 v2 (or_intror Hin2)) as [H1 H2]. split; [intros v' Hv'; apply H1; now right|].
      intros e He. unfold fstep in He. cbn [fst snd] in He.
      assert (SET : find (fun e => String.eqb (fst e) k2) (dict_set k1 v1 d) = Some e -> entry_value env (snd e) = entry_value env v2).
      { rewrite dict_set_find. destruct (String.eqb_spec k1 k2) as [->|]; [intros [= <-]; cbn; apply H1; now left|apply H2]. }
      destruct v1 as [s|z]; [destruct (String.eqb k1 s)|]; auto.
  Qed.
  Lemma force_values force : (length force <= 3)%nat ->
    (forall i s, nth_error force i = Some (FSym s) -> forall j, nth_error FORCE_SYMBOLS j = Some s -> j = i \/ exists s', nth_error force j = Some (FSym s') \/ nth_error force j = None) ->
    map (kernel_force_value env (subs_dict_force force)) (symbolic_force force) = map (entry_value env) force.
  Proof.
    intros Hlen Hc. unfold subs_dict_force. change (fun d p => match snd p with FSym s => _ | FNum _ => _ end) with fstep.
    assert (NE : forall i k v, nth_error (combine (symbolic_force force) force) i = Some (k, v) ->
      nth_error force i = Some v /\ match v with FSym s => k = s | FNum _ => nth_error FORCE_SYMBOLS i = Some k end).
    { unfold symbolic_force. clear Hc. intros i. assert (HL : (length force <= length FORCE_SYMBOLS)%nat) by exact Hlen. clear Hlen.
      revert HL. generalize FORCE_SYMBOLS as fs. revert i. induction force as [|x force IH]; intros i [|f0 fs] HL k v H; cbn in HL, H; try (destruct i; discriminate).
      destruct i as [|i]; cbn in H; [injection H as <- <-; split; [reflexivity|]; destruct x; reflexivity|]. apply (IH i fs); [lia|exact H]. }
    assert (LS : length (symbolic_force force) = length force) by (unfold symbolic_force; rewrite map_length, combine_length; cbn; lia).
    assert (FN : NoDup FORCE_SYMBOLS) by (repeat constructor; cbn; intuition discriminate).
    apply nth_ext with (d := 0) (d' := 0); rewrite !map_length; [exact LS|]. intros i Hi.
    destruct (nth_error (symbolic_force force) i) as [k|] eqn:Ek; [|apply nth_error_None in Ek; lia].
    destruct (nth_error force i) as [v|] eqn:Ev; [|apply nth_error_None in Ev; lia].
    rewrite (nth_error_nth _ _ _ (map_nth_error _ _ _ Ek)), (nth_error_nth _ _ _ (map_nth_error _ _ _ Ev)).
    assert (EC : forall i k v, nth_error (symbolic_force force) i = Some k -> nth_error force i = Some v -> nth_error (combine (symbolic_force force) force) i = Some (k, v)).
    { clear. generalize (symbolic_force force). intros l. revert force. induction l as [|a l IH]; intros [|b f] [|i] k v; cbn; try discriminate; [congruence|apply IH]. }
    apply fold_value with (l := combine (symbolic_force force) force).
    - intros k0 v0 Hin. apply In_nth_error in Hin as [i0 Hi0]. split; [|discriminate]. intros v' Hin'. apply In_nth_error in Hin' as [j Hj].
      destruct (NE _ _ _ Hi0) as [A1 A2], (NE _ _ _ Hj) as [B1 B2]. destruct v0 as [s|z], v' as [s'|z'].
      + congruence.
      + subst s. destruct (Hc i0 k0 A1 j B2) as [->|(s' & [C|C])]; congruence.
      + subst s'. destruct (Hc j k0 B1 i0 A2) as [->|(s' & [C|C])]; congruence.
      + rewrite NoDup_nth_error in FN. assert (i0 = j); [|congruence]. apply FN; [apply nth_error_Some; congruence|congruence].
    - now apply nth_error_In with i, EC.
  Qed.
End Force.
