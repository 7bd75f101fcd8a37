(* Proofs about configurations. *)
From Coq Require Import String List Bool Arith Lia.
From Verif Require Import StencilModel AccessModel CollModel ConfigModel ConfigSpec.
Import ListNotations.

Lemma compatible_spec s m : compatible s m = true <-> collides_in m s.
Proof. split; [destruct s, m; cbn; intros H; try discriminate; constructor|intros []; reflexivity]. Qed.
Lemma sget_method s m : sget s method_names = Some m <-> In (s, m) method_names.
Proof.
  split.
  - unfold sget. destruct (find _ _) as [p|] eqn:F; [|discriminate]. intros [= <-]. apply find_some in F as [F1 F2]. apply String.eqb_eq in F2. subst. now destruct p.
  - intros H. cbn in H. repeat (destruct H as [H|H]; [injection H as <- <-; reflexivity|]). destruct H.
Qed.
Lemma names_known s : existsb (String.eqb s) force_model_names = true <-> In s force_model_names.
Proof.
  rewrite existsb_exists. split; [intros (x & Hx & E); apply String.eqb_eq in E; now subst|intros H; exists s; split; [exact H|apply String.eqb_refl]].
Qed.
Lemma names_dict s : In s force_model_names -> exists c, sget (lower s) force_model_dict = Some c.
Proof. intros H. cbn in H. repeat (destruct H as [<-|H]; [eexists; reflexivity|]). destruct H. Qed.

Section P.
  Context (E : Type) (omega : E) (magic : E -> E) (nonzero : E -> bool) (scale : E -> E) (other : Type).
  Local Notation config := (config E other).
  Local Notation post_init := (post_init E omega magic nonzero scale other).
  Implicit Type c : config.

  Lemma resolve_method_spec a m : resolve_method a = Ok m <-> match a with MEnum m' => m' = m | MStr s => In (upper s, m) method_names end.
  Proof.
    destruct a as [m'|s]; cbn [resolve_method]; [split; [now intros [= ->]|now intros ->]|]. rewrite <- sget_method.
    destruct (sget _ _); split; congruence.
  Qed.
  Lemma resolve_method_err a e : resolve_method a = Err e -> e = KeyError.
  Proof. destruct a; cbn; [discriminate|]. destruct (sget _ _); congruence. Qed.

  Lemma cumulant_spec m : method_in m [MONOMIAL_CUMULANT; CUMULANT] = true <-> is_cumulant m.
  Proof. unfold is_cumulant. destruct m; cbn; split; try discriminate; try tauto; intros [H|H]; discriminate. Qed.
  Lemma resolve_delta_ok m zc d : (exists b, resolve_delta m zc d = Ok b) <-> (d = Some true -> zc = true /\ ~ is_cumulant m).
  Proof.
    unfold resolve_delta. destruct d as [[|]|].
    - pose proof (cumulant_spec m) as C. destruct zc; cbn [negb].
      + destruct (method_in m _); split.
        * intros [b [=]].
        * intros H. destruct (H eq_refl) as [_ N]. exfalso. apply N, C. reflexivity.
        * intros _ _. split; [reflexivity|]. intros I. apply C in I. discriminate.
        * eauto.
      + split; [intros [b [=]]|intros H; destruct (H eq_refl); discriminate].
    - split; [discriminate|eauto].
    - split; [discriminate|]. intros _. destruct zc; [destruct (method_in m _)|]; eauto.
  Qed.
  Lemma resolve_delta_err m zc d e : resolve_delta m zc d = Err e -> e = ValueError.
  Proof. unfold resolve_delta. destruct d as [[|]|]; [destruct (negb zc); [congruence|]; destruct (method_in _ _); congruence|discriminate|]. destruct zc; [destruct (method_in _ _)|]; discriminate. Qed.
  Lemma space_eqb_eq a b : space_eqb a b = true <-> a = b.
  Proof. destruct a, b; cbn; split; congruence. Qed.
  Lemma resolve_space_given m ent fluc s t : resolve_space m ent fluc (Some (CSInfo s)) = Ok t <->
    t = s /\ collides_in m s /\ (ent = true \/ fluc = true -> s = POPULATIONS).
  Proof.
    cbn. destruct ((ent || fluc) && negb (space_eqb s POPULATIONS)) eqn:B.
    - split; [discriminate|]. intros (_ & _ & H). apply andb_prop in B as [B1 B2]. apply orb_prop in B1. rewrite H in B2 by assumption. discriminate.
    - rewrite <- compatible_spec. destruct (compatible s m); cbn; (split; [|]).
      + intros [= <-]. repeat split. intros H. apply andb_false_iff in B as [B|B].
        * apply orb_false_iff in B as [-> ->]. destruct H; discriminate.
        * apply negb_false_iff, space_eqb_eq in B. exact B.
      + intros (-> & _). reflexivity.
      + discriminate.
      + intros (_ & X & _). discriminate.
  Qed.
  Lemma resolve_space_enum m ent fluc s : resolve_space m ent fluc (Some (CSEnum s)) = resolve_space m ent fluc (Some (CSInfo s)).
  Proof. reflexivity. Qed.
  Lemma resolve_space_default m ent fluc : resolve_space m ent fluc None = Ok (if ent || fluc then POPULATIONS else default_space m).
  Proof. destruct m, ent, fluc; reflexivity. Qed.
  Lemma resolve_space_err m ent fluc s e : resolve_space m ent fluc s = Err e -> e = ValueError.
  Proof.
    destruct s as [[s|s]|]; [| |rewrite resolve_space_default; discriminate]; cbn; destruct (_ && _); try congruence; destruct (negb _); congruence.
  Qed.

  Lemma instantiate_ok D fm F : (exists x, instantiate E D fm F = Ok x) <->
    match fm with Some (FMStr _ s) => In (upper s) force_model_names | Some (FMEnum _ n) => exists cl, sget (lower n) force_model_dict = Some cl | _ => True end.
  Proof.
    unfold instantiate. destruct fm as [[s|n|cl F']|]; try (split; [tauto|eauto]).
    - destruct (existsb (String.eqb (upper s)) force_model_names) eqn:K.
      + apply names_known in K. destruct (names_dict _ K) as [cl ->]. split; [auto|eauto].
      + split; [intros [x [=]]|]. intros H. apply names_known in H. congruence.
    - destruct (sget (lower n) force_model_dict); split; eauto; try (intros [x [=]]); intros [cl [=]].
  Qed.
  Lemma instantiate_err D fm F e : instantiate E D fm F = Err e -> e = KeyError.
  Proof.
    unfold instantiate. destruct fm as [[s|n|cl F']|]; try discriminate.
    - destruct (existsb _ _); [destruct (sget _ _)|]; congruence.
    - destruct (sget _ _); congruence.
  Qed.
  Lemma instantiate_default D m fm F F' : instantiate E D (default_model E nonzero D m fm F) F' =
    match fm with None => Ok (default_model E nonzero D m None F) | _ => instantiate E D fm F' end.
  Proof. unfold default_model. destruct fm as [x|]; [reflexivity|]. destruct (existsb nonzero F); reflexivity. Qed.

  (* accepted iff consistent *)
  Lemma post_init_ok c : enum_ok c -> ((exists c', post_init c = Ok c') <-> exists m, consistent c m).
  Proof.
    intros He. unfold ConfigModel.post_init. destruct (resolve_method (method _ _ c)) as [m|e] eqn:Hm; cbn [rbind].
    2:{ split; [intros [c' [=]]|]. intros (m & Hm' & _). unfold method_is in Hm'. apply resolve_method_spec in Hm'. congruence. }
    pose proof (proj1 (resolve_method_spec _ _) Hm) as Hm'.
    assert (U : forall m', consistent c m' -> m' = m).
    { intros m' [H' _]. unfold method_is in H'. apply resolve_method_spec in H'. congruence. }
    assert (W : (exists m', consistent c m') <-> consistent c m) by (split; [intros [m' H]; now rewrite <- (U m' H)|eauto]). rewrite W. clear W U.
    pose proof (cumulant_spec m) as C.
    destruct (negb (compressible _ _ c) && method_in m [MONOMIAL_CUMULANT; CUMULANT]) eqn:B1.
    { split; [intros [c' [=]]|]. intros (_ & H & _). apply andb_prop in B1 as [B1 B2]. apply C in B2. rewrite (H B2) in B1. discriminate. }
    destruct (zero_centered _ _ c && entropic _ _ c) eqn:B2.
    { split; [intros [c' [=]]|]. intros (_ & _ & H & _). apply andb_prop in B2. tauto. }
    destruct (resolve_delta m (zero_centered _ _ c) (delta_equilibrium _ _ c)) as [dl|e] eqn:Hd; cbn [rbind].
    2:{ split; [intros [c' [=]]|]. intros (_ & _ & _ & H & _). apply resolve_delta_ok in H as [b H]. congruence. }
    destruct (resolve_space m (entropic _ _ c) (fluctuating _ _ c) (collision_space_info _ _ c)) as [s|e] eqn:Hs; cbn [rbind].
    2:{ split; [intros [c' [=]]|]. intros (_ & _ & _ & _ & H & _). destruct (collision_space_info _ _ c) as [[s|s]|] eqn:G.
        - destruct (H s (or_introl G)) as [H1 H2]. rewrite resolve_space_enum in Hs. rewrite (proj2 (resolve_space_given m _ _ s s) (conj eq_refl (conj H1 H2))) in Hs. discriminate.
        - destruct (H s (or_intror G)) as [H1 H2]. rewrite (proj2 (resolve_space_given m _ _ s s) (conj eq_refl (conj H1 H2))) in Hs. discriminate.
        - rewrite resolve_space_default in Hs. discriminate. }
    destruct (resolve_kernel _ _ _) as [[k p] t]. rewrite instantiate_default.
    assert (Hrest : consistent c m <-> known_force_model c).
    { split; [intros H; apply H|]. intros Hk. split; [exact Hm'|]. split; [|split; [|split; [|split; [|exact Hk]]]].
      - intros Hc. apply C in Hc. rewrite Hc, andb_true_r in B1. now apply negb_false_iff in B1.
      - intros [Z1 Z2]. rewrite Z1, Z2 in B2. discriminate.
      - apply resolve_delta_ok. eauto.
      - intros s' [G|G]; rewrite G in Hs; [rewrite resolve_space_enum in Hs|]; apply resolve_space_given in Hs as (-> & H1 & H2); auto. }
    rewrite Hrest. unfold known_force_model. unfold enum_ok in He. destruct (fmodel _ _ c) as [[x|x|cl F']|].
    - destruct (instantiate _ _ _ _) as [y|e] eqn:G; cbn [rbind].
      + split; [|eauto]. intros _. apply (instantiate_ok (dim _ _ c) (Some (FMStr _ x)) (psm_force E scale (psm_fraction _ _ c) (force_tuple E (dim _ _ c) (force _ _ c)))). eauto.
      + split; [intros [c' [=]]|]. intros H. eapply (instantiate_ok (dim _ _ c) (Some (FMStr _ x))) in H as [y H]. rewrite G in H. discriminate.
    - destruct (proj2 (instantiate_ok (dim _ _ c) (Some (FMEnum _ x)) (psm_force E scale (psm_fraction _ _ c) (force_tuple E (dim _ _ c) (force _ _ c)))) (names_dict _ He)) as [y ->].
      cbn [rbind]. split; eauto.
    - cbn. split; eauto.
    - cbn [rbind]. split; eauto.
  Qed.
  Lemma post_init_err c e : post_init c = Err e -> e = KeyError \/ e = ValueError.
  Proof.
    unfold ConfigModel.post_init. destruct (resolve_method _) as [m|e'] eqn:Hm; cbn [rbind]; [|intros [= <-]; left; eapply resolve_method_err; eauto].
    destruct (_ && _); [intros [= <-]; auto|]. destruct (_ && _); [intros [= <-]; auto|].
    destruct (resolve_delta _ _ _) as [dl|e'] eqn:Hd; cbn [rbind]; [|intros [= <-]; right; eapply resolve_delta_err; eauto].
    destruct (resolve_space _ _ _ _) as [s|e'] eqn:Hs; cbn [rbind]; [|intros [= <-]; right; eapply resolve_space_err; eauto].
    destruct (resolve_kernel _ _ _) as [[k p] t]. destruct (instantiate _ _ _ _) as [f|e'] eqn:Hi; cbn [rbind]; [discriminate|]. intros [= <-]. left. eapply instantiate_err; eauto.
  Qed.

  (* the parts of a successful normalisation *)
  Lemma post_init_inv c c' : post_init c = Ok c' -> exists m dl s k p t fm,
    resolve_method (method _ _ c) = Ok m /\
    (negb (compressible _ _ c) && method_in m [MONOMIAL_CUMULANT; CUMULANT] = false) /\ (zero_centered _ _ c && entropic _ _ c = false) /\
    resolve_delta m (zero_centered _ _ c) (delta_equilibrium _ _ c) = Ok dl /\
    resolve_space m (entropic _ _ c) (fluctuating _ _ c) (collision_space_info _ _ c) = Ok s /\
    resolve_kernel (kernel_type _ _ c) (streaming_pattern _ _ c) (step _ _ c) = (k, p, t) /\
    instantiate E (dim _ _ c) (default_model E nonzero (dim _ _ c) m (fmodel _ _ c) (force_tuple E (dim _ _ c) (force _ _ c)))
      (psm_force E scale (psm_fraction _ _ c) (force_tuple E (dim _ _ c) (force _ _ c))) = Ok fm /\
    c' = mkC E other (dim _ _ c) (MEnum m) (fst (resolve_rates E omega magic m (relaxation_rates _ _ c) (relaxation_rate _ _ c)))
           (snd (resolve_rates E omega magic m (relaxation_rates _ _ c) (relaxation_rate _ _ c))) (compressible _ _ c) (zero_centered _ _ c) (Some dl)
           (match maxwellian_moments _ _ c with Some b => b | None => continuous_equilibrium _ _ c end) (maxwellian_moments _ _ c) fm
           (FTuple E (psm_force E scale (psm_fraction _ _ c) (force_tuple E (dim _ _ c) (force _ _ c)))) (Some (CSInfo s)) (entropic _ _ c) (fluctuating _ _ c)
           (psm_fraction _ _ c) (velocity_input _ _ c) (density_input _ _ c) (conserved_moments _ _ c && negb (density_input _ _ c || velocity_input _ _ c)) k p t (rest _ _ c).
  Proof.
    unfold ConfigModel.post_init. destruct (resolve_method _) as [m|e'] eqn:Hm; cbn [rbind]; [|discriminate].
    destruct (_ && _) eqn:B1; [discriminate|]. destruct (zero_centered _ _ c && _) eqn:B2; [discriminate|].
    destruct (resolve_delta _ _ _) as [dl|e'] eqn:Hd; cbn [rbind]; [|discriminate].
    destruct (resolve_space _ _ _ _) as [s|e'] eqn:Hs; cbn [rbind]; [|discriminate].
    destruct (resolve_kernel _ _ _) as [[k p] t] eqn:Hk. destruct (instantiate _ _ _ _) as [f|e'] eqn:Hi; cbn [rbind]; [|discriminate].
    intros [= <-]. exists m, dl, s, k, p, t, f. auto 10.
  Qed.

  (* second normalisation *)
  Lemma resolve_delta_again m zc d dl : resolve_delta m zc d = Ok dl -> resolve_delta m zc (Some dl) = Ok dl.
  Proof.
    unfold resolve_delta. destruct d as [[|]|].
    - destruct zc; cbn [negb]; [|discriminate]. destruct (method_in m [MONOMIAL_CUMULANT; CUMULANT]) eqn:M; [discriminate|]. intros [= <-]. reflexivity.
    - now intros [= <-].
    - destruct zc; [|now intros [= <-]]. destruct m; cbn; now intros [= <-].
  Qed.
  (* the default space contradicts the method: relaxation forced to population space *)
  Definition forced_populations (m : lb_method_name) c : Prop :=
    (entropic _ _ c = true \/ fluctuating _ _ c = true) /\ collision_space_info _ _ c = None /\ (m = CENTRAL_MOMENT \/ is_cumulant m).
  Lemma default_space_collides m : collides_in m (default_space m).
  Proof. destruct m; constructor. Qed.
  Lemma populations_ok m : ~ (m = CENTRAL_MOMENT \/ is_cumulant m) -> collides_in m POPULATIONS.
  Proof. unfold is_cumulant. destruct m; intros H; try constructor; exfalso; apply H; tauto. Qed.
  Lemma populations_bad m : (m = CENTRAL_MOMENT \/ is_cumulant m) -> ~ collides_in m POPULATIONS.
  Proof. unfold is_cumulant. intros [->|[->| ->]] H; inversion H. Qed.
  Lemma resolve_space_again m c s : resolve_space m (entropic _ _ c) (fluctuating _ _ c) (collision_space_info _ _ c) = Ok s ->
    ~ forced_populations m c -> resolve_space m (entropic _ _ c) (fluctuating _ _ c) (Some (CSInfo s)) = Ok s.
  Proof.
    intros H N. apply resolve_space_given. split; [reflexivity|]. destruct (collision_space_info _ _ c) as [[x|x]|] eqn:G.
    - rewrite resolve_space_enum in H. apply resolve_space_given in H as (-> & H). exact H.
    - apply resolve_space_given in H as (-> & H). exact H.
    - rewrite resolve_space_default in H. injection H as <-. unfold forced_populations in N. rewrite G in N.
      destruct (entropic _ _ c), (fluctuating _ _ c); cbn [orb].
      1-3: split; [apply populations_ok; intros X; apply N; repeat split; tauto|auto].
      split; [apply default_space_collides|intros [X|X]; discriminate].
  Qed.
  Lemma resolve_space_again_bad m c s : resolve_space m (entropic _ _ c) (fluctuating _ _ c) (collision_space_info _ _ c) = Ok s ->
    forced_populations m c -> resolve_space m (entropic _ _ c) (fluctuating _ _ c) (Some (CSInfo s)) = Err ValueError.
  Proof.
    intros H (Hef & G & Hm). rewrite G, resolve_space_default in H. injection H as <-.
    assert (B : entropic _ _ c || fluctuating _ _ c = true) by (destruct Hef as [-> | ->]; [reflexivity|apply orb_true_r]). rewrite B. cbn [resolve_space].
    rewrite B. cbn [space_eqb negb andb]. destruct (compatible POPULATIONS m) eqn:K; [|reflexivity]. apply compatible_spec in K. exfalso. eapply populations_bad; eassumption.
  Qed.
  Lemma resolve_kernel_again k p t k' p' t' : resolve_kernel k p t = (k', p', t') -> resolve_kernel k' p' t' = (k', p', t').
  Proof.
    unfold resolve_kernel. destruct k as [s|]; [|now intros [= <- <- <-]]. destruct (sget s _) as [[p0 t0]|] eqn:G.
    - intros [= <- <- <-]. reflexivity.
    - intros [= <- <- <-]. now rewrite G.
  Qed.
  Lemma resolve_rates_again m rs r : let rr := resolve_rates E omega magic m rs r in resolve_rates E omega magic m (fst rr) (snd rr) = rr.
  Proof. unfold resolve_rates. destruct rs as [rs|], r as [w|]; reflexivity. Qed.
  Lemma resolve_rates_single m rs w : resolve_rates E omega magic m rs (Some w) = resolve_rates E omega magic m None (Some w).
  Proof. destruct rs; reflexivity. Qed.
  Lemma resolve_rates_some m rs r : exists x, fst (resolve_rates E omega magic m rs r) = Some x.
  Proof. unfold resolve_rates. destruct rs as [rs|], r as [w|]; eexists; reflexivity. Qed.
  Lemma instantiate_inv D m fm0 F F' fm : instantiate E D (default_model E nonzero D m fm0 F) F' = Ok fm ->
    (fm = None /\ fm0 = None /\ existsb nonzero F = false) \/ exists cl G, fm = Some (FMInst E cl G).
  Proof.
    rewrite instantiate_default. destruct fm0 as [[s|n|cl G]|].
    - unfold instantiate. destruct (existsb _ _); [|discriminate]. destruct (sget _ _); [|discriminate]. intros [= <-]. eauto.
    - unfold instantiate. destruct (sget _ _); [|discriminate]. intros [= <-]. eauto.
    - cbn. intros [= <-]. eauto.
    - cbn. destruct (existsb nonzero F) eqn:X; intros [= <-]; eauto.
  Qed.

  Definition again c : Prop := psm_fraction _ _ c = false \/ map scale (force_tuple E (dim _ _ c) (force _ _ c)) = force_tuple E (dim _ _ c) (force _ _ c).
  Lemma post_init_again c c' m : post_init c = Ok c' -> method_is c m -> psm_fraction _ _ c = false -> ~ forced_populations m c -> post_init c' = Ok c'.
  Proof.
    intros H Hm' Hp N. apply post_init_inv in H as (m0 & dl & s & k & p & t & fm & Hm & B1 & B2 & Hd & Hs & Hk & Hi & ->).
    unfold method_is in Hm'. apply resolve_method_spec in Hm'. rewrite Hm' in Hm. injection Hm as <-.
    unfold ConfigModel.post_init. cbn [method resolve_method rbind relaxation_rates relaxation_rate compressible zero_centered entropic delta_equilibrium fluctuating collision_space_info
      kernel_type streaming_pattern step dim force fmodel psm_fraction force_tuple maxwellian_moments continuous_equilibrium conserved_moments density_input velocity_input rest].
    rewrite resolve_rates_again, B1, B2, (resolve_delta_again _ _ _ _ Hd). cbn [rbind]. rewrite (resolve_space_again m c s Hs N). cbn [rbind].
    rewrite (resolve_kernel_again _ _ _ _ _ _ Hk). rewrite Hp in *. unfold psm_force in *. 
    assert (Hi2 : instantiate E (dim _ _ c) (default_model E nonzero (dim _ _ c) m fm (force_tuple E (dim _ _ c) (force _ _ c))) (force_tuple E (dim _ _ c) (force _ _ c)) = Ok fm).
    { destruct (instantiate_inv _ _ _ _ _ _ Hi) as [(-> & X0 & X)|(cl & G & ->)]; [|reflexivity]. cbn. now rewrite X. }
    rewrite Hi2. cbn [rbind]. f_equal. f_equal.
    - now destruct (maxwellian_moments _ _ c).
    - rewrite <- andb_assoc. now rewrite andb_diag.
  Qed.

  Lemma post_init_congr (c1 c2 : config) m :
    resolve_method (method _ _ c1) = Ok m -> resolve_method (method _ _ c2) = Ok m ->
    dim _ _ c1 = dim _ _ c2 -> compressible _ _ c1 = compressible _ _ c2 -> zero_centered _ _ c1 = zero_centered _ _ c2 ->
    maxwellian_moments _ _ c1 = maxwellian_moments _ _ c2 -> entropic _ _ c1 = entropic _ _ c2 -> fluctuating _ _ c1 = fluctuating _ _ c2 ->
    psm_fraction _ _ c1 = psm_fraction _ _ c2 -> velocity_input _ _ c1 = velocity_input _ _ c2 -> density_input _ _ c1 = density_input _ _ c2 ->
    rest _ _ c1 = rest _ _ c2 ->
    resolve_rates E omega magic m (relaxation_rates _ _ c1) (relaxation_rate _ _ c1) = resolve_rates E omega magic m (relaxation_rates _ _ c2) (relaxation_rate _ _ c2) ->
    resolve_delta m (zero_centered _ _ c1) (delta_equilibrium _ _ c1) = resolve_delta m (zero_centered _ _ c2) (delta_equilibrium _ _ c2) ->
    resolve_space m (entropic _ _ c1) (fluctuating _ _ c1) (collision_space_info _ _ c1) = resolve_space m (entropic _ _ c2) (fluctuating _ _ c2) (collision_space_info _ _ c2) ->
    match maxwellian_moments _ _ c1 with Some b => b | None => continuous_equilibrium _ _ c1 end = match maxwellian_moments _ _ c2 with Some b => b | None => continuous_equilibrium _ _ c2 end ->
    resolve_kernel (kernel_type _ _ c1) (streaming_pattern _ _ c1) (step _ _ c1) = resolve_kernel (kernel_type _ _ c2) (streaming_pattern _ _ c2) (step _ _ c2) ->
    force_tuple E (dim _ _ c1) (force _ _ c1) = force_tuple E (dim _ _ c2) (force _ _ c2) ->
    instantiate E (dim _ _ c1) (default_model E nonzero (dim _ _ c1) m (fmodel _ _ c1) (force_tuple E (dim _ _ c1) (force _ _ c1)))
      (psm_force E scale (psm_fraction _ _ c1) (force_tuple E (dim _ _ c1) (force _ _ c1))) =
    instantiate E (dim _ _ c2) (default_model E nonzero (dim _ _ c2) m (fmodel _ _ c2) (force_tuple E (dim _ _ c2) (force _ _ c2)))
      (psm_force E scale (psm_fraction _ _ c2) (force_tuple E (dim _ _ c2) (force _ _ c2))) ->
    conserved_moments _ _ c1 && negb (density_input _ _ c1 || velocity_input _ _ c1) = conserved_moments _ _ c2 && negb (density_input _ _ c2 || velocity_input _ _ c2) ->
    post_init c1 = post_init c2.
  Proof.
    intros M1 M2 H1 H2 H3 H4 H5 H6 H7 H8 H9 H10 R Dl Sp Ct Kn F I Cn. unfold ConfigModel.post_init. rewrite M1, M2. cbn [rbind].
    rewrite I, F, R, Dl, Sp, Kn, Ct, Cn, H1, H2, H3, H4, H5, H6, H7, H8, H9, H10. reflexivity.
  Qed.

  Lemma post_init_replace c c' m upd : post_init c = Ok c' -> method_is c m -> psm_fraction _ _ c = false -> ~ forced_populations m c ->
    independent_update c upd -> post_init (upd c') = post_init (upd c).
  Proof.
    intros H Hm' Hp N U. apply post_init_inv in H as (m0 & dl & s & k & p & t & fm & Hm & B1 & B2 & Hd & Hs & Hk & Hi & ->).
    unfold method_is in Hm'. apply resolve_method_spec in Hm'. rewrite Hm' in Hm. injection Hm as <-.
    rewrite Hp in *. unfold psm_force in *.
    assert (Hi2 : instantiate E (dim _ _ c) (default_model E nonzero (dim _ _ c) m fm (force_tuple E (dim _ _ c) (force _ _ c))) (force_tuple E (dim _ _ c) (force _ _ c)) = Ok fm).
    { destruct (instantiate_inv _ _ _ _ _ _ Hi) as [(-> & X0 & X)|(cl & G & ->)]; [|reflexivity]. cbn. now rewrite X. }
    pose proof (resolve_rates_again m (relaxation_rates _ _ c) (relaxation_rate _ _ c)) as RR. cbv zeta in RR.
    pose proof (resolve_delta_again _ _ _ _ Hd) as DD. pose proof (resolve_space_again m c s Hs N) as SS.
    pose proof (resolve_kernel_again _ _ _ _ _ _ Hk) as KK.
    apply (post_init_congr _ _ m); destruct U; cbn [set_rest set_relaxation_rate set_relaxation_rates set_compressible set_delta_equilibrium set_collision_space_info
      set_continuous_equilibrium set_maxwellian_moments set_fmodel set_velocity_input set_density_input set_kernel_type set_streaming_pattern set_step
      method relaxation_rates relaxation_rate compressible zero_centered entropic delta_equilibrium fluctuating collision_space_info
      kernel_type streaming_pattern step dim force fmodel psm_fraction force_tuple maxwellian_moments continuous_equilibrium conserved_moments density_input velocity_input rest resolve_method];
      try assumption; try reflexivity; try congruence; rewrite ?Hp; unfold psm_force; try congruence; try reflexivity.
    all: try (destruct (maxwellian_moments _ _ c); reflexivity).
    all: try (destruct (conserved_moments _ _ c), (density_input _ _ c), (velocity_input _ _ c); reflexivity).
    all: try (match goal with A : kernel_type _ _ _ = KStr _, B : sget _ _ = None |- _ =>
      rewrite A in Hk; cbn [resolve_kernel] in Hk; rewrite B in Hk; injection Hk as <- <- <-; rewrite ?A; cbn [resolve_kernel]; rewrite ?B; reflexivity end).
    all: try (unfold resolve_rates; repeat match goal with A : relaxation_rates _ _ _ = _ |- _ => rewrite A; clear A | A : relaxation_rate _ _ _ = _ |- _ => rewrite A; clear A end;
      cbn; repeat match goal with |- context [match ?x with Some _ => _ | None => _ end] => destruct x end; reflexivity).
    rewrite (resolve_rates_single m (fst _)), (resolve_rates_single m (relaxation_rates _ _ c)). reflexivity.
  Qed.
End P.
