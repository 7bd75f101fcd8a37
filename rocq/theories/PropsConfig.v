(* C30: configuration objects. *)
From Coq Require Import String List Bool Arith Lia.
From Verif Require Import StencilModel AccessModel CollModel ConfigModel ConfigSpec ConfigProofs.
Import ListNotations.
Local Open Scope string_scope.

(* A configuration is accepted iff no two fields contradict each other; otherwise KeyError or ValueError.  E, omega, magic,
   scale: any type of expressions, default rate, formula for the second rate, scaling by the fluid fraction. *)
Theorem C30_accepted : forall (E other : Type) (omega : E) magic nonzero scale (c : config E other), enum_ok c ->
  ((exists c', post_init E omega magic nonzero scale other c = Ok c') <-> exists m, consistent c m) /\
  (forall e, post_init E omega magic nonzero scale other c = Err e -> e = KeyError \/ e = ValueError).
Proof. intros E other omega magic nonzero scale c He. split; [apply post_init_ok; exact He|apply post_init_err]. Qed.
Print Assumptions C30_accepted.

(* How the relaxation rates are resolved. *)
Theorem C30_rates : forall (E other : Type) (omega : E) magic nonzero scale (c c' : config E other) m,
  post_init E omega magic nonzero scale other c = Ok c' -> method_is c m ->
  (forall w, relaxation_rate _ _ c = Some w \/ (relaxation_rate _ _ c = None /\ relaxation_rates _ _ c = None /\ w = omega) ->
     relaxation_rate _ _ c' = Some w /\
     (two_rates m -> relaxation_rates _ _ c' = Some [w; magic w]) /\ (~ two_rates m -> relaxation_rates _ _ c' = Some [w])) /\
  (forall rs, relaxation_rates _ _ c = Some rs -> relaxation_rate _ _ c = None -> relaxation_rates _ _ c' = Some rs /\ relaxation_rate _ _ c' = None).
Proof.
  intros E other omega magic nonzero scale c c' m H Hm. apply post_init_inv in H as (m0 & dl & s & k & p & t & fm & Hm0 & _ & _ & _ & _ & _ & _ & ->).
  unfold method_is in Hm. apply resolve_method_spec in Hm. rewrite Hm in Hm0. injection Hm0 as <-. cbn [relaxation_rate relaxation_rates]. split.
  - intros w Hw. assert (R : resolve_rates E omega magic m (relaxation_rates _ _ c) (relaxation_rate _ _ c) = resolve_rates E omega magic m None (Some w)).
    { destruct Hw as [-> | (-> & -> & ->)]; [apply resolve_rates_single|reflexivity]. }
    rewrite R. split; [reflexivity|]. unfold two_rates. destruct m; cbn; (split; intros X; try reflexivity); try (exfalso; apply X; tauto); exfalso; repeat (destruct X as [X|X]; [discriminate|]); discriminate.
  - intros rs -> ->. split; reflexivity.
Qed.
Print Assumptions C30_rates.

(* Equilibrium, collision space, kernel, inputs; and what is left alone. *)
Theorem C30_resolution : forall (E other : Type) (omega : E) magic nonzero scale (c c' : config E other) m,
  post_init E omega magic nonzero scale other c = Ok c' -> method_is c m ->
  method _ _ c' = MEnum m /\
  (forall b, delta_equilibrium _ _ c = Some b -> delta_equilibrium _ _ c' = Some b) /\
  (delta_equilibrium _ _ c = None ->
     (delta_equilibrium _ _ c' = Some true <-> zero_centered _ _ c = true /\ m <> CENTRAL_MOMENT /\ ~ is_cumulant m) /\ delta_equilibrium _ _ c' <> None) /\
  (forall s, space_given c s -> collision_space_info _ _ c' = Some (CSInfo s)) /\
  (collision_space_info _ _ c = None ->
     collision_space_info _ _ c' = Some (CSInfo (if entropic _ _ c || fluctuating _ _ c then POPULATIONS else default_space m))) /\
  (forall b, maxwellian_moments _ _ c = Some b -> continuous_equilibrium _ _ c' = b) /\
  (maxwellian_moments _ _ c = None -> continuous_equilibrium _ _ c' = continuous_equilibrium _ _ c) /\
  (density_input _ _ c = true \/ velocity_input _ _ c = true -> conserved_moments _ _ c' = false) /\
  (density_input _ _ c = false -> velocity_input _ _ c = false -> conserved_moments _ _ c' = conserved_moments _ _ c) /\
  (dim _ _ c', compressible _ _ c', zero_centered _ _ c', maxwellian_moments _ _ c', entropic _ _ c', fluctuating _ _ c', psm_fraction _ _ c', velocity_input _ _ c', density_input _ _ c', rest _ _ c') =
  (dim _ _ c, compressible _ _ c, zero_centered _ _ c, maxwellian_moments _ _ c, entropic _ _ c, fluctuating _ _ c, psm_fraction _ _ c, velocity_input _ _ c, density_input _ _ c, rest _ _ c).
Proof.
  intros E other omega magic nonzero scale c c' m H Hm. apply post_init_inv in H as (m0 & dl & s & k & p & t & fm & Hm0 & _ & _ & Hd & Hs & _ & _ & ->).
  unfold method_is in Hm. apply resolve_method_spec in Hm. rewrite Hm in Hm0. injection Hm0 as <-. 
  cbn [method delta_equilibrium collision_space_info continuous_equilibrium conserved_moments dim compressible zero_centered maxwellian_moments entropic fluctuating psm_fraction velocity_input density_input rest].
  split; [reflexivity|]. split; [|split; [|split; [|split; [|split; [|split; [|split; [|split; [|reflexivity]]]]]]]].
  - intros b Hb. rewrite Hb in Hd. unfold resolve_delta in Hd. destruct b; [destruct (negb _); [discriminate|]; destruct (method_in _ _); [discriminate|]|]; congruence.
  - intros Hb. rewrite Hb in Hd. split; [|discriminate]. unfold resolve_delta in Hd. unfold is_cumulant.
    destruct (zero_centered _ _ c).
    + destruct m; cbn in Hd; injection Hd as <-; (split; [intros X; try discriminate X; repeat split; try discriminate; intros [Y|Y]; discriminate|intros (_ & A & B); try reflexivity; exfalso; tauto]).
    + injection Hd as <-. split; [discriminate|intros [X _]; discriminate].
  - intros s' [G|G]; rewrite G in Hs; [rewrite resolve_space_enum in Hs|]; apply resolve_space_given in Hs as (-> & _); reflexivity.
  - intros G. rewrite G, resolve_space_default in Hs. now injection Hs as <-.
  - intros b ->. reflexivity.
  - intros ->. reflexivity.
  - intros [-> | ->]; rewrite ?orb_true_r; cbn; apply andb_false_r.
  - intros -> ->. apply andb_true_r.
Qed.
Print Assumptions C30_resolution.

(* Kernel type names of old versions select a streaming pattern and a time step; all others are kept. *)
Theorem C30_kernel_type : forall (E other : Type) (omega : E) magic nonzero scale (c c' : config E other),
  post_init E omega magic nonzero scale other c = Ok c' ->
  (forall s p t, kernel_type _ _ c = KStr s ->
     In (s, p, t) [("stream_pull_collide", "pull", BOTH); ("collide_stream_push", "push", BOTH); ("aa_even", "aa", EVEN); ("aa_odd", "aa", ODD);
                   ("esotwist_even", "esotwist", EVEN); ("esotwist_odd", "esotwist", ODD)] ->
     kernel_type _ _ c' = KStr "default_stream_collide" /\ streaming_pattern _ _ c' = p /\ step _ _ c' = t) /\
  ((forall s, kernel_type _ _ c = KStr s -> ~ In s ["stream_pull_collide"; "collide_stream_push"; "aa_even"; "aa_odd"; "esotwist_even"; "esotwist_odd"]) ->
     kernel_type _ _ c' = kernel_type _ _ c /\ streaming_pattern _ _ c' = streaming_pattern _ _ c /\ step _ _ c' = step _ _ c).
Proof.
  intros E other omega magic nonzero scale c c' H. apply post_init_inv in H as (m0 & dl & s & k & p & t & fm & _ & _ & _ & _ & _ & Hk & _ & ->).
  cbn [kernel_type streaming_pattern step]. split.
  - intros s' p' t' G Hin. rewrite G in Hk. cbn in Hin. repeat (destruct Hin as [Hin|Hin]; [injection Hin as <- <- <-; injection Hk as <- <- <-; auto|]). destruct Hin.
  - intros N. destruct (kernel_type _ _ c) as [s'|]; [|injection Hk as <- <- <-; auto].
    cbn [resolve_kernel] in Hk. destruct (sget s' kernel_type_to_streaming_pattern) as [[p' t']|] eqn:G; [|injection Hk as <- <- <-; auto].
    exfalso. apply (N s' eq_refl). unfold sget in G. destruct (find _ _) as [x|] eqn:F; [|discriminate]. apply find_some in F as [F1 F2]. apply String.eqb_eq in F2. rewrite <- F2.
    cbn in F1. repeat (destruct F1 as [<-|F1]; [cbn; tauto|]). destruct F1.
Qed.
Print Assumptions C30_kernel_type.

(* The force model: an instance is kept; a name gives an instance with the force of the configuration; without a model a
   non-zero force gives Guo's, for the polynomial cumulant method the central moment model. *)
Theorem C30_force_model : forall (E other : Type) (omega : E) magic nonzero scale (c c' : config E other) m,
  post_init E omega magic nonzero scale other c = Ok c' -> method_is c m -> psm_fraction _ _ c = false ->
  let F := match force _ _ c with FTuple _ F => F | FField _ g => map g (seq 0 (dim _ _ c)) end in
  force _ _ c' = FTuple E F /\
  (forall cl G, fmodel _ _ c = Some (FMInst E cl G) -> fmodel _ _ c' = Some (FMInst E cl G)) /\
  (forall name cl, In (name, cl) [("SIMPLE", Simple); ("LUO", Luo); ("GUO", Guo); ("BUICK", Buick); ("SILVA", Buick); ("EDM", EDM); ("KUPERSHTOKH", EDM);
                                  ("HE", He); ("SHANCHEN", ShanChen); ("CENTRALMOMENT", CentralMoment)] ->
     fmodel _ _ c = Some (FMEnum E name) \/ (exists s, fmodel _ _ c = Some (FMStr E s) /\ upper s = name) ->
     fmodel _ _ c' = Some (FMInst E cl (firstn (dim _ _ c) F))) /\
  (fmodel _ _ c = None -> (forall f, In f F -> nonzero f = false) -> fmodel _ _ c' = None) /\
  (fmodel _ _ c = None -> (exists f, In f F /\ nonzero f = true) ->
     (m = CUMULANT -> fmodel _ _ c' = Some (FMInst E CentralMoment (firstn (dim _ _ c) F))) /\
     (m <> CUMULANT -> fmodel _ _ c' = Some (FMInst E Guo (firstn (dim _ _ c) F)))).
Proof.
  intros E other omega magic nonzero scale c c' m H Hm Hp F. apply post_init_inv in H as (m0 & dl & s & k & p & t & fm & Hm0 & _ & _ & _ & _ & _ & Hi & ->).
  unfold method_is in Hm. apply resolve_method_spec in Hm. rewrite Hm in Hm0. injection Hm0 as <-. rewrite Hp in *. unfold psm_force in *.
  change (force_tuple E (dim E other c) (force E other c)) with F in *. cbn [force fmodel]. split; [reflexivity|]. split; [|split; [|split]].
  - intros cl G X. rewrite X in Hi. injection Hi as <-. reflexivity.
  - intros name cl Hin X. assert (Hi' : instantiate E (dim _ _ c) (Some (FMEnum E name)) F = Ok fm).
    { rewrite instantiate_default in Hi. destruct X as [X|(str & X & U)]; rewrite X in Hi; [exact Hi|]. unfold instantiate in Hi. rewrite U in Hi.
      destruct (existsb _ _); [exact Hi|discriminate]. }
    clear -Hin Hi'. cbn in Hin. repeat (destruct Hin as [Hin|Hin]; [injection Hin as <- <-; cbn in Hi'; injection Hi' as <-; reflexivity|]). destruct Hin.
  - intros X Z. rewrite X in Hi. cbn [default_model] in Hi. assert (N : existsb nonzero F = false).
    { destruct (existsb nonzero F) eqn:N; [|reflexivity]. apply existsb_exists in N as (f & Hf & N). rewrite Z in N by exact Hf. discriminate. }
    rewrite N in Hi. injection Hi as <-. reflexivity.
  - intros X Z. rewrite X in Hi. cbn [default_model] in Hi. apply existsb_exists in Z. rewrite Z in Hi. injection Hi as <-.
    split; [intros ->; reflexivity|intros N; destruct m; try reflexivity; congruence].
Qed.
Print Assumptions C30_force_model.

(* Normalisation is idempotent (it runs again in every create_* function): without partially saturated cells and unless an
   entropic or fluctuating method without collision space is combined with central moments or cumulants. *)
Theorem C30_idempotent : forall (E other : Type) (omega : E) magic nonzero scale (c c' : config E other) m,
  post_init E omega magic nonzero scale other c = Ok c' -> method_is c m -> psm_fraction _ _ c = false ->
  (entropic _ _ c = true \/ fluctuating _ _ c = true -> collision_space_info _ _ c = None -> m <> CENTRAL_MOMENT /\ ~ is_cumulant m) ->
  post_init E omega magic nonzero scale other c' = Ok c'.
Proof.
  intros E other omega magic nonzero scale c c' m H Hm Hp N. eapply post_init_again; try eassumption.
  intros (A & B & C). destruct (N A B). destruct C; tauto.
Qed.
Print Assumptions C30_idempotent.

(* In the excluded case the configuration is accepted, but every later use of it fails. *)
Theorem C30_idempotent_spaces_refuted : forall (E other : Type) (omega : E) magic nonzero scale (c c' : config E other) m,
  post_init E omega magic nonzero scale other c = Ok c' -> method_is c m ->
  entropic _ _ c = true \/ fluctuating _ _ c = true -> collision_space_info _ _ c = None -> m = CENTRAL_MOMENT \/ is_cumulant m ->
  post_init E omega magic nonzero scale other c' = Err ValueError.
Proof.
  intros E other omega magic nonzero scale c c' m H Hm A B C. apply post_init_inv in H as (m0 & dl & s & k & p & t & fm & Hm0 & B1 & B2 & Hd & Hs & _ & _ & ->).
  unfold method_is in Hm. apply resolve_method_spec in Hm. rewrite Hm in Hm0. injection Hm0 as <-.
  unfold post_init. cbn [method resolve_method rbind compressible zero_centered entropic delta_equilibrium fluctuating collision_space_info].
  rewrite B1, B2, (resolve_delta_again _ _ _ _ Hd). cbn [rbind]. rewrite (resolve_space_again_bad E other m c s Hs); [reflexivity|]. repeat split; assumption.
Qed.
Print Assumptions C30_idempotent_spaces_refuted.

(* Partially saturated cells: the force is scaled again by every normalisation. *)
Theorem C30_idempotent_psm_refuted : ~ (forall (E other : Type) (omega : E) magic nonzero scale (c c' : config E other),
  post_init E omega magic nonzero scale other c = Ok c' -> post_init E omega magic nonzero scale other c' = Ok c').
Proof.
  intros H.
  set (c := mkC nat unit 2 (MEnum SRT) None None false true None true None None (FTuple nat [2; 2]) None false false true false false true (KStr "default_stream_collide") "pull" BOTH tt).
  specialize (H nat unit 1 (fun x => x) (fun n => negb (Nat.eqb n 0)) (fun n => n + 1) c _ eq_refl). discriminate.
Qed.
Print Assumptions C30_idempotent_psm_refuted.

(* ... but the force model which the method uses is not: it is stable under any number of normalisations. *)
Theorem C30_force_model_stable : forall (E other : Type) (omega : E) magic nonzero scale (c c' c'' : config E other) cl F,
  post_init E omega magic nonzero scale other c = Ok c' -> fmodel _ _ c' = Some (FMInst E cl F) ->
  post_init E omega magic nonzero scale other c' = Ok c'' -> fmodel _ _ c'' = Some (FMInst E cl F).
Proof.
  intros E other omega magic nonzero scale c c' c'' cl F _ G H. apply post_init_inv in H as (m0 & dl & s & k & p & t & fm & _ & _ & _ & _ & _ & _ & Hi & ->).
  rewrite G in Hi. injection Hi as <-. reflexivity.
Qed.
Print Assumptions C30_force_model_stable.

(* With partially saturated cells a force model given by name acts with the scaled force, the default model with the full
   force: leaving the model out is not the same as asking for the default. *)
Theorem C30_psm_default_force_refuted : ~ (forall (E other : Type) (omega : E) magic nonzero scale (c c1 c2 : config E other),
  fmodel _ _ c = None -> method _ _ c = MEnum SRT -> (exists f, force _ _ c = FTuple E [f; f] /\ nonzero f = true) ->
  post_init E omega magic nonzero scale other c = Ok c1 ->
  post_init E omega magic nonzero scale other (set_fmodel (Some (FMEnum E "GUO")) c) = Ok c2 -> fmodel _ _ c1 = fmodel _ _ c2).
Proof.
  intros H.
  set (c := mkC nat unit 2 (MEnum SRT) None None false true None true None None (FTuple nat [2; 2]) None false false true false false true (KStr "default_stream_collide") "pull" BOTH tt).
  specialize (H nat unit 1 (fun x => x) (fun n => negb (Nat.eqb n 0)) (fun n => n + 1) c _ _ eq_refl eq_refl (ex_intro _ 2 (conj eq_refl eq_refl)) eq_refl eq_refl). discriminate.
Qed.
Print Assumptions C30_psm_default_force_refuted.

(* Changing one field of a normalised configuration gives what constructing with that field gives (result or error), for the
   changes listed in [independent_update]. *)
Theorem C30_replace : forall (E other : Type) (omega : E) magic nonzero scale (c c' : config E other) m upd,
  post_init E omega magic nonzero scale other c = Ok c' -> method_is c m -> psm_fraction _ _ c = false ->
  (entropic _ _ c = true \/ fluctuating _ _ c = true -> collision_space_info _ _ c = None -> m <> CENTRAL_MOMENT /\ ~ is_cumulant m) ->
  independent_update c upd ->
  replace E omega magic nonzero scale other upd c' = post_init E omega magic nonzero scale other (upd c).
Proof.
  intros E other omega magic nonzero scale c c' m upd H Hm Hp N U. unfold replace. eapply post_init_replace; try eassumption.
  intros (A & B & C). destruct (N A B). destruct C; tauto.
Qed.
Print Assumptions C30_replace.

(* For the remaining fields it does not. *)
Definition replace_commutes (upd : config nat unit -> config nat unit) : Prop :=
  forall omega magic nonzero scale c c', post_init nat omega magic nonzero scale unit c = Ok c' -> psm_fraction _ _ c = false ->
  replace nat omega magic nonzero scale unit upd c' = post_init nat omega magic nonzero scale unit (upd c).
Notation default_config := (mkC nat unit 2 (MEnum SRT) None None false true None true None None (FTuple nat [0; 0]) None false false false false false true (KStr "default_stream_collide") "pull" BOTH tt).
(* rates: the stored omega wins over new relaxation_rates *)
Theorem C30_replace_rates_refuted : ~ replace_commutes (set_relaxation_rates (Some [3])).
Proof. intros H. specialize (H 1 (fun x => x) (fun n => negb (Nat.eqb n 0)) (fun n => n) default_config _ eq_refl eq_refl). discriminate. Qed.
Print Assumptions C30_replace_rates_refuted.
(* method: the stored collision space is rejected *)
Theorem C30_replace_method_refuted : ~ replace_commutes (set_method (MEnum CENTRAL_MOMENT)).
Proof. intros H. specialize (H 1 (fun x => x) (fun n => negb (Nat.eqb n 0)) (fun n => n) default_config _ eq_refl eq_refl). discriminate. Qed.
Print Assumptions C30_replace_method_refuted.
(* zero_centered: the stored delta_equilibrium is rejected *)
Theorem C30_replace_zero_centered_refuted : ~ replace_commutes (set_zero_centered false).
Proof. intros H. specialize (H 1 (fun x => x) (fun n => negb (Nat.eqb n 0)) (fun n => n) default_config _ eq_refl eq_refl). discriminate. Qed.
Print Assumptions C30_replace_zero_centered_refuted.
(* force: the stored force model keeps the old force *)
Theorem C30_replace_force_refuted : ~ replace_commutes (set_force (FTuple nat [5; 5])).
Proof.
  intros H. specialize (H 1 (fun x => x) (fun n => negb (Nat.eqb n 0)) (fun n => n) (set_force (FTuple nat [2; 2]) default_config) _ eq_refl eq_refl). discriminate.
Qed.
Print Assumptions C30_replace_force_refuted.
(* streaming pattern after an old kernel type name *)
Theorem C30_replace_pattern_refuted : ~ replace_commutes (set_streaming_pattern "push").
Proof.
  intros H. specialize (H 1 (fun x => x) (fun n => negb (Nat.eqb n 0)) (fun n => n) (set_kernel_type (KStr "aa_even") default_config) _ eq_refl eq_refl). discriminate.
Qed.
Print Assumptions C30_replace_pattern_refuted.
(* removing the density input does not restore conserved_moments *)
Theorem C30_replace_inputs_refuted : ~ replace_commutes (set_density_input false).
Proof.
  intros H. specialize (H 1 (fun x => x) (fun n => negb (Nat.eqb n 0)) (fun n => n) (set_density_input true default_config) _ eq_refl eq_refl). discriminate.
Qed.
Print Assumptions C30_replace_inputs_refuted.
(* entropic / fluctuating: the stored moment space is rejected *)
Theorem C30_replace_fluctuating_refuted : ~ replace_commutes (set_fluctuating true).
Proof.
  intros H. specialize (H 1 (fun x => x) (fun n => negb (Nat.eqb n 0)) (fun n => n) (set_method (MEnum MRT) default_config) _ eq_refl eq_refl). discriminate.
Qed.
Print Assumptions C30_replace_fluctuating_refuted.

(* The documentation says relaxation_rate is consulted if relaxation_rates is not given; in fact it always wins. *)
Theorem C30_both_rates_refuted : ~ (forall (omega : nat) magic nonzero scale (c c' : config nat unit) rs,
  post_init nat omega magic nonzero scale unit c = Ok c' -> relaxation_rates _ _ c = Some rs -> relaxation_rates _ _ c' = Some rs).
Proof.
  intros H. specialize (H 1 (fun x => x) (fun n => negb (Nat.eqb n 0)) (fun n => n) (set_relaxation_rates (Some [3; 4]) (set_relaxation_rate (Some 7) default_config)) _ [3; 4] eq_refl eq_refl). discriminate.
Qed.
Print Assumptions C30_both_rates_refuted.

(* ---- create_lb_method ---- *)
(* After normalisation the method is created from the documented rates; too few rates are rejected. *)
Theorem C30_create_method : forall (E other : Type) (omega : E) magic nonzero scale (c c' : config E other) m Q nested symbols rs,
  post_init E omega magic nonzero scale other c = Ok c' -> method_is c m -> relaxation_rates _ _ c' = Some rs ->
  (m = SRT -> forall w rs', rs = w :: rs' -> create_lb_method E other Q nested false symbols c' = Ok (CreateSRT E w)) /\
  (m = TRT -> forall w v rs', rs = w :: v :: rs' -> create_lb_method E other Q nested false symbols c' = Ok (CreateTRT E w v)) /\
  (m = SRT -> rs = [] -> create_lb_method E other Q nested false symbols c' = Err AssertionError) /\
  (m = TRT -> length rs < 2 -> create_lb_method E other Q nested false symbols c' = Err AssertionError) /\
  (m = MRT -> create_lb_method E other Q nested false symbols c' = Ok (CreateMRT E rs (conserved_moments _ _ c'))) /\
  (m = MRT_RAW -> create_lb_method E other Q nested false symbols c' = Ok (CreateMRTRaw E rs (conserved_moments _ _ c'))) /\
  (m = CENTRAL_MOMENT -> create_lb_method E other Q nested false symbols c' = Ok (CreateCentralMoment E rs (conserved_moments _ _ c'))) /\
  (m = MONOMIAL_CUMULANT -> create_lb_method E other Q nested false symbols c' = Ok (CreateMonomialCumulants E rs (conserved_moments _ _ c'))) /\
  (m = CUMULANT -> nested = true -> create_lb_method E other Q nested false symbols c' = Ok (CreateCumulant E rs (conserved_moments _ _ c'))) /\
  (two_rates m -> m <> TRT -> ~ (dim _ _ c = 2 /\ Q = 9) -> ~ (dim _ _ c = 3 /\ Q = 27) -> create_lb_method E other Q nested false symbols c' = Err NotImplementedError) /\
  (relaxation_rate _ _ c <> None \/ relaxation_rates _ _ c = None -> m <> CUMULANT -> (two_rates m -> m <> TRT -> (dim _ _ c = 2 /\ Q = 9) \/ (dim _ _ c = 3 /\ Q = 27)) ->
     exists cr, create_lb_method E other Q nested false symbols c' = Ok cr).
Proof.
  intros E other omega magic nonzero scale c c' m Q nested symbols rs H Hm Hr.
  destruct (C30_resolution _ _ _ _ _ _ _ _ _ H Hm) as (Em & _ & _ & _ & _ & _ & _ & _ & _ & Ed). injection Ed as Ed _ _ _ _ _ _ _ _ _.
  destruct (C30_rates _ _ _ _ _ _ _ _ _ H Hm) as (Hrates & _).
  unfold create_lb_method. rewrite Em, Hr, Ed. repeat split; try (intros ->; try reflexivity).
  - intros w rs' ->. reflexivity.
  - intros w v rs' ->. reflexivity.
  - intros ->. reflexivity.
  - intros L. destruct rs as [|w [|v rs']]; cbn in L; try reflexivity; lia.
  - intros ->. reflexivity.
  - intros T N A B. assert (K : (Nat.eqb (dim _ _ c) 2) && (Nat.eqb Q 9) || (Nat.eqb (dim _ _ c) 3) && (Nat.eqb Q 27) = false).
    { apply orb_false_iff. split; apply andb_false_iff; rewrite !Nat.eqb_neq; lia. }
    unfold two_rates in T. destruct T as [->|[->|[->|[->| ->]]]]; [congruence|rewrite K; reflexivity..].
  - intros X N K.
    assert (Y : exists w, (two_rates m -> rs = [w; magic w]) /\ (~ two_rates m -> rs = [w])).
    { assert (Z : exists w, relaxation_rate _ _ c = Some w \/ (relaxation_rate _ _ c = None /\ relaxation_rates _ _ c = None /\ w = omega)).
      { destruct (relaxation_rate _ _ c) as [w|] eqn:G; [exists w; auto|]. destruct X as [X|X]; [congruence|]. exists omega. auto. }
      destruct Z as [w Z]. destruct (Hrates w Z) as (_ & T1 & T2). exists w. rewrite Hr in T1, T2. split; intros T; [specialize (T1 T)|specialize (T2 T)]; congruence. }
    destruct Y as (w & Y1 & Y2). unfold two_rates in *.
    assert (K2 : m = TRT_KBC_N1 \/ m = TRT_KBC_N2 \/ m = TRT_KBC_N3 \/ m = TRT_KBC_N4 -> (Nat.eqb (dim _ _ c) 2) && (Nat.eqb Q 9) || (Nat.eqb (dim _ _ c) 3) && (Nat.eqb Q 27) = true).
    { intros T. assert (M : m <> TRT) by (intros ->; repeat (destruct T as [T|T]; [discriminate|]); discriminate).
      destruct (K (or_intror T) M) as [[-> ->]|[-> ->]]; reflexivity. }
    destruct m; try (eexists; reflexivity); try (rewrite K2 by tauto; rewrite Y1 by tauto; eexists; reflexivity).
    + rewrite Y2 by (intros T; repeat (destruct T as [T|T]; [discriminate|]); discriminate). eexists; reflexivity.
    + rewrite Y1 by tauto. eexists; reflexivity.
    + congruence.
Qed.
Print Assumptions C30_create_method.

(* conserved_moments is not passed on for the default polynomial cumulants *)
Theorem C30_cumulant_conserved_refuted : ~ (forall (c : config nat unit) Q symbols rs,
  method _ _ c = MEnum CUMULANT -> relaxation_rates _ _ c = Some rs ->
  create_lb_method nat unit Q false false symbols c = Ok (CreateDefaultCumulants nat rs (conserved_moments _ _ c))).
Proof.
  intros H. specialize (H (set_conserved_moments false (set_method (MEnum CUMULANT) (set_relaxation_rates (Some [1]) default_config))) 27 [] [1] eq_refl eq_refl). discriminate.
Qed.
Print Assumptions C30_cumulant_conserved_refuted.

(* the guard of the fourth-order correction lets D3Q19 (and any stencil with 27 velocities or three dimensions) pass *)
Theorem C30_fourth_order_guard_refuted : ~ (forall (c : config nat unit) Q nested symbols rs,
  method _ _ c = MEnum CUMULANT -> relaxation_rates _ _ c = Some rs -> ~ (dim _ _ c = 3 /\ Q = 27) ->
  create_lb_method nat unit Q nested true symbols c = Err ValueError).
Proof.
  intros H. specialize (H (set_dim 3 (set_method (MEnum CUMULANT) (set_relaxation_rates (Some [1]) default_config))) 19 false [] [1] eq_refl eq_refl). 
  assert (X : ~ (3 = 3 /\ 19 = 27)) by lia. specialize (H X). discriminate.
Qed.
Print Assumptions C30_fourth_order_guard_refuted.

(* ---- field access of the kernel ---- *)
Theorem C30_access : forall (E other : Type) (c : config E other) periodicity,
  (kernel_type _ _ c = KStr "collide_only" -> choose_access E other periodicity c = Ok CollideOnly) /\
  (kernel_type _ _ c = KStr "stream_pull_only" -> choose_access E other periodicity c = Ok StreamPullOnly) /\
  (kernel_type _ _ c = KAccessor -> choose_access E other periodicity c = Ok UserAccessor) /\
  (kernel_type _ _ c = KStr "default_stream_collide" ->
     (In true periodicity -> streaming_pattern _ _ c = "pull" -> choose_access E other periodicity c = Ok PeriodicPull) /\
     (~ In true periodicity \/ streaming_pattern _ _ c <> "pull" -> choose_access E other periodicity c = Ok (Pattern (streaming_pattern _ _ c) (step _ _ c)))) /\
  (forall s, kernel_type _ _ c = KStr s -> ~ In s ["collide_only"; "stream_pull_only"; "default_stream_collide"] -> choose_access E other periodicity c = Err ValueError).
Proof.
  intros E other c periodicity. unfold choose_access. split; [intros ->; reflexivity|]. split; [intros ->; reflexivity|]. split; [intros ->; reflexivity|]. split.
  - intros ->. split.
    + intros Hin ->. assert (X : existsb (fun b => b) periodicity = true) by (apply existsb_exists; eauto). rewrite X. reflexivity.
    + intros N. assert (X : (String.eqb (streaming_pattern _ _ c) "pull") && existsb (fun b => b) periodicity = false); [|rewrite X; reflexivity].
      apply andb_false_iff. destruct N as [N|N]; [right|left; apply String.eqb_neq; exact N].
      destruct (existsb _ _) eqn:G; [|reflexivity]. apply existsb_exists in G as (b & Hb & ->). contradiction.
  - intros s -> N. repeat match goal with |- context [String.eqb s ?x] => destruct (String.eqb_spec s x); [exfalso; apply N; subst; cbn; tauto|] end. reflexivity.
Qed.
Print Assumptions C30_access.

(* built-in periodicity is silently ignored by every streaming pattern except pull *)
Theorem C30_periodicity_refuted : ~ (forall (c : config nat unit) periodicity a,
  In true periodicity -> choose_access nat unit periodicity c = Ok a -> kernel_type _ _ c = KStr "default_stream_collide" -> a = PeriodicPull).
Proof.
  intros H. specialize (H (set_streaming_pattern "push" default_config) [true] _ (or_introl eq_refl) eq_refl eq_refl). discriminate.
Qed.
Print Assumptions C30_periodicity_refuted.

(* ---- the hypotheses are met ---- *)
Example C30_default : exists c', post_init nat 1 (fun x => x + 1) (fun n => negb (Nat.eqb n 0)) (fun n => n) unit default_config = Ok c' /\
  relaxation_rates _ _ c' = Some [1] /\ collision_space_info _ _ c' = Some (CSInfo POPULATIONS) /\ delta_equilibrium _ _ c' = Some true.
Proof. eexists. repeat split. Qed.
Example C30_legacy : exists c', post_init nat 1 (fun x => x + 1) (fun n => negb (Nat.eqb n 0)) (fun n => n) unit
    (set_method (MStr "trt") (set_kernel_type (KStr "aa_odd") (set_force (FField nat (fun i => i)) default_config))) = Ok c' /\
  relaxation_rates _ _ c' = Some [1; 2] /\ streaming_pattern _ _ c' = "aa" /\ step _ _ c' = ODD /\ fmodel _ _ c' = Some (FMInst nat Guo [0; 1]).
Proof. eexists. repeat split. Qed.
Example C30_schiller : post_init nat 1 (fun x => x + 1) (fun n => negb (Nat.eqb n 0)) (fun n => n) unit (set_fmodel (Some (FMStr nat "schiller")) default_config) = Err KeyError.
Proof. reflexivity. Qed.
Example C30_entropic_central : exists c', post_init nat 1 (fun x => x + 1) (fun n => negb (Nat.eqb n 0)) (fun n => n) unit
    (set_entropic true (set_zero_centered false (set_method (MEnum CENTRAL_MOMENT) default_config))) = Ok c' /\
  post_init nat 1 (fun x => x + 1) (fun n => negb (Nat.eqb n 0)) (fun n => n) unit c' = Err ValueError.
Proof. eexists. split; reflexivity. Qed.
