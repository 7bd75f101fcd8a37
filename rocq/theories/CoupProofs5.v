From Coq Require Import String List ZArith Bool Arith QArith Reals Qreals Lra Lia.
From Verif Require Import RealLib LinLib StencilModel StencilProofs StencilProofs2 EqModel EqSpec EqProofs CollModel CollSpec CollProofs StreamModel GridModel GridProofs ChModel ChSpec ChProofs ChProofs2 CoupModel CoupSpec CoupProofs CoupProofs2 CoupProofs3 CoupProofs4.
Import ListNotations.
Local Open Scope R_scope.

Section Coupled.
  (* periodic domain, predefined stencil with weights, K order parameters, invertible moment matrix, any kernel for the chemical potentials, any hydrodynamic method
     that keeps mass and adds the force, any output of the velocity *)
  Variables (N : list positive) (name ord : string) (S : stencil) (M Minv : mat) (K : nat).
  Hypothesis stencil_ok : predefined_stencils name ord = Ok S.
  Hypothesis weights_ok : has_weights S = true.
  Hypothesis dimension_ok : length N = dimD S.
  Hypothesis inverse_ok : is_inverse (sizeQ S) M Minv.
  Variables (mu_kernel : (cell (torus N) -> list R) -> cell (torus N) -> list R) (hydro : list R -> list R -> res (list R)) (velocity : list R -> list R -> list R).
  Hypothesis mu_ok : forall phi x, length (mu_kernel phi x) = K.
  Variable ok : list R -> Prop.
  Hypothesis hydro_ok : hydro_method S ok hydro.
  Variables (fd : nat -> list (vec * R)) (om ga : per_phase).

  (* initialisation: works when there is a parameter for every phase; the populations hold the given order parameters *)
  Lemma coupled_init_ok : forall rest (phi : cell (torus N) -> list R), covers K ga -> (forall x, length (phi x) = K) -> length rest = sizeQ S ->
    exists st, (forall x, coupled_init S K ga rest phi x = Ok (st x)) /\ (forall x, sized S K (st x)) /\ (forall x, c_phi (st x) = phi x) /\
      (forall x i, (i < K)%nat -> rsum (nth i (c_ch (st x)) []) = nth i (phi x) 0).
  Proof.
    intros rest phi Hg Hp Hr.
    assert (A : forall x : cell (torus N), exists c, coupled_init S K ga rest phi x = Ok c /\ sized S K c /\ c_phi c = phi x /\ forall i, (i < K)%nat -> rsum (nth i (c_ch c) []) = nth i (phi x) 0).
    { intros x. unfold coupled_init.
      assert (B : exists chs, mapM (fun i => rbind (of_phase ga i) (fun ga => rbind (entry (phi x) i) (fun r => ch_equilibrium S 0 ga r (repeat 0 (dimD S))))) (seq 0 K) = Ok chs).
      { apply mapM_ex. intros i Hi. apply in_seq in Hi. destruct (of_phase_ok K ga i Hg ltac:(lia)) as [g ->]. cbn [rbind]. rewrite (entry_ok (phi x) i 0) by (rewrite Hp; lia). cbn [rbind].
        destruct (eq_ok name ord S stencil_ok weights_ok g 0 (nth i (phi x) 0) (repeat 0 (dimD S))) as (f & E & _). eauto. }
      destruct B as [chs B]. rewrite B. cbn [rbind]. eexists. split; [reflexivity|]. destruct (mapM_seq_nth _ _ _ [] B) as [BL BI].
      assert (F : forall i, (i < K)%nat -> length (nth i chs []) = sizeQ S /\ rsum (nth i chs []) = nth i (phi x) 0).
      { intros i Hi. specialize (BI i Hi). apply rbind_inv in BI as (g & _ & BI). rewrite (entry_ok (phi x) i 0) in BI by (rewrite Hp; lia). cbn [rbind] in BI.
        destruct (eq_ok name ord S stencil_ok weights_ok g 0 (nth i (phi x) 0) (repeat 0 (dimD S))) as (f & E & L). rewrite E in BI. injection BI as ->. split; [exact L|].
        destruct (iso_facts name ord S stencil_ok weights_ok) as (ws & Hw & _). rewrite <- (fsum_rsum S) by exact L. exact (ch_density name ord S stencil_ok weights_ok 0 g _ _ ws Hw _ E). }
      cbn [c_phi c_ch]. split; [|split; [reflexivity|intros i Hi; apply F; exact Hi]]. split; cbn [c_phi c_ch c_hyd]; [apply Hp|]. split; [exact BL|]. split; [|exact Hr].
      intros f Hf. apply In_nth with (d := []) in Hf as (i & Hi & <-). apply F. lia. }
    exists (fun x => match coupled_init S K ga rest phi x with Ok c => c | Err _ => {| c_phi := []; c_mu := []; c_vel := []; c_force := []; c_ch := []; c_hyd := [] |} end).
    split; [|split; [|split]]; intros x; destruct (A x) as (c & E & H1 & H2 & H3); rewrite E; auto.
  Qed.

  Section Direct.
    (* a run of PhaseFieldStepDirect *)
    Variables (phi0 : cell (torus N) -> list R) (rest : list R) (st : nat -> cell (torus N) -> ph_cell).
    Hypothesis params_ok : covers K om /\ covers K ga.
    Hypothesis phi0_ok : forall x, length (phi0 x) = K.
    Hypothesis rest_ok : length rest = sizeQ S.
    Hypothesis init : forall x, coupled_init S K ga rest phi0 x = Ok (st 0%nat x).
    Hypothesis run : forall t x, direct_step S M Minv K mu_kernel hydro velocity fd om ga (st t) x = Ok (st (Datatypes.S t) x).
    Hypothesis fluid_ok : forall t x f, pulled S (fun y => Ok (c_hyd (st t y))) x = Ok f -> ok f.
    Lemma arriving_ok0 t x : (forall y, sized S K (st t y)) -> ok (streamed N S (fun y => c_hyd (st t y)) x).
    Proof. intros Hs. apply (fluid_ok t x). apply pulled_ok; [reflexivity|intros y; apply Hs]. Qed.
    Lemma direct_sized : forall t x, sized S K (st t x).
    Proof.
      induction t as [|t IH]; intros x.
      - destruct (coupled_init_ok rest phi0 (proj2 params_ok) phi0_ok rest_ok) as (s & E & H & _). specialize (E x). rewrite init in E. injection E as ->. apply H.
      - exact (proj1 (direct_spec N name ord S stencil_ok weights_ok dimension_ok M Minv inverse_ok K mu_kernel hydro velocity ok hydro_ok fd om ga (st t) x _ IH (arriving_ok0 t x IH) (run t x))).
    Qed.
    Lemma arriving_ok t x : ok (streamed N S (fun y => c_hyd (st t y)) x).
    Proof. apply arriving_ok0. apply direct_sized. Qed.
    (* no error ever occurs: every state the run reaches has a successor *)
    Lemma direct_runs : forall t x, sized S K (st t x) /\ exists c, direct_step S M Minv K mu_kernel hydro velocity fd om ga (st t) x = Ok c.
    Proof.
      intros t x. split; [apply direct_sized|]. apply (direct_total N name ord S stencil_ok weights_ok dimension_ok M Minv inverse_ok K mu_kernel hydro velocity mu_ok ok hydro_ok); try assumption; try apply params_ok; [apply direct_sized|apply arriving_ok].
    Qed.
    (* the amount of every phase is that of the initial order parameters, after every number of steps *)
    Lemma direct_phase : forall t i, (i < K)%nat -> phase_total N i (fun x => c_phi (st t x)) = phase_total N i phi0 /\ stored_total N i (st t) = phase_total N i phi0.
    Proof.
      intros t i Hi.
      assert (A : forall t, phase_total N i (fun x => c_phi (st (Datatypes.S t) x)) = stored_total N i (st t) /\ stored_total N i (st (Datatypes.S t)) = stored_total N i (st t)).
      { intros k. apply (phases_conserved N name ord S stencil_ok weights_ok dimension_ok K (st k) (st (Datatypes.S k)) i (direct_sized k) Hi). intros x.
        apply (direct_spec N name ord S stencil_ok weights_ok dimension_ok M Minv inverse_ok K mu_kernel hydro velocity ok hydro_ok fd om ga (st k) x _ (direct_sized k) (arriving_ok k x) (run k x)). exact Hi. }
      assert (Z : phase_total N i (fun x => c_phi (st 0%nat x)) = phase_total N i phi0 /\ stored_total N i (st 0%nat) = phase_total N i phi0).
      { destruct (coupled_init_ok rest phi0 (proj2 params_ok) phi0_ok rest_ok) as (s & E & _ & H2 & H3). unfold phase_total, stored_total.
        split; apply rsum_ext; intros x _; specialize (E x); rewrite init in E; injection E as ->; [rewrite H2; reflexivity|apply H3; exact Hi]. }
      assert (B : forall t, stored_total N i (st t) = phase_total N i phi0) by (intros k0; induction k0 as [|k IH]; [apply Z|rewrite (proj2 (A k)); exact IH]).
      split; [|apply B]. destruct t as [|t]; [apply Z|]. rewrite (proj1 (A t)). apply B.
    Qed.
    (* the mass of the fluid is constant, its momentum changes by the total force *)
    Lemma direct_fluid : forall t, fluid_mass N (st t) = fluid_mass N (st 0%nat) /\
      forall a, (a < dimD S)%nat -> fluid_momentum N S a (st (Datatypes.S t)) = fluid_momentum N S a (st t) + total_force N a (st (Datatypes.S t)).
    Proof.
      assert (P : forall t x, adds_impulse (dimD S) S (c_force (st (Datatypes.S t) x)) (streamed N S (fun y => c_hyd (st t y)) x) (c_hyd (st (Datatypes.S t) x))).
      { intros t x. apply (direct_spec N name ord S stencil_ok weights_ok dimension_ok M Minv inverse_ok K mu_kernel hydro velocity ok hydro_ok fd om ga (st t) x _ (direct_sized t) (arriving_ok t x) (run t x)). }
      assert (LH : forall t x, length (c_hyd (st t x)) = sizeQ S) by (intros t x; apply direct_sized).
      pose proof (dirN N name ord S stencil_ok weights_ok dimension_ok) as HD.
      assert (Mass : forall t, fluid_mass N (st (Datatypes.S t)) = fluid_mass N (st t)).
      { intros t. unfold fluid_mass. rewrite <- (streamed_mass N S HD (fun y => c_hyd (st t y)) (LH t)). apply rsum_ext. intros x _. destruct (P t x) as [H _]. unfold density in H. rewrite !fsum_rsum in H by (apply LH || apply streamed_length). exact H. }
      intros t. split; [induction t as [|t IH]; [reflexivity|rewrite Mass; exact IH]|]. intros a Ha. unfold fluid_momentum, total_force, momentum.
      rewrite <- (streamed_sum N S HD (fun y => c_hyd (st t y)) _ (LH t)), <- rsum_plus. apply rsum_ext. intros x _. apply (P t x). exact Ha.
    Qed.
    (* the sum of all phases moves like one phase whose chemical potential is the weighted sum of all (one relaxation rate for all phases) *)
    Lemma direct_sum : forall omega t x, om = One omega -> exists f g, pulled S (fun y => Ok (all_phases S (st t y))) x = Ok f /\ (forall i, (i < K)%nat -> of_phase ga i = Ok (g i)) /\
      ch_collision S M Minv omega 1 (rsum (map (fun i => g i * nth i (c_mu (st (Datatypes.S t) x)) 0) (seq 0 K))) (c_vel (st (Datatypes.S t) x)) f = Ok (all_phases S (st (Datatypes.S t) x)).
    Proof.
      intros omega t x Ho. set (c := st (Datatypes.S t) x).
      destruct (direct_spec N name ord S stencil_ok weights_ok dimension_ok M Minv inverse_ok K mu_kernel hydro velocity ok hydro_ok fd om ga (st t) x c (direct_sized t) (arriving_ok t x) (run t x)) as (Hc & _ & _ & _ & _ & _ & HP).
      set (g := fun i => match of_phase ga i with Ok r => r | Err _ => 0 end). exists (streamed N S (fun y => all_phases S (st t y)) x), g.
      split; [apply pulled_ok; [reflexivity|intros y; apply sum_pops_length]|]. split; [intros i Hi; unfold g; destruct (of_phase_ok K ga i (proj2 params_ok) Hi) as [r ->]; reflexivity|].
      set (l := map (fun i => (g i, nth i (c_mu c) 0, streamed N S (phase N i (st t)) x, nth i (c_ch c) [])) (seq 0 K)).
      pose proof (collision_sum name ord S stencil_ok weights_ok M Minv inverse_ok omega (c_vel c) l) as CS.
      assert (E1 : rsum (map (fun p => fst (fst (fst p)) * snd (fst (fst p))) l) = rsum (map (fun i => g i * nth i (c_mu c) 0) (seq 0 K))) by (unfold l; rewrite map_map; reflexivity).
      assert (E3 : map snd l = c_ch c).
      { unfold l. rewrite map_map. cbn [snd]. destruct Hc as (_ & HL & _). rewrite <- HL. symmetry. apply (nth_ext _ _ [] []); [now rewrite map_length, seq_length|]. intros i Hi.
        rewrite (nth_indep (map _ _) [] ((fun i => nth i (c_ch c) []) 0%nat)) by (rewrite map_length, seq_length; exact Hi). rewrite (map_nth (fun i => nth i (c_ch c) [])), seq_nth by exact Hi. reflexivity. }
      assert (E2 : sum_pops S (map (fun p => snd (fst p)) l) = streamed N S (fun y => all_phases S (st t y)) x).
      { unfold l. rewrite map_map. cbn [fst snd]. apply (nth_ext _ _ 0 0); [rewrite sum_pops_length, streamed_length; reflexivity|]. intros q Hq. rewrite sum_pops_length in Hq.
        rewrite nth_sum_pops, nth_streamed by exact Hq. change (all_phases S) with (fun c => sum_pops S (c_ch c)). cbv beta. rewrite nth_sum_pops by exact Hq. rewrite map_map.
        rewrite (rsum_ext _ (fun i => nth q (phase N i (st t) (shift x (vneg (nth q S [])))) 0)) by (intros; apply nth_streamed; exact Hq). unfold phase.
        destruct (direct_sized t (shift x (vneg (nth q S [])))) as (_ & HL & _). rewrite <- HL at 1. set (cs := c_ch (st t (shift x (vneg (nth q S []))))).
        change (rsum (map (fun i => nth q (nth i cs []) 0) (seq 0 (length cs))) = rsum (map (fun f => nth q f 0) cs)). f_equal. clear. induction cs as [|f cs IH]; [reflexivity|]. cbn [length seq map]. f_equal. rewrite <- seq_shift, map_map. exact IH. }
      rewrite E1, E2, E3 in CS. apply CS. intros gi m f h Hin. unfold l in Hin. apply in_map_iff in Hin as (i & Ei & Hi). apply in_seq in Hi. injection Ei as <- <- <- <-. split; [apply streamed_length|].
      destruct (HP i ltac:(lia)) as (o & g' & Eo & Eg & E). rewrite Ho in Eo. injection Eo as <-. unfold g. rewrite Eg. exact E.
    Qed.
    (* a uniform mixture stays uniform and unchanged, without any force *)
    Lemma direct_uniform : derivative_stencil (dimD S) fd -> (forall phi, (forall x y, phi x = phi y) -> forall x y, mu_kernel phi x = mu_kernel phi y) -> (forall x y, phi0 x = phi0 y) ->
      forall t x, (forall y, st t x = st t y) /\ c_phi (st t x) = phi0 x /\ forall a, nth a (c_force (st t x)) 0 = 0.
    Proof.
      intros Hfd Hu Hp.
      assert (FZ : forall phi mu x a, (forall x y, mu x = mu y) -> nth a (force_mu (L := torus N) S K fd phi mu x) 0 = 0).
      { intros phi mu x a Hm. unfold force_mu. destruct (lt_dec a (dimD S)) as [Ha|Ha]; [|apply nth_overflow; rewrite map_length, seq_length; lia].
        set (F := fun a => rsum (map (fun i => - nth i (phi x) 0 * derivative fd a (fun y => nth i (mu y) 0) x) (seq 0 K))). change (nth a (map F (seq 0 (dimD S))) 0 = 0).
        rewrite (nth_indep _ 0 (F 0%nat)) by (rewrite map_length, seq_length; exact Ha). rewrite map_nth, seq_nth by exact Ha. unfold F. cbn [plus].
        rewrite (rsum_ext _ (fun i => 0 * 0)); [rewrite rsum_scal; ring|]. intros i _. rewrite derivative_uniform; [ring|rewrite dimension_ok; exact Hfd|rewrite dimension_ok; exact Ha|intros y z; rewrite (Hm y z); reflexivity]. }
      assert (U : forall t, (forall x y, st t x = st t y) /\ (forall x, c_phi (st t x) = phi0 x) /\ (forall x i, (i < K)%nat -> rsum (nth i (c_ch (st t x)) []) = nth i (phi0 x) 0) /\ forall x a, nth a (c_force (st t x)) 0 = 0).
      { induction t as [|t (IH1 & IH2 & IH3 & IH4)].
        - split; [|split; [|split]].
          + intros x y. pose proof (init x) as Ex. pose proof (init y) as Ey. unfold coupled_init in Ex, Ey. rewrite (Hp x y) in Ex. rewrite Ex in Ey. injection Ey as ->. reflexivity.
          + intros x. destruct (coupled_init_ok rest phi0 (proj2 params_ok) phi0_ok rest_ok) as (s & E & _ & H2 & _). specialize (E x). rewrite init in E. injection E as ->. apply H2.
          + intros x i Hi. destruct (coupled_init_ok rest phi0 (proj2 params_ok) phi0_ok rest_ok) as (s & E & _ & _ & H3). specialize (E x). rewrite init in E. injection E as ->. apply H3. exact Hi.
          + intros x a. pose proof (init x) as Ex. unfold coupled_init in Ex. apply rbind_inv in Ex as (chs & _ & Ex). injection Ex as <-. cbn [c_force]. destruct (lt_dec a (dimD S)); [apply nth_repeat|apply nth_overflow; rewrite repeat_length; lia].
        - assert (Um : forall x y, mu_kernel (fun y => c_phi (st t y)) x = mu_kernel (fun y => c_phi (st t y)) y) by (apply Hu; intros x y; rewrite (IH1 x y); reflexivity).
          assert (ST : forall i x, (i < K)%nat -> streamed N S (phase N i (st t)) x = phase N i (st t) x).
          { intros i x Hi. apply (nth_ext _ _ 0 0); [rewrite streamed_length; symmetry; apply (phase_length N S dimension_ok K); [apply direct_sized|exact Hi]|]. intros q Hq. rewrite streamed_length in Hq. rewrite nth_streamed by exact Hq.
            unfold phase. rewrite (IH1 (shift x (vneg (nth q S []))) x). reflexivity. }
          assert (SP : forall x, sized S K (st (Datatypes.S t) x) /\ (forall i, (i < K)%nat -> nth i (c_phi (st (Datatypes.S t) x)) 0 = nth i (phi0 x) 0 /\ rsum (nth i (c_ch (st (Datatypes.S t) x)) []) = nth i (phi0 x) 0) /\ forall a, nth a (c_force (st (Datatypes.S t) x)) 0 = 0).
          { intros x. destruct (direct_spec N name ord S stencil_ok weights_ok dimension_ok M Minv inverse_ok K mu_kernel hydro velocity ok hydro_ok fd om ga (st t) x _ (direct_sized t) (arriving_ok t x) (run t x)) as (H1 & H2 & H3 & _). split; [exact H1|]. split.
            - intros i Hi. destruct (H2 i Hi) as [H4 H5]. rewrite H4, H5, ST by exact Hi. split; apply IH3; exact Hi.
            - intros a. rewrite H3. apply FZ. exact Um. }
          split; [|split; [|split]].
          + intros x y. pose proof (run t x) as Ex. pose proof (run t y) as Ey. enough (EE : direct_step S M Minv K mu_kernel hydro velocity fd om ga (st t) x = direct_step S M Minv K mu_kernel hydro velocity fd om ga (st t) y) by (rewrite EE, Ey in Ex; injection Ex as ->; reflexivity).
            unfold direct_step. assert (PU : forall f : cell (torus N) -> res (list R), (forall y z, f y = f z) -> pulled S f x = pulled S f y) by (intros f Hf; unfold pulled; apply mapM_ext; intros q _; rewrite (Hf (shift x (vneg (nth q S []))) (shift y (vneg (nth q S [])))); reflexivity).
            rewrite (PU (fun y => Ok (c_hyd (st t y)))) by (intros a b; rewrite (IH1 a b); reflexivity).
            assert (EF : force_mu S K fd (fun y => c_phi (st t y)) (mu_kernel (fun y => c_phi (st t y))) x = force_mu S K fd (fun y => c_phi (st t y)) (mu_kernel (fun y => c_phi (st t y))) y).
            { apply (nth_ext _ _ 0 0); [unfold force_mu; now rewrite !map_length|]. intros a _. rewrite !FZ by exact Um. reflexivity. }
            rewrite EF, (Um x y). destruct (pulled S (fun y => Ok (c_hyd (st t y))) y) as [h|e]; [|reflexivity]. cbn [rbind]. destruct (hydro _ h) as [h'|e]; [|reflexivity]. cbn [rbind]. cbv zeta.
            assert (DP : forall mu u, direct_phases S M Minv K om ga mu u (st t) x = direct_phases S M Minv K om ga mu u (st t) y) by (intros mu u; unfold direct_phases; apply mapM_ext; intros i _; rewrite (PU (fun y => entry (c_ch (st t y)) i)) by (intros a b; rewrite (IH1 a b); reflexivity); reflexivity).
            rewrite DP. reflexivity.
          + intros x. destruct (SP x) as ((HL & _) & H2 & _). apply (nth_ext _ _ 0 0); [rewrite HL, phi0_ok; reflexivity|]. intros i Hi. rewrite HL in Hi. apply H2. exact Hi.
          + intros x i Hi. apply SP. exact Hi.
          + intros x a. apply SP. }
      intros t x. destruct (U t) as (U1 & U2 & _ & U4). auto.
    Qed.
  End Direct.

  Section Tensor.
    Variables (tensor : (cell (torus N) -> list R) -> cell (torus N) -> nat -> nat -> R) (extra : list (nat * list R)).
    Variables (phi0 : cell (torus N) -> list R) (rest : list R) (st : nat -> cell (torus N) -> ph_cell).
    Hypothesis params_ok : covers K om /\ covers K ga.
    Hypothesis phi0_ok : forall x, length (phi0 x) = K.
    Hypothesis rest_ok : length rest = sizeQ S.
    Hypothesis init : forall x, coupled_init S K ga rest phi0 x = Ok (st 0%nat x).
    Hypothesis run : forall t x, tensor_step S M Minv K mu_kernel hydro velocity fd tensor extra om ga (st t) x = Ok (st (Datatypes.S t) x).
    Hypothesis fluid_ok : forall t x, ok (c_hyd (st t x)).
    Notation tspec t Hs := (tensor_spec N name ord S stencil_ok weights_ok dimension_ok M Minv inverse_ok K mu_kernel hydro velocity mu_ok ok hydro_ok fd tensor extra om ga (st t) Hs (fluid_ok t)).
    Lemma tensor_sized : forall t x, sized S K (st t x).
    Proof.
      induction t as [|t IH]; intros x.
      - destruct (coupled_init_ok rest phi0 (proj2 params_ok) phi0_ok rest_ok) as (s & E & H & _). specialize (E x). rewrite init in E. injection E as ->. apply H.
      - destruct (tspec t IH) as (g & _ & _ & _ & H). apply (H x _ (run t x)).
    Qed.
    Lemma tensor_runs : forall t x, sized S K (st t x) /\ exists c, tensor_step S M Minv K mu_kernel hydro velocity fd tensor extra om ga (st t) x = Ok c.
    Proof. intros t x. split; [apply tensor_sized|]. destruct (tspec t (tensor_sized t)) as (g & _ & _ & H & _). apply H; apply params_ok. Qed.
    Lemma tensor_phase : forall t i, (i < K)%nat -> phase_total N i (fun x => c_phi (st t x)) = phase_total N i phi0 /\ stored_total N i (st t) = phase_total N i phi0.
    Proof.
      intros t i Hi.
      assert (A : forall t, phase_total N i (fun x => c_phi (st (Datatypes.S t) x)) = stored_total N i (st t) /\ stored_total N i (st (Datatypes.S t)) = stored_total N i (st t)).
      { intros k. apply (phases_conserved N name ord S stencil_ok weights_ok dimension_ok K (st k) (st (Datatypes.S k)) i (tensor_sized k) Hi). intros x.
        destruct (tspec k (tensor_sized k)) as (g & _ & _ & _ & H). apply (H x _ (run k x)). exact Hi. }
      assert (Z : phase_total N i (fun x => c_phi (st 0%nat x)) = phase_total N i phi0 /\ stored_total N i (st 0%nat) = phase_total N i phi0).
      { destruct (coupled_init_ok rest phi0 (proj2 params_ok) phi0_ok rest_ok) as (s & E & _ & H2 & H3). unfold phase_total, stored_total.
        split; apply rsum_ext; intros x _; specialize (E x); rewrite init in E; injection E as ->; [rewrite H2; reflexivity|apply H3; exact Hi]. }
      assert (B : forall t, stored_total N i (st t) = phase_total N i phi0) by (intros k0; induction k0 as [|k IH]; [apply Z|rewrite (proj2 (A k)); exact IH]).
      split; [|apply B]. destruct t as [|t]; [apply Z|]. rewrite (proj1 (A t)). apply B.
    Qed.
    Lemma force_total phi b : derivative_stencil (dimD S) fd -> (b < dimD S)%nat ->
      rsum (map (fun x => nth b (force_pressure (L := torus N) S fd tensor extra phi x) 0) (torus_cells N)) = rsum (map (fun e => nth b (snd e) 0 * phase_total N (fst e) phi) extra).
    Proof.
      intros Hfd Hb. unfold force_pressure.
      set (G := fun x b => - rsum (map (fun a => derivative fd a (fun y => tensor phi y a b) x) (seq 0 (dimD S))) + rsum (map (fun e => nth b (snd e) 0 * nth (fst e) (phi x) 0) extra)).
      rewrite (rsum_ext _ (fun x => -1 * rsum (map (fun a => derivative fd a (fun y => tensor phi y a b) x) (seq 0 (dimD S))) + rsum (map (fun e => nth b (snd e) 0 * nth (fst e) (phi x) 0) extra))).
      - rewrite rsum_plus, rsum_scal. rewrite (rsum_swap (fun x a => derivative fd a (fun y => tensor phi y a b) x)), (rsum_swap (fun x e => nth b (snd e) 0 * nth (fst e) (phi x) 0)).
        rewrite (rsum_ext (fun a => rsum (map (fun x => derivative fd a (fun y => tensor phi y a b) x) (torus_cells N))) (fun a => 0 * 0)).
        + rewrite rsum_scal, Rmult_0_l, Rmult_0_r, Rplus_0_l. apply rsum_ext. intros e _. apply rsum_scal.
        + intros a Ha. apply in_seq in Ha. rewrite (derivative_total N); [ring|rewrite dimension_ok; exact Hfd|rewrite dimension_ok; lia].
      - intros x _. change (nth b (map (G x) (seq 0 (dimD S))) 0 = -1 * rsum (map (fun a => derivative fd a (fun y => tensor phi y a b) x) (seq 0 (dimD S))) + rsum (map (fun e => nth b (snd e) 0 * nth (fst e) (phi x) 0) extra)).
        rewrite (nth_indep _ 0 (G x 0%nat)) by (rewrite map_length, seq_length; exact Hb). rewrite map_nth, seq_nth by exact Hb. unfold G. cbn [plus]. ring.
    Qed.
    Lemma tensor_fluid : derivative_stencil (dimD S) fd -> (forall e, In e extra -> (fst e < K)%nat) -> forall t, fluid_mass N (st t) = fluid_mass N (st 0%nat) /\
      forall a, (a < dimD S)%nat -> fluid_momentum N S a (st t) = fluid_momentum N S a (st 0%nat) + INR t * rsum (map (fun e => nth a (snd e) 0 * phase_total N (fst e) phi0) extra).
    Proof.
      intros Hfd He. pose proof (dirN N name ord S stencil_ok weights_ok dimension_ok) as HD. induction t as [|t [IH1 IH2]].
      - split; [reflexivity|]. intros a _. cbn [INR]. ring.
      - destruct (tspec t (tensor_sized t)) as (g & G1 & G2 & _ & H).
        assert (EH : forall x, c_hyd (st (Datatypes.S t) x) = streamed N S g x) by (intros x; apply (H x _ (run t x))).
        split.
        + rewrite <- IH1. unfold fluid_mass. rewrite (rsum_ext (fun x => rsum (c_hyd (st (Datatypes.S t) x))) (fun x => rsum (streamed N S g x))) by (intros; rewrite EH; reflexivity).
          rewrite (streamed_mass N S HD g G1). apply rsum_ext. intros x _. destruct (G2 x) as [Hd _]. unfold density in Hd. rewrite !fsum_rsum in Hd by (apply G1 || apply tensor_sized). exact Hd.
        + intros a Ha. rewrite S_INR. specialize (IH2 a Ha). unfold fluid_momentum, momentum in *. rewrite (rsum_ext (fun x => fsum (c_hyd (st (Datatypes.S t) x)) S _) (fun x => fsum (streamed N S g x) S (fun c => comp c a))) by (intros; rewrite EH; reflexivity).
          rewrite (streamed_sum N S HD g _ G1).
          rewrite (rsum_ext (fun x => fsum (g x) S (fun c => comp c a)) (fun x => fsum (c_hyd (st t x)) S (fun c => comp c a) + nth a (force_pressure S fd tensor extra (fun y => c_phi (st t y)) x) 0)) by (intros x _; apply (G2 x); exact Ha).
          rewrite rsum_plus, IH2, force_total by assumption.
          rewrite (rsum_ext (fun e => nth a (snd e) 0 * phase_total N (fst e) (fun y => c_phi (st t y))) (fun e => nth a (snd e) 0 * phase_total N (fst e) phi0)) by (intros e Hin; rewrite (proj1 (tensor_phase t (fst e) (He e Hin))); reflexivity).
          ring.
    Qed.
  End Tensor.

  (* one step of the model of Nestler: phases and fluid *)
  Lemma nestler_balance : forall st : cell (torus N) -> ph_cell, (forall x, sized S K (st x)) -> (forall x, ok (c_hyd (st x))) -> exists mid,
    (forall x, nestler_step S M Minv K mu_kernel hydro velocity fd st x = Ok (mid x)) /\ (forall x, sized S K (mid x)) /\
    (forall i, (i < K)%nat -> phase_total N i (fun x => c_phi (mid x)) = phase_total N i (fun x => c_phi (st x)) /\ stored_total N i mid = phase_total N i (fun x => c_phi (st x))) /\
    fluid_mass N mid = fluid_mass N st /\ (forall a, (a < dimD S)%nat -> fluid_momentum N S a mid = fluid_momentum N S a st + total_force N a mid).
  Proof.
    intros st Hs Hk. pose proof (dirN N name ord S stencil_ok weights_ok dimension_ok) as HD.
    destruct (nestler_spec N name ord S stencil_ok weights_ok dimension_ok M Minv inverse_ok K mu_kernel hydro velocity mu_ok ok hydro_ok fd st Hs Hk) as (g & ch & G1 & G2 & G3 & H).
    pose (mid := fun x : cell (torus N) => match nestler_step S M Minv K mu_kernel hydro velocity fd st x with Ok c => c | Err _ => st x end). exists mid.
    assert (A : forall x, nestler_step S M Minv K mu_kernel hydro velocity fd st x = Ok (mid x) /\ sized S K (mid x) /\
      (forall i, (i < K)%nat -> nth i (c_ch (mid x)) [] = streamed N S (ch i) x /\ nth i (c_phi (mid x)) 0 = rsum (nth i (c_ch (mid x)) [])) /\
      c_force (mid x) = force_mu S K fd (fun y => c_phi (st y)) (mu_kernel (fun y => c_phi (st y))) x /\ c_hyd (mid x) = streamed N S g x).
    { intros x. destruct (H x) as (c & E & H1 & H2 & H3 & _ & H5 & _). unfold mid. rewrite E. auto. }
    clearbody mid. clear H. split; [intros x; apply A|]. split; [intros x; apply A|]. split; [|split].
    - intros i Hi. assert (C : stored_total N i mid = phase_total N i (fun x => c_phi (st x))).
      { unfold stored_total, phase_total. rewrite (rsum_ext _ (fun x => rsum (streamed N S (ch i) x))) by (intros x _; rewrite (proj1 (proj1 (proj2 (proj2 (A x))) i Hi)); reflexivity).
        rewrite (streamed_mass N S HD (ch i)) by (intros y; apply G3; exact Hi). apply rsum_ext. intros y _. apply G3. exact Hi. }
      split; [|exact C]. rewrite <- C. unfold phase_total, stored_total. apply rsum_ext. intros x _. apply A. exact Hi.
    - unfold fluid_mass. rewrite (rsum_ext (fun x => rsum (c_hyd (mid x))) (fun x => rsum (streamed N S g x))) by (intros x _; rewrite (proj2 (proj2 (proj2 (proj2 (A x))))); reflexivity).
      rewrite (streamed_mass N S HD g G1). apply rsum_ext. intros x _. destruct (G2 x) as [Hd _]. unfold density in Hd. rewrite !fsum_rsum in Hd by (apply G1 || apply Hs). exact Hd.
    - intros a Ha. unfold fluid_momentum, total_force, momentum. rewrite (rsum_ext (fun x => fsum (c_hyd (mid x)) S _) (fun x => fsum (streamed N S g x) S (fun c => comp c a))) by (intros x _; rewrite (proj2 (proj2 (proj2 (proj2 (A x))))); reflexivity).
      rewrite (streamed_sum N S HD g _ G1), <- rsum_plus. apply rsum_ext. intros x _. rewrite (proj1 (proj2 (proj2 (proj2 (A x))))). apply (G2 x). exact Ha.
  Qed.

  (* runs of the model of Nestler *)
  Section Nestler.
    Variables (project : (cell (torus N) -> list R) -> cell (torus N) -> list R) (st mid : nat -> cell (torus N) -> ph_cell).
    Hypothesis start_ok : forall x, sized S K (st 0%nat x).
    Hypothesis project_ok : forall phi x, (forall y, length (phi y) = K) -> length (project phi x) = K.
    Hypothesis run : forall t x, nestler_step S M Minv K mu_kernel hydro velocity fd (st t) x = Ok (mid t x) /\ st (Datatypes.S t) x = projected project (mid t) x.
    Hypothesis fluid_ok : forall t x, ok (c_hyd (st t x)).
    Lemma nestler_mid t : (forall x, sized S K (st t x)) -> (forall x, sized S K (mid t x)) /\
      (forall i, (i < K)%nat -> phase_total N i (fun x => c_phi (mid t x)) = phase_total N i (fun x => c_phi (st t x)) /\ stored_total N i (mid t) = phase_total N i (fun x => c_phi (st t x))) /\
      fluid_mass N (mid t) = fluid_mass N (st t) /\ (forall a, (a < dimD S)%nat -> fluid_momentum N S a (mid t) = fluid_momentum N S a (st t) + total_force N a (mid t)).
    Proof.
      intros Hs. destruct (nestler_balance (st t) Hs (fluid_ok t)) as (m & E & H1 & H2 & H3 & H4).
      assert (Q : forall x, m x = mid t x) by (intros x; specialize (E x); rewrite (proj1 (run t x)) in E; injection E as ->; reflexivity).
      assert (X : forall f g : cell (torus N) -> R, (forall x, f x = g x) -> rsum (map f (torus_cells N)) = rsum (map g (torus_cells N))) by (intros f g Hfg; apply rsum_ext; intros x _; apply Hfg).
      split; [intros x; rewrite <- Q; apply H1|]. split; [|split].
      - intros i Hi. destruct (H2 i Hi) as [A B]. rewrite <- A. split; [|rewrite A, <- B]; unfold phase_total, stored_total; apply X; intros x; rewrite Q; reflexivity.
      - rewrite <- H3. unfold fluid_mass. apply X. intros x. rewrite Q. reflexivity.
      - intros a Ha. specialize (H4 a Ha). replace (fluid_momentum N S a (mid t)) with (fluid_momentum N S a m) by (unfold fluid_momentum; apply X; intros x; rewrite Q; reflexivity).
        replace (total_force N a (mid t)) with (total_force N a m) by (unfold total_force; apply X; intros x; rewrite Q; reflexivity). exact H4.
    Qed.
    Lemma nestler_sized : forall t x, sized S K (st t x).
    Proof.
      induction t as [|t IH]; intros x; [apply start_ok|]. rewrite (proj2 (run t x)). destruct (nestler_mid t IH) as [H _]. destruct (H x) as (H1 & H2 & H3 & H4).
      split; cbn [projected c_phi c_ch c_hyd]; [|auto]. apply project_ok. intros y. apply H.
    Qed.
    Lemma nestler_run_step t : (forall x, sized S K (st t x)) /\
      (forall i, (i < K)%nat -> phase_total N i (fun x => c_phi (st (Datatypes.S t) x)) = phase_total N i (fun x => c_phi (st t x)) +
         rsum (map (fun x => nth i (project (fun y => c_phi (mid t y)) x) 0 - nth i (c_phi (mid t x)) 0) (torus_cells N))) /\
      fluid_mass N (st t) = fluid_mass N (st 0%nat) /\ (forall a, (a < dimD S)%nat -> fluid_momentum N S a (st (Datatypes.S t)) = fluid_momentum N S a (st t) + total_force N a (st (Datatypes.S t))).
    Proof.
      split; [apply nestler_sized|]. split; [|split].
      - intros i Hi. destruct (nestler_mid t (nestler_sized t)) as (_ & H & _). rewrite <- (proj1 (H i Hi)). unfold phase_total. rewrite <- rsum_plus. apply rsum_ext. intros x _. rewrite (proj2 (run t x)). cbn [projected c_phi]. ring.
      - induction t as [|t IH]; [reflexivity|]. rewrite <- IH. destruct (nestler_mid t (nestler_sized t)) as (_ & _ & H & _). rewrite <- H. unfold fluid_mass. apply rsum_ext. intros x _. rewrite (proj2 (run t x)). reflexivity.
      - intros a Ha. destruct (nestler_mid t (nestler_sized t)) as (_ & _ & _ & H). specialize (H a Ha).
        replace (fluid_momentum N S a (st (Datatypes.S t))) with (fluid_momentum N S a (mid t)) by (unfold fluid_momentum; apply rsum_ext; intros x _; rewrite (proj2 (run t x)); reflexivity).
        replace (total_force N a (st (Datatypes.S t))) with (total_force N a (mid t)) by (unfold total_force; apply rsum_ext; intros x _; rewrite (proj2 (run t x)); reflexivity). exact H.
    Qed.
    Lemma nestler_phase : (forall phi x, project phi x = phi x) -> forall t i, (i < K)%nat -> phase_total N i (fun x => c_phi (st t x)) = phase_total N i (fun x => c_phi (st 0%nat x)).
    Proof.
      intros Hp t i Hi. induction t as [|t IH]; [reflexivity|]. destruct (nestler_run_step t) as (_ & H & _). rewrite (H i Hi), IH.
      rewrite (rsum_ext _ (fun _ => 0 * 0)) by (intros x _; rewrite Hp; ring). rewrite rsum_scal. ring.
    Qed.
  End Nestler.

  (* a run exists from every start, for methods defined for all populations *)
  Lemma direct_exists : (forall f, ok f) -> covers K om /\ covers K ga -> forall s0 : cell (torus N) -> ph_cell, (forall x, sized S K (s0 x)) ->
    exists st, st 0%nat = s0 /\ forall t x, direct_step S M Minv K mu_kernel hydro velocity fd om ga (st t) x = Ok (st (Datatypes.S t) x).
  Proof.
    intros Hk Hp s0 H0. pose (st := fix st t := match t with O => s0 | Datatypes.S t => fun x => match direct_step S M Minv K mu_kernel hydro velocity fd om ga (st t) x with Ok c => c | Err _ => s0 x end end).
    assert (T : forall t, (forall x, sized S K (st t x)) -> forall x, direct_step S M Minv K mu_kernel hydro velocity fd om ga (st t) x = Ok (st (Datatypes.S t) x)).
    { intros t Hs x. destruct (direct_total N name ord S stencil_ok weights_ok dimension_ok M Minv inverse_ok K mu_kernel hydro velocity mu_ok ok hydro_ok fd om ga (st t) x (proj1 Hp) (proj2 Hp) Hs (Hk _)) as [c E].
      change (st (Datatypes.S t) x) with (match direct_step S M Minv K mu_kernel hydro velocity fd om ga (st t) x with Ok c => c | Err _ => s0 x end). rewrite E. reflexivity. }
    assert (A : forall t x, sized S K (st t x)).
    { induction t as [|t IH]; intros x; [apply H0|]. exact (proj1 (direct_spec N name ord S stencil_ok weights_ok dimension_ok M Minv inverse_ok K mu_kernel hydro velocity ok hydro_ok fd om ga (st t) x _ IH (Hk _) (T t IH x))). }
    exists st. split; [reflexivity|]. intros t x. apply T. apply A.
  Qed.
  Lemma tensor_exists tensor extra : (forall f, ok f) -> covers K om /\ covers K ga -> forall s0 : cell (torus N) -> ph_cell, (forall x, sized S K (s0 x)) ->
    exists st, st 0%nat = s0 /\ forall t x, tensor_step S M Minv K mu_kernel hydro velocity fd tensor extra om ga (st t) x = Ok (st (Datatypes.S t) x).
  Proof.
    intros Hk Hp s0 H0. pose (st := fix st t := match t with O => s0 | Datatypes.S t => fun x => match tensor_step S M Minv K mu_kernel hydro velocity fd tensor extra om ga (st t) x with Ok c => c | Err _ => s0 x end end).
    assert (T : forall t, (forall x, sized S K (st t x)) -> forall x, tensor_step S M Minv K mu_kernel hydro velocity fd tensor extra om ga (st t) x = Ok (st (Datatypes.S t) x) /\ sized S K (st (Datatypes.S t) x)).
    { intros t Hs x. destruct (tensor_spec N name ord S stencil_ok weights_ok dimension_ok M Minv inverse_ok K mu_kernel hydro velocity mu_ok ok hydro_ok fd tensor extra om ga (st t) Hs (fun y => Hk _)) as (g & _ & _ & E & H). destruct (E (proj1 Hp) (proj2 Hp) x) as [c Ec].
      change (st (Datatypes.S t) x) with (match tensor_step S M Minv K mu_kernel hydro velocity fd tensor extra om ga (st t) x with Ok c => c | Err _ => s0 x end). rewrite Ec. split; [reflexivity|]. apply (H x c Ec). }
    assert (A : forall t x, sized S K (st t x)) by (induction t as [|t IH]; intros x; [apply H0|apply T; exact IH]).
    exists st. split; [reflexivity|]. intros t x. apply T. apply A.
  Qed.
End Coupled.
