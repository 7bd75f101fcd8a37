From Coq Require Import String List ZArith Bool Arith QArith Reals Qreals Lra Lia Permutation.
From Verif Require Import RealLib LinLib StencilModel StencilSpec StencilProofs StencilProofs2 EqModel EqSpec EqProofs CollModel CollSpec CollProofs StreamModel GridModel GridProofs AccessModel AccessProofs StreamProofs ChModel ChSpec ChProofs ChProofs2 CoupModel CoupSpec CoupProofs.
Import ListNotations.
Local Open Scope R_scope.

Lemma of_phase_ok K p i : covers K p -> (i < K)%nat -> exists r, of_phase p i = Ok r.
Proof. destruct p as [r|l]; cbn; intros H Hi; [eauto|]. rewrite (nth_error_nth' l 0) by lia. eauto. Qed.

Section Steps.
  Context (N : list positive).
  Variables (name ord : string) (S : stencil).
  Hypothesis HS : predefined_stencils name ord = Ok S.
  Hypothesis HW : has_weights S = true.
  Hypothesis HN : length N = dimD S.
  Variables (M Minv : mat).
  Hypothesis HM : is_inverse (sizeQ S) M Minv.
  Variable K : nat.
  Notation n := (sizeQ S).
  Notation cells := (cell (torus N)).

  Lemma dirN q : (q < n)%nat -> length (nth q S []) = length N.
  Proof. intros Hq. rewrite HN. exact (dir_length name ord S HS HW q Hq). Qed.
  Definition phase (i : nat) (st : cells -> ph_cell) (x : cells) : list R := nth i (c_ch (st x)) [].
  Lemma phase_length i (st : cells -> ph_cell) : (forall x, sized S K (st x)) -> (i < K)%nat -> forall x, length (phase i st x) = n.
  Proof. intros Hs Hi x. destruct (Hs x) as (_ & H1 & H2 & _). apply H2, nth_In. lia. Qed.
  Lemma phase_pulled i (st : cells -> ph_cell) (x : cells) : (forall x, sized S K (st x)) -> (i < K)%nat -> pulled S (fun y => entry (c_ch (st y)) i) x = Ok (streamed N S (phase i st) x).
  Proof. intros Hs Hi. apply pulled_ok; [|apply phase_length; assumption]. intros y. apply entry_ok. destruct (Hs y) as (_ & H1 & _). lia. Qed.

  (* the phases of PhaseFieldStepDirect and PhaseFieldStep *)
  Lemma phases_spec om ga mu vel (st : cells -> ph_cell) (x : cells) l : (forall x, sized S K (st x)) -> direct_phases S M Minv K om ga mu vel st x = Ok l ->
    length l = K /\ forall i, (i < K)%nat -> exists f' o g m, nth i l (0, []) = (rsum (streamed N S (phase i st) x), f') /\ length f' = n /\ rsum f' = rsum (streamed N S (phase i st) x) /\
      of_phase om i = Ok o /\ of_phase ga i = Ok g /\ entry mu i = Ok m /\ ch_collision S M Minv o g m vel (streamed N S (phase i st) x) = Ok f'.
  Proof.
    intros Hs H. unfold direct_phases in H. destruct (mapM_seq_nth _ _ _ (0, []) H) as [HL Hi]. split; [exact HL|]. intros i Hk. specialize (Hi i Hk). rewrite phase_pulled in Hi by assumption. cbn [rbind] in Hi.
    apply rbind_inv in Hi as (o & Ho & Hi). apply rbind_inv in Hi as (g & Hg & Hi). apply rbind_inv in Hi as (m & Hm & Hi). apply rbind_inv in Hi as (f' & Hf & Hi). injection Hi as Hi. rewrite <- Hi.
    destruct (collision_mass name ord S HS HW M Minv HM o g m vel _ f' (streamed_length N S (phase i st) x) Hf) as [H1 H2]. exists f', o, g, m. rewrite density_sum. auto 10.
  Qed.
  Lemma phases_total om ga mu vel (st : cells -> ph_cell) (x : cells) : (forall x, sized S K (st x)) -> covers K om -> covers K ga -> length mu = K -> exists l, direct_phases S M Minv K om ga mu vel st x = Ok l.
  Proof.
    intros Hs Ho Hg Hm. apply mapM_ex. intros i Hi. apply in_seq in Hi. rewrite phase_pulled by (assumption || lia). cbn [rbind].
    destruct (of_phase_ok K om i Ho ltac:(lia)) as [o ->]. destruct (of_phase_ok K ga i Hg ltac:(lia)) as [g ->]. cbn [rbind]. rewrite (entry_ok mu i 0) by lia. cbn [rbind].
    destruct (collision_ok name ord S HS HW M Minv HM o g (nth i mu 0) vel _ (streamed_length N S (phase i st) x)) as (f' & E & _). rewrite E. cbn [rbind]. eauto.
  Qed.
  Lemma phases_fields om ga mu vel (st : cells -> ph_cell) (x : cells) l : (forall x, sized S K (st x)) -> direct_phases S M Minv K om ga mu vel st x = Ok l ->
    length (map fst l) = K /\ length (map snd l) = K /\ (forall f, In f (map snd l) -> length f = n) /\
    forall i, (i < K)%nat -> nth i (map fst l) 0 = rsum (streamed N S (phase i st) x) /\ rsum (nth i (map snd l) []) = rsum (streamed N S (phase i st) x).
  Proof.
    intros Hs H. destruct (phases_spec om ga mu vel st x l Hs H) as [HL HP]. rewrite !map_length. split; [exact HL|]. split; [exact HL|]. split.
    - intros f Hf. apply in_map_iff in Hf as (p & <- & Hp). apply In_nth with (d := (0, [])) in Hp as (i & Hi & <-). destruct (HP i ltac:(lia)) as (f' & o & g & m & E & H1 & _). rewrite E. exact H1.
    - intros i Hi. destruct (HP i Hi) as (f' & o & g & m & E & H1 & H2 & _). pose proof (map_nth fst l (0, []) i) as F1. pose proof (map_nth snd l (0, []) i) as F2. rewrite E in F1, F2. cbn [fst snd] in F1, F2. rewrite F1, F2. auto.
  Qed.

  (* what a step does to the totals of the phases *)
  Lemma phases_conserved st st' i : (forall x, sized S K (st x)) -> (i < K)%nat ->
    (forall x, nth i (c_phi (st' x)) 0 = rsum (streamed N S (phase i st) x) /\ rsum (phase i st' x) = rsum (streamed N S (phase i st) x)) ->
    phase_total N i (fun x => c_phi (st' x)) = stored_total N i st /\ stored_total N i st' = stored_total N i st.
  Proof.
    intros Hs Hi H. unfold phase_total, stored_total. change (map (fun x => rsum (nth i (c_ch (st x)) [])) (torus_cells N)) with (map (fun x => rsum (phase i st x)) (torus_cells N)).
    rewrite <- (streamed_mass N S dirN (phase i st) (phase_length i st Hs Hi)). split; apply rsum_ext; intros x _; apply H.
  Qed.

  Section Direct.
    Variables (mu_kernel : (cells -> list R) -> cells -> list R) (hydro : list R -> list R -> res (list R)) (velocity : list R -> list R -> list R).
    Hypothesis Hmu : forall phi x, length (mu_kernel phi x) = K.
    Variable ok : list R -> Prop.
    Hypothesis Hhy : hydro_method S ok hydro.
    Variables (fd : nat -> list (vec * R)) (om ga : per_phase).
    Lemma force_mu_length phi mu x : length (force_mu (L := torus N) S K fd phi mu x) = dimD S.
    Proof. unfold force_mu. now rewrite map_length, seq_length. Qed.
    Lemma hyd_pulled (st : cells -> ph_cell) (x : cells) : (forall x, sized S K (st x)) -> pulled S (fun y => Ok (c_hyd (st y))) x = Ok (streamed N S (fun y => c_hyd (st y)) x).
    Proof. intros Hs. apply pulled_ok; [reflexivity|]. intros y. apply Hs. Qed.
    Lemma direct_total (st : cells -> ph_cell) (x : cells) : covers K om -> covers K ga -> (forall x, sized S K (st x)) -> ok (streamed N S (fun y => c_hyd (st y)) x) -> exists c, direct_step S M Minv K mu_kernel hydro velocity fd om ga st x = Ok c.
    Proof.
      intros Ho Hg Hs Hk. unfold direct_step. rewrite hyd_pulled by exact Hs. cbn [rbind].
      destruct (Hhy (force_mu S K fd (fun y => c_phi (st y)) (mu_kernel (fun y => c_phi (st y))) x) (streamed N S (fun y => c_hyd (st y)) x)) as (h & E & _); [apply force_mu_length|apply streamed_length|exact Hk|].
      rewrite E. cbn [rbind]. cbv zeta. set (u := velocity _ _). destruct (phases_total om ga (mu_kernel (fun y => c_phi (st y)) x) u st x Hs Ho Hg (Hmu _ _)) as [l El]. rewrite El. cbn [rbind]. eauto.
    Qed.
    Lemma direct_spec (st : cells -> ph_cell) (x : cells) c : (forall x, sized S K (st x)) -> ok (streamed N S (fun y => c_hyd (st y)) x) -> direct_step S M Minv K mu_kernel hydro velocity fd om ga st x = Ok c ->
      sized S K c /\ (forall i, (i < K)%nat -> nth i (c_phi c) 0 = rsum (streamed N S (phase i st) x) /\ rsum (nth i (c_ch c) []) = rsum (streamed N S (phase i st) x)) /\
      c_force c = force_mu S K fd (fun y => c_phi (st y)) (mu_kernel (fun y => c_phi (st y))) x /\ c_mu c = mu_kernel (fun y => c_phi (st y)) x /\
      c_vel c = velocity (c_force c) (streamed N S (fun y => c_hyd (st y)) x) /\ adds_impulse (dimD S) S (c_force c) (streamed N S (fun y => c_hyd (st y)) x) (c_hyd c) /\
      (forall i, (i < K)%nat -> exists o g, of_phase om i = Ok o /\ of_phase ga i = Ok g /\
         ch_collision S M Minv o g (nth i (c_mu c) 0) (c_vel c) (streamed N S (phase i st) x) = Ok (nth i (c_ch c) [])).
    Proof.
      intros Hs Hk H. unfold direct_step in H. rewrite hyd_pulled in H by exact Hs. cbn [rbind] in H. cbv zeta in H.
      destruct (Hhy (force_mu S K fd (fun y => c_phi (st y)) (mu_kernel (fun y => c_phi (st y))) x) (streamed N S (fun y => c_hyd (st y)) x)) as (h & E & HL & HI); [apply force_mu_length|apply streamed_length|exact Hk|].
      rewrite E in H. cbn [rbind] in H. apply rbind_inv in H as (l & El & H). injection H as <-. cbn [c_phi c_mu c_vel c_force c_ch c_hyd].
      destruct (phases_fields _ _ _ _ _ _ _ Hs El) as (P1 & P2 & P3 & P4). split; [split; [exact P1|]; split; [exact P2|]; split; [exact P3|exact HL]|]. split; [exact P4|]. repeat (split; [reflexivity || assumption|]).
      intros i Hi. destruct (phases_spec _ _ _ _ _ _ _ Hs El) as [_ Q]. destruct (Q i Hi) as (f' & o & g & m & E1 & E2 & E3 & E4 & E5 & E6 & E7). exists o, g. split; [exact E4|]. split; [exact E5|].
      apply entry_inv in E6 as [_ E6]. rewrite E6. pose proof (map_nth snd l (0, []) i) as F2. rewrite E1 in F2. cbn [snd] in F2. rewrite F2. exact E7.
    Qed.
  End Direct.

  Section Tensor.
    Variables (mu_kernel : (cells -> list R) -> cells -> list R) (hydro : list R -> list R -> res (list R)) (velocity : list R -> list R -> list R).
    Hypothesis Hmu : forall phi x, length (mu_kernel phi x) = K.
    Variable ok : list R -> Prop.
    Hypothesis Hhy : hydro_method S ok hydro.
    Variables (fd : nat -> list (vec * R)) (tensor : (cells -> list R) -> cells -> nat -> nat -> R) (extra : list (nat * list R)) (om ga : per_phase).
    Notation F := (force_pressure (L := torus N) S fd tensor extra).
    Lemma force_pressure_length phi x : length (F phi x) = dimD S.
    Proof. unfold force_pressure. now rewrite map_length, seq_length. Qed.
    (* post-collision populations before streaming *)
    Lemma hydro_choice (Fo : cells -> list R) (h : cells -> list R) : (forall y, length (Fo y) = dimD S) -> (forall y, length (h y) = n) -> (forall y, ok (h y)) ->
      exists g, (forall y, hydro (Fo y) (h y) = Ok (g y)) /\ (forall y, length (g y) = n) /\ forall y, adds_impulse (dimD S) S (Fo y) (h y) (g y).
    Proof.
      intros HF Hh Hk. exists (fun y => match hydro (Fo y) (h y) with Ok f => f | Err _ => [] end).
      split; [|split]; intros y; destruct (Hhy (Fo y) (h y) (HF y) (Hh y) (Hk y)) as (f' & E & H1 & H2); rewrite E; auto.
    Qed.
    Lemma tensor_spec (st : cells -> ph_cell) : (forall x, sized S K (st x)) -> (forall x, ok (c_hyd (st x))) -> exists g, (forall y, length (g y) = n) /\ (forall y, adds_impulse (dimD S) S (F (fun y => c_phi (st y)) y) (c_hyd (st y)) (g y)) /\
      (covers K om -> covers K ga -> forall x, exists c, tensor_step S M Minv K mu_kernel hydro velocity fd tensor extra om ga st x = Ok c) /\
      forall x c, tensor_step S M Minv K mu_kernel hydro velocity fd tensor extra om ga st x = Ok c ->
        sized S K c /\ (forall i, (i < K)%nat -> nth i (c_phi c) 0 = rsum (streamed N S (phase i st) x) /\ rsum (nth i (c_ch c) []) = rsum (streamed N S (phase i st) x)) /\
        c_force c = F (fun y => c_phi (st y)) x /\ c_hyd c = streamed N S g x /\ c_vel c = velocity (c_force c) (c_hyd c) /\ c_mu c = mu_kernel (fun y => c_phi (st y)) x.
    Proof.
      intros Hs Hk. destruct (hydro_choice (F (fun y => c_phi (st y))) (fun y => c_hyd (st y))) as (g & G1 & G2 & G3); [apply force_pressure_length|intros y; apply Hs|exact Hk|].
      exists g. split; [exact G2|]. split; [exact G3|].
      assert (E : forall x, pulled S (fun y => hydro (F (fun y => c_phi (st y)) y) (c_hyd (st y))) x = Ok (streamed N S g x)) by (intros x; apply pulled_ok; assumption).
      split.
      - intros Ho Hg x. unfold tensor_step. rewrite E. cbn [rbind]. cbv zeta. set (u := velocity _ _). destruct (phases_total om ga (mu_kernel (fun y => c_phi (st y)) x) u st x Hs Ho Hg (Hmu _ _)) as [l El]. rewrite El. cbn [rbind]. eauto.
      - intros x c H. unfold tensor_step in H. rewrite E in H. cbn [rbind] in H. cbv zeta in H. apply rbind_inv in H as (l & El & H). injection H as <-. cbn [c_phi c_mu c_vel c_force c_ch c_hyd].
        destruct (phases_fields _ _ _ _ _ _ _ Hs El) as (P1 & P2 & P3 & P4). split; [split; [exact P1|]; split; [exact P2|]; split; [exact P3|apply streamed_length]|]. auto 10.
    Qed.
  End Tensor.
End Steps.
