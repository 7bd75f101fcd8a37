(* C53: equations of state, the free energy built from them and the Maxwell construction. *)
From Coq Require Import List ZArith Bool Arith Reals Lra Lia Sorted.
From Verif Require Import StencilModel RealLib EosModel EosSpec EosProofs EosProofs2.
Import ListNotations.
Local Open Scope R_scope.

(* the van der Waals pressure solves its defining equation and is its only solution *)
Theorem C53_van_der_waals : forall rho Rg T a b, rho <> 0 -> b * rho <> 1 ->
  exists p, van_der_walls_eos rho Rg T a b = Some p /\ (forall P, (P + a * rho ^ 2) * (1 / rho - b) = Rg * T <-> P = p).
Proof.
  intros rho Rg T a b H1 H2. exists (vdw (Rg * T) a b rho). split; [now apply vdw_value|]. intros P.
  assert (E : (P + a * rho ^ 2) * (1 / rho - b) - Rg * T = (P - vdw (Rg * T) a b rho) * ((1 - b * rho) / rho)) by (unfold vdw; field; split; lra).
  assert (N : (1 - b * rho) / rho <> 0) by (apply Rmult_integral_contrapositive_currified; [lra|now apply Rinv_neq_0_compat]).
  split; intros H; [|subst P; lra]. assert (Z : (P - vdw (Rg * T) a b rho) * ((1 - b * rho) / rho) = 0) by lra. apply Rmult_integral in Z. destruct Z; [lra|contradiction].
Qed.
Print Assumptions C53_van_der_waals.
(* no pressure at density zero or at the excluded volume *)
Theorem C53_van_der_waals_rejected : forall rho Rg T a b, rho = 0 \/ b * rho = 1 -> van_der_walls_eos rho Rg T a b = None.
Proof.
  intros rho Rg T a b H. unfold van_der_walls_eos. destruct (Req_EM_T rho 0) as [->|N]; [now rewrite rdiv_zero|]. destruct H as [H|H]; [contradiction|].
  rewrite rdiv_ok by auto. cbn [obind]. replace (1 / rho - b) with 0; [now rewrite rdiv_zero|]. rewrite <- H. field. auto.
Qed.
Print Assumptions C53_van_der_waals_rejected.
(* both equations approach the ideal gas law at small densities *)
Theorem C53_ideal_gas : forall Rg T a b, 0 < b ->
  exists p q, (forall rho, 0 < rho < / b -> van_der_walls_eos rho Rg T a b = Some (p rho)) /\ derivable_pt_lim p 0 (Rg * T) /\ p 0 = 0 /\
              (forall rho, 0 < rho < 4 / b -> carnahan_starling_eos rho Rg T a b = Some (q rho)) /\ derivable_pt_lim q 0 (Rg * T) /\ q 0 = 0.
Proof.
  intros Rg T a b Hb. exists (vdw (Rg * T) a b), (cs (Rg * T) a b). repeat split.
  - intros rho H. apply vdw_value; [lra|]. pose proof (vdw_domain b rho Hb H). lra.
  - eapply dl_eq; [|apply vdw_derivative; lra]. field.
  - unfold vdw. field.
  - intros rho H. apply cs_value. pose proof (cs_domain b rho Hb H). lra.
  - eapply dl_eq; [|apply cs_derivative; lra]. cbv zeta. field.
  - unfold cs. cbv zeta. field.
Qed.
Print Assumptions C53_ideal_gas.
(* from the critical temperature on the van der Waals pressure increases with the density, below it does not *)
Theorem C53_van_der_waals_critical : forall Rg T a b, 0 < Rg -> 0 < a -> 0 < b -> 0 <= T ->
  exists Tc p, van_der_walls_critical_temperature a b Rg = Some Tc /\ 0 < Tc /\ (forall rho, 0 < rho < / b -> van_der_walls_eos rho Rg T a b = Some (p rho)) /\
    (Tc <= T -> increasing_on 0 (/ b) p) /\ (T < Tc -> exists x y, 0 < x /\ x < y /\ y < / b /\ p y < p x).
Proof.
  intros Rg T a b HR Ha Hb HT. unfold van_der_walls_critical_temperature. rewrite rdiv_ok by lra. cbn [obind]. rewrite rdiv_ok by lra.
  exists (8 * a / 27 / b / Rg), (vdw (Rg * T) a b). split; [reflexivity|]. split; [repeat apply Rdiv_lt_0_compat; lra|]. split.
  { intros rho H. apply vdw_value; [lra|]. pose proof (vdw_domain b rho Hb H). lra. }
  assert (E : Rg * (8 * a / 27 / b / Rg) = 8 * a / (27 * b)) by (field; lra). split; intros H.
  - apply vdw_increasing; auto. rewrite <- E. apply Rmult_le_compat_l; lra.
  - apply vdw_not_increasing; auto. rewrite <- E. split; [apply Rmult_le_pos; lra|apply Rmult_lt_compat_l; lra].
Qed.
Print Assumptions C53_van_der_waals_critical.
(* on the critical isotherm slope and curvature vanish at a third of the largest density *)
Theorem C53_van_der_waals_critical_point : forall Rg a b Tc, 0 < Rg -> 0 < a -> 0 < b -> van_der_walls_critical_temperature a b Rg = Some Tc ->
  exists p p', (forall rho, 0 < rho < / b -> van_der_walls_eos rho Rg Tc a b = Some (p rho)) /\ has_derivative_on 0 (/ b) p p' /\ p' (/ (3 * b)) = 0 /\ derivable_pt_lim p' (/ (3 * b)) 0.
Proof.
  intros Rg a b Tc HR Ha Hb. unfold van_der_walls_critical_temperature. rewrite rdiv_ok by lra. cbn [obind]. rewrite rdiv_ok by lra. intros E. injection E as <-.
  set (RT := Rg * (8 * a / 27 / b / Rg)). assert (ER : RT = 8 * a / (27 * b)) by (unfold RT; field; lra).
  exists (vdw RT a b), (fun x => RT / (1 - b * x) ^ 2 - 2 * a * x). repeat split.
  - intros rho H. apply vdw_value; [lra|]. pose proof (vdw_domain b rho Hb H). lra.
  - intros x Hx. apply vdw_derivative. pose proof (vdw_domain b x Hb Hx). lra.
  - rewrite ER. field. lra.
  - assert (E : 1 - b * / (3 * b) = 2 / 3) by (field; lra). eapply dl_eq; [|apply vdw_second; rewrite E; lra]. rewrite E, ER. field. lra.
Qed.
Print Assumptions C53_van_der_waals_critical_point.
(* the Carnahan-Starling temperature is a lower bound that is sharp up to 0.03 percent.  Missing for the full statement (increasing exactly
   from the returned temperature on): false for the rounded constant, see the next theorem *)
Theorem C53_carnahan_starling_critical_partial : forall Rg T a b, 0 < Rg -> 0 < a -> 0 < b -> 0 <= T ->
  exists Tc p, carnahan_starling_critical_temperature a b Rg = Some Tc /\ 0 < Tc /\ (forall rho, 0 < rho < 4 / b -> carnahan_starling_eos rho Rg T a b = Some (p rho)) /\
    (10003 / 10000 * Tc <= T -> increasing_on 0 (4 / b) p) /\ (T < Tc -> exists x y, 0 < x /\ x < y /\ y < 4 / b /\ p y < p x).
Proof.
  intros Rg T a b HR Ha Hb HT. unfold carnahan_starling_critical_temperature. rewrite rdiv_ok by lra. cbn [obind]. rewrite rdiv_ok by lra.
  exists (3773 / 10000 * a / b / Rg), (cs (Rg * T) a b). split; [reflexivity|]. split; [repeat apply Rdiv_lt_0_compat; lra|]. split.
  { intros rho H. apply cs_value. pose proof (cs_domain b rho Hb H). lra. }
  assert (E : Rg * (3773 / 10000 * a / b / Rg) = 3773 / 10000 * a / b) by (field; lra). assert (0 < a / b) by (apply Rdiv_lt_0_compat; lra). split; intros L.
  - apply cs_increasing; auto. apply Rmult_le_compat_l with (r := Rg) in L; [|lra]. replace (Rg * (10003 / 10000 * (3773 / 10000 * a / b / Rg))) with (10003 / 10000 * (3773 / 10000) * (a / b)) in L by (field; lra).
    replace (3774 / 10000 * a / b) with (3774 / 10000 * (a / b)) by (field; lra). lra.
  - apply cs_not_increasing; auto. rewrite <- E. split; [apply Rmult_le_pos; lra|apply Rmult_le_compat_l; lra].
Qed.
Print Assumptions C53_carnahan_starling_critical_partial.
(* at the returned temperature itself the pressure still decreases somewhere *)
Theorem C53_carnahan_starling_critical_refuted : forall Rg a b Tc, 0 < Rg -> 0 < a -> 0 < b -> carnahan_starling_critical_temperature a b Rg = Some Tc ->
  exists x y px py, 0 < x /\ x < y /\ y < 4 / b /\ carnahan_starling_eos x Rg Tc a b = Some px /\ carnahan_starling_eos y Rg Tc a b = Some py /\ py < px.
Proof.
  intros Rg a b Tc HR Ha Hb. unfold carnahan_starling_critical_temperature. rewrite rdiv_ok by lra. cbn [obind]. rewrite rdiv_ok by lra. intros E. injection E as <-.
  destruct (cs_not_increasing (Rg * (3773 / 10000 * a / b / Rg)) a b Ha Hb) as (x & y & H1 & H2 & H3 & H4).
  { assert (E : Rg * (3773 / 10000 * a / b / Rg) = 3773 / 10000 * a / b) by (field; lra). rewrite E. split; [|lra]. apply Rlt_le. repeat apply Rdiv_lt_0_compat; lra. }
  exists x, y. eexists. eexists. repeat (split; [eassumption|]). pose proof (cs_domain b x Hb ltac:(lra)). pose proof (cs_domain b y Hb ltac:(lra)).
  split; [apply cs_value; lra|]. split; [apply cs_value; lra|exact H4].
Qed.
Print Assumptions C53_carnahan_starling_critical_refuted.

(* the free energy computed from an equation of state gives that equation back, for every integration constant *)
Theorem C53_free_energy : forall lo hi p integral, 0 <= lo -> has_derivative_on lo hi integral (fun x => p x / x ^ 2) ->
  forall K, exists mu, has_derivative_on lo hi (free_energy_from_eos integral K) mu /\ (forall x, lo < x < hi -> eos_from_free_energy (free_energy_from_eos integral K) mu x = p x).
Proof. intros lo hi p I Hlo HI K. exists (mu p I K). split; [intros x Hx; now apply (psi_derivative lo hi)|intros x Hx; now apply (psi_consistent lo hi p I)]. Qed.
Print Assumptions C53_free_energy.
(* and every free energy with this pressure is of that form *)
Theorem C53_free_energy_unique : forall lo hi p integral psi mu, 0 <= lo -> lo < hi -> has_derivative_on lo hi integral (fun x => p x / x ^ 2) ->
  has_derivative_on lo hi psi mu -> (forall x, lo < x < hi -> eos_from_free_energy psi mu x = p x) ->
  exists K, forall x, lo < x < hi -> psi x = free_energy_from_eos integral K x.
Proof. intros. eapply psi_unique; eauto. Qed.
Print Assumptions C53_free_energy_unique.
(* both equations of state have an integral on their whole range of densities *)
Theorem C53_integrals : forall Rg T a b, 0 < b ->
  (exists p I, (forall rho, 0 < rho < / b -> van_der_walls_eos rho Rg T a b = Some (p rho)) /\ has_derivative_on 0 (/ b) I (fun x => p x / x ^ 2)) /\
  (exists p I, (forall rho, 0 < rho < 4 / b -> carnahan_starling_eos rho Rg T a b = Some (p rho)) /\ has_derivative_on 0 (4 / b) I (fun x => p x / x ^ 2)).
Proof.
  intros Rg T a b Hb. split.
  - exists (vdw (Rg * T) a b), (fun x => Rg * T * ln (x / (1 - b * x)) - a * x). split.
    + intros rho H. apply vdw_value; [lra|]. pose proof (vdw_domain b rho Hb H). lra.
    + intros x Hx. now apply vdw_integral.
  - exists (cs (Rg * T) a b), (fun x => let e := b * x / 4 in Rg * T * (ln x + (4 * e - 3 * e ^ 2) / (1 - e) ^ 2) - a * x). split.
    + intros rho H. apply cs_value. pose proof (cs_domain b rho Hb H). lra.
    + intros x Hx. now apply cs_integral.
Qed.
Print Assumptions C53_integrals.

(* the chosen constant makes the two bulk energies equal, and no other does *)
Theorem C53_integration_constant : forall integral gas liquid, gas <> liquid ->
  exists K, integration_constant integral gas liquid = Ok K /\ (forall k, free_energy_from_eos integral k gas = free_energy_from_eos integral k liquid <-> k = K).
Proof.
  intros I g l H. destruct (constant_ok I g l H) as (K & HK & E). exists K. split; [exact HK|]. intros k. split; [|now intros ->].
  intros Ek. apply (constant_unique I g l H) in Ek. congruence.
Qed.
Print Assumptions C53_integration_constant.
Theorem C53_equal_densities : forall integral rho lambdas x c1 c2, bulk_energy integral rho rho lambdas x c1 c2 = Err AssertionError.
Proof. intros. unfold bulk_energy, integration_constant. rewrite (Rminus_diag_eq rho rho eq_refl). now rewrite rdiv_zero. Qed.
Print Assumptions C53_equal_densities.
Theorem C53_few_lambdas : forall integral gas liquid lambdas x c1 c2, gas <> liquid -> (length lambdas < 3)%nat -> bulk_energy integral gas liquid lambdas x c1 c2 = Err IndexError.
Proof.
  intros I g l lam x c1 c2 H Hl. destruct (constant_ok I g l H) as (K & HK & _). unfold bulk_energy. rewrite HK. cbn [rbind]. destruct lam as [|? [|? [|? ?]]]; cbn in Hl; try reflexivity. lia.
Qed.
Print Assumptions C53_few_lambdas.
(* both bulk densities are stationary exactly when they have equal pressures and equal areas *)
Theorem C53_coexistence : forall hi p integral area gas liquid K, has_derivative_on 0 hi integral (fun x => p x / x ^ 2) ->
  (forall v, / hi < v -> derivable_pt_lim area v (p (/ v))) -> 0 < gas < hi -> 0 < liquid < hi -> gas <> liquid -> integration_constant integral gas liquid = Ok K ->
  (exists q, coexist p area gas liquid q) <->
  (derivable_pt_lim (free_energy_from_eos integral K) gas 0 /\ derivable_pt_lim (free_energy_from_eos integral K) liquid 0).
Proof.
  intros hi p I area g l K HI HA Hg Hl Hn HK. rewrite (coexist_iff hi p I area HI HA g l Hg Hl Hn K HK).
  pose proof (psi_derivative 0 hi p I (Rle_refl 0) HI K g Hg) as Dg. pose proof (psi_derivative 0 hi p I (Rle_refl 0) HI K l Hl) as Dl.
  split; [intros [E1 E2]; rewrite E1 in Dg; rewrite E2 in Dl; auto|]. intros [D1 D2]. split; [exact (uniqueness_limite _ _ _ _ Dg D1)|exact (uniqueness_limite _ _ _ _ Dl D2)].
Qed.
Print Assumptions C53_coexistence.
(* with the coexisting densities of a subcritical isotherm the free energy is a double well with its two minima there, of depth minus the
   coexistence pressure *)
Theorem C53_double_well : forall hi p integral area gas middle liquid q K, has_derivative_on 0 hi integral (fun x => p x / x ^ 2) ->
  (forall v, / hi < v -> derivable_pt_lim area v (p (/ v))) -> coexist p area gas liquid q -> isotherm_shape p gas middle liquid q hi ->
  integration_constant integral gas liquid = Ok K ->
  let psi := free_energy_from_eos integral K in
  psi gas = - q /\ psi liquid = - q /\ (forall x, 0 < x < hi -> x <> gas -> x <> liquid -> - q < psi x).
Proof.
  intros hi p I area g m l q K HI HA Hc Hs HK psi. pose proof Hs as ((S1 & S2) & (S3 & S4) & _).
  assert (Hg : 0 < g < hi) by lra. assert (Hl : 0 < l < hi) by lra. assert (Hn : g <> l) by lra.
  destruct (psi_pressure hi p I area HI HA g l Hg Hl Hn q K HK Hc) as [P1 P2]. split; [exact P1|]. split; [exact P2|].
  intros x Hx N1 N2. exact (psi_outside hi p I area HI HA g l Hg Hl Hn m q K HK Hc Hs x Hx N1 N2).
Qed.
Print Assumptions C53_double_well.
(* the bulk energy of the ternary model is non-negative and vanishes exactly in the pure phases *)
Theorem C53_bulk_energy : forall hi p integral area gas middle liquid q l0 l1 l2 rest rho c1 c2, has_derivative_on 0 hi integral (fun x => p x / x ^ 2) ->
  (forall v, / hi < v -> derivable_pt_lim area v (p (/ v))) -> coexist p area gas liquid q -> isotherm_shape p gas middle liquid q hi ->
  0 < l0 -> 0 < l1 -> 0 < l2 -> 0 < rho < hi ->
  exists E, bulk_energy integral gas liquid (l0 :: l1 :: l2 :: rest) rho c1 c2 = Ok E /\ 0 <= E /\
    (E = 0 <-> (rho = gas \/ rho = liquid) /\ (c1 = 0 \/ c1 = 1) /\ (c2 = 0 \/ c2 = 1)).
Proof. intros. eapply bulk_energy_ok; eauto. Qed.
Print Assumptions C53_bulk_energy.

(* what the Maxwell construction returns coexists up to the tolerance: exactly equal pressures, areas equal up to the tolerance *)
Theorem C53_maxwell_sound : forall p zeros area tolerance fuel p_max gas liquid, 0 < p_max ->
  (forall c v, In v (zeros c) -> 0 < v /\ p (/ v) + c = 0) -> (forall c, StronglySorted Rlt (zeros c)) ->
  maxwell_construction zeros area tolerance fuel p_max = Some (Ok (gas, liquid)) ->
  exists q, 0 < q < p_max /\ p gas = q /\ p liquid = q /\ 0 < gas < liquid /\ Rabs (area (/ gas) - area (/ liquid) - q * (/ gas - / liquid)) <= tolerance.
Proof.
  intros p zeros area tol fuel pm g l Hp Hz Hs H. unfold maxwell_construction in H. destruct (Rlt_dec tol (Rabs (tol * 2))); [|discriminate].
  destruct (bisect_ok zeros area tol fuel (- pm) 0 ((0 + - pm) / 2) g l ltac:(lra) eq_refl H) as (c & up & mid & low & rest & Hc & E & _ & _ & -> & -> & D).
  assert (Iu : In up (zeros c)) by (rewrite E; apply in_or_app; cbn; auto). assert (Il : In low (zeros c)) by (rewrite E; apply in_or_app; cbn; auto).
  destruct (Hz c up Iu) as [U1 U2]. destruct (Hz c low Il) as [L1 L2]. exists (- c). split; [lra|]. split; [lra|]. split; [lra|].
  assert (LU : low < up). { pose proof (Hs c) as St. rewrite E in St. clear - St. induction rest as [|x r IH]; [|inversion St; auto]. cbn in St. inversion St as [|? ? _ F]. inversion F as [|? ? _ F2]. now inversion F2. }
  split; [split; [now apply Rinv_0_lt_compat|apply Rinv_lt_contravar; [apply Rmult_lt_0_compat; lra|auto]]|].
  rewrite !Rinv_inv. unfold deviation in D. replace (area up - area low - - c * (up - low)) with (area up + c * up - (area low + c * low)) by ring. exact D.
Qed.
Print Assumptions C53_maxwell_sound.
(* the construction ends when every isotherm level between zero and p_max has three volumes, the area difference grows with the shift,
   vanishes at one shift and is continuous there *)
Theorem C53_maxwell_ends : forall zeros area tolerance p_max difference shift, 0 < tolerance -> 0 < p_max -> - p_max < shift < 0 ->
  (forall c, - p_max < c < 0 -> exists rest lower middle upper, zeros c = rest ++ [lower; middle; upper] /\ 0 < lower /\ 0 < upper /\
     difference c = (area upper - area lower) + c * (upper - lower)) ->
  (forall x y, - p_max < x -> x < y -> y < 0 -> difference x < difference y) -> difference shift = 0 -> continuity_pt difference shift ->
  exists fuel gas liquid, maxwell_construction zeros area tolerance fuel p_max = Some (Ok (gas, liquid)).
Proof.
  intros zeros area tol pm df cs Ht Hp Hcs Hz Hm H0 Hc. unfold continuity_pt, continue_in, limit1_in, limit_in in Hc. destruct (Hc tol Ht) as (al & Ha & Hd). cbn in Hd. unfold R_dist in Hd.
  destruct (power_large pm (al / 2) Hp ltac:(lra)) as [n Hn]. exists (Datatypes.S n). unfold maxwell_construction.
  destruct (Rlt_dec tol (Rabs (tol * 2))) as [L|N]; [|rewrite Rabs_pos_eq in N by lra; lra].
  apply (bisect_ends zeros area tol cs n (- pm) 0 ((0 + - pm) / 2) (al / 2)); try lra. intros c Hcc. destruct (Hz c Hcc) as (rest & lo & mi & up & E & P1 & P2 & Ed).
  exists rest, lo, mi, up. split; [exact E|]. split; [auto|]. split; [auto|].
  assert (Edv : deviation area lo up c = df c) by (unfold deviation; rewrite Ed; ring). rewrite Edv. split; [intros; rewrite <- H0; apply Hm; lra|]. split; [intros; rewrite <- H0; apply Rlt_le, Hm; lra|].
  intros Hab. destruct (Req_EM_T c cs) as [->|N]; [rewrite H0, Rabs_R0; lra|].
  specialize (Hd c). rewrite H0, Rminus_0_r in Hd. apply Rlt_le, Hd. split; [split; [exact I|auto]|lra].
Qed.
Print Assumptions C53_maxwell_ends.
(* a zero tolerance is not usable *)
Theorem C53_maxwell_zero_tolerance : forall zeros area fuel p_max, maxwell_construction zeros area 0 fuel p_max = Some (Err UnboundLocalError).
Proof. intros. unfold maxwell_construction. rewrite Rmult_0_l, Rabs_R0. destruct (Rlt_dec 0 0); [lra|reflexivity]. Qed.
Print Assumptions C53_maxwell_zero_tolerance.
(* close below the critical temperature the construction fails in its first round: van der Waals, R = 8/3, a = 3, b = 1/3 (critical
   temperature 1), T = 49/54; the larger stationary volume is 3/2 *)
Theorem C53_maxwell_near_critical_refuted :
  van_der_walls_critical_temperature 3 (1 / 3) (8 / 3) = Some 1 /\
  exists pressure, (forall v, v <> 0 -> v <> 1 / 3 -> van_der_walls_eos (/ v) (8 / 3) (49 / 54) 3 (1 / 3) = Some (pressure v)) /\
    derivable_pt_lim pressure (3 / 2) 0 /\ (forall v, 3 / 2 < v -> pressure v < pressure (3 / 2)) /\
    forall zeros area tolerance fuel, 0 < tolerance -> (forall c v, In v (zeros c) <-> v <> 0 /\ v <> 1 / 3 /\ pressure v + c = 0) -> (forall c, NoDup (zeros c)) ->
      maxwell_construction zeros area tolerance (S fuel) (pressure (3 / 2)) = Some (Err IndexError).
Proof.
  split. { unfold van_der_walls_critical_temperature. rewrite rdiv_ok by lra. cbn [obind]. rewrite rdiv_ok by lra. f_equal. field. }
  exists near_critical. destruct near_maximum as (V & D & M). split; [|split; [exact D|split; [rewrite V; exact M|]]].
  - intros v H1 H2. unfold near_critical. apply vdw_value; [now apply Rinv_neq_0_compat|]. intros E. apply H2. apply Rmult_eq_compat_r with (r := v) in E. rewrite Rmult_assoc, Rinv_l in E by auto. lra.
  - intros zeros area tol fuel Ht Hz Hn. now apply near_index.
Qed.
Print Assumptions C53_maxwell_near_critical_refuted.

(* a concrete isotherm with coexisting densities 1 and 2 at pressure 1: psi = (x - 1)^2 (x - 2)^2 - 1 *)
Definition example_well (x : R) : R := (x - 1) ^ 2 * (x - 2) ^ 2 - 1.
Definition example_pressure (x : R) : R := (x - 1) * (x - 2) * (3 * x ^ 2 - 3 * x - 2) + 1.
Example C53_isotherm : exists middle,
  has_derivative_on 0 3 (fun x => example_well x / x) (fun x => example_pressure x / x ^ 2) /\
  (forall v, / 3 < v -> derivable_pt_lim (fun v => - (example_well (/ v) / / v)) v (example_pressure (/ v))) /\
  coexist example_pressure (fun v => - (example_well (/ v) / / v)) 1 2 1 /\ isotherm_shape example_pressure 1 middle 2 1 3.
Proof.
  assert (DW : forall x, derivable_pt_lim example_well x (2 * (x - 1) * (x - 2) * (2 * x - 3))).
  { intros x. unfold example_well. eapply dl_eq; [|apply dl_minus; [apply dl_mult; apply (dl_pow (fun x => x - _)); apply dl_minus; [apply dl_id|apply dl_const|apply dl_id|apply dl_const]|apply dl_const]]. cbn [INR pred pow]. ring. }
  assert (DI : forall x, 0 < x -> derivable_pt_lim (fun x => example_well x / x) x (example_pressure x / x ^ 2)).
  { intros x Hx. eapply dl_eq; [|apply dl_div; [lra|apply DW|apply dl_id]]. unfold example_well, example_pressure, Rsqr. field. lra. }
  assert (Q : 0 <= 33) by lra. pose proof (sqrt_sqrt 33 Q) as SQ. pose proof (sqrt_pos 33) as SP. set (r := sqrt 33) in *.
  assert (R5 : 5 < r < 6) by nra. exists ((3 + r) / 6).
  assert (F : forall x, 3 * x ^ 2 - 3 * x - 2 = 3 * (x - (3 + r) / 6) * (x - (3 - r) / 6)) by (intros x; transitivity (3 * x ^ 2 - 3 * x + (9 - r * r) / 12); [rewrite SQ; field|field]).
  repeat split.
  - intros x Hx. apply DI. lra.
  - intros v Hv. assert (0 < v) by lra. apply (dl_ext (fun v => (-1) * (example_well (/ v) / / v))); [intros; ring|].
    eapply dl_eq; [|apply (dl_mult (fun _ => -1)); [apply dl_const|apply (dl_comp (fun v => / v) (fun x => example_well x / x)); [apply dl_inv; lra|apply DI; now apply Rinv_0_lt_compat]]]. field. lra.
  - unfold example_pressure. lra.
  - unfold example_pressure. lra.
  - unfold example_well. field.
  - lra.
  - lra.
  - lra.
  - lra.
  - intros x Hx. unfold example_pressure. assert (0 < (1 - x) * (2 - x)) by (apply Rmult_lt_0_compat; lra). assert (0 < - (3 * x ^ 2 - 3 * x - 2)) by nra. pose proof (Rmult_lt_0_compat _ _ H H0). nra.
  - intros x Hx. unfold example_pressure. rewrite F. assert (A : 0 < (x - 1) * (2 - x)) by (apply Rmult_lt_0_compat; lra). assert (B : 0 < ((3 + r) / 6 - x) * (x - (3 - r) / 6)) by (apply Rmult_lt_0_compat; lra). pose proof (Rmult_lt_0_compat _ _ A B). nra.
  - intros x Hx. unfold example_pressure. rewrite F. assert (A : 0 < (x - 1) * (2 - x)) by (apply Rmult_lt_0_compat; lra). assert (B : 0 < (x - (3 + r) / 6) * (x - (3 - r) / 6)) by (apply Rmult_lt_0_compat; lra). pose proof (Rmult_lt_0_compat _ _ A B). nra.
  - intros x Hx. unfold example_pressure. rewrite F. assert (A : 0 < (x - 1) * (x - 2)) by (apply Rmult_lt_0_compat; lra). assert (B : 0 < (x - (3 + r) / 6) * (x - (3 - r) / 6)) by (apply Rmult_lt_0_compat; lra). pose proof (Rmult_lt_0_compat _ _ A B). nra.
Qed.
(* a zigzag isotherm 2 - v, v - 2, 6 - v meets the hypotheses of C53_maxwell_ends: levels q have the volumes 2 - q, 2 + q, 6 - q *)
Definition zigzag_area (v : R) : R := if Rle_dec v 2 then 2 * v - v ^ 2 / 2 else if Rle_dec v 4 then 2 + (v - 2) ^ 2 / 2 else 6 * v - v ^ 2 / 2 - 12.
Example C53_zigzag : (forall c, - 2 < c < 0 -> exists rest lower middle upper, [2 + c; 2 - c; 6 + c] = rest ++ [lower; middle; upper] /\ 0 < lower /\ 0 < upper /\
     4 + 4 * c = (zigzag_area upper - zigzag_area lower) + c * (upper - lower)) /\
  maxwell_construction (fun c => [2 + c; 2 - c; 6 + c]) zigzag_area (1 / 10000) 1 2 = Some (Ok (/ 5, 1)).
Proof.
  assert (A1 : forall c, - 2 < c < 0 -> zigzag_area (2 + c) = 2 - c ^ 2 / 2) by (intros c Hc; unfold zigzag_area; destruct (Rle_dec (2 + c) 2); [field|lra]).
  assert (A2 : forall c, - 2 < c < 0 -> zigzag_area (6 + c) = 6 - c ^ 2 / 2) by (intros c Hc; unfold zigzag_area; destruct (Rle_dec (6 + c) 2); [lra|]; destruct (Rle_dec (6 + c) 4); [lra|field]).
  split.
  - intros c Hc. exists [], (2 + c), (2 - c), (6 + c). split; [reflexivity|]. split; [lra|]. split; [lra|]. rewrite A1, A2 by auto. field.
  - unfold maxwell_construction. destruct (Rlt_dec (1 / 10000) (Rabs (1 / 10000 * 2))) as [L|N]; [|rewrite Rabs_pos_eq in N; lra].
    cbn [bisect rev app]. replace ((0 + - (2)) / 2) with (-1) by lra. assert (E : deviation zigzag_area (2 + -1) (6 + -1) (-1) = 0) by (unfold deviation; rewrite A1, A2 by lra; field). rewrite E, Rabs_R0.
    destruct (Rlt_dec (1 / 10000) 0); [lra|]. rewrite !rdiv_ok by lra. do 3 f_equal; field.
Qed.
