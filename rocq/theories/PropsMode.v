(* C31, C33, C39: relaxation rates of the modes, Gram-Schmidt orthogonalisation, default moment sets *)
From Coq Require Import String List ZArith QArith Qreals Reals Lra Lia Bool Arith Permutation.
From Verif Require Import StencilModel StencilProofs StencilProofs2 RealLib LinLib LinQ TransSpec MomModel EqModel ModeModel ModeSpec ModeProofs ModeProofs2 ModeProofs3 ModeProofs4.
Import ListNotations.
Local Open Scope nat_scope.

(* ---- C33 ---- *)
(* pairwise orthogonal, the first k results span what the first k inputs span, and result k is input k plus a combination of earlier results *)
Theorem C33_orthogonal : forall ms S weights out, gram_schmidt ms S weights = Ok out ->
  length out = length ms /\
  orthogonal (match weights with Some w => w | None => repeat 1%Q (sizeQ S) end) S out /\
  (forall k, same_span (firstn k out) (firstn k ms)) /\
  (forall k, k < length ms -> exists c, length c = k /\ forall x, (peval (toR (nth k out [])) x = peval (toR (nth k ms [])) x - lin c (firstn k out) x)%R).
Proof.
  intros ms S weights out H. destruct (gram_schmidt_sound ms S weights out H) as (H1 & H2 & H3 & H4).
  split; [exact H1|]. split; [unfold the_weights in H2; destruct weights; exact H2|]. split; [exact H3|exact H4].
Qed.
Print Assumptions C33_orthogonal.
(* with positive weights the input is accepted exactly if all moments but the last are independent on the stencil *)
Theorem C33_rejects_dependent : forall ms S w, length w = sizeQ S -> ms <> [] -> Forall (fun a => (0 < Q2R a)%R) w ->
  ((exists out, gram_schmidt ms S (Some w) = Ok out) <-> independent_on S (removelast ms)) /\
  (~ independent_on S (removelast ms) -> gram_schmidt ms S (Some w) = Err ValueError).
Proof. intros ms S w. exact (gram_schmidt_accepts ms S (Some w)). Qed.
Print Assumptions C33_rejects_dependent.
Theorem C33_rejects_dependent_unweighted : forall ms S, ms <> [] ->
  ((exists out, gram_schmidt ms S None = Ok out) <-> independent_on S (removelast ms)) /\
  (~ independent_on S (removelast ms) -> gram_schmidt ms S None = Err ValueError).
Proof. intros ms S H. apply gram_schmidt_accepts; [apply repeat_length|exact H|apply repeat_pos]. Qed.
Print Assumptions C33_rejects_dependent_unweighted.
Theorem C33_invalid_arguments : forall ms S w,
  (length w <> sizeQ S -> gram_schmidt ms S (Some w) = Err AssertionError) /\
  (length w = sizeQ S -> gram_schmidt [] S (Some w) = Err IndexError) /\ gram_schmidt [] S None = Err IndexError.
Proof. exact gram_schmidt_errors. Qed.
Print Assumptions C33_invalid_arguments.
(* the result does not depend on the order of the directions *)
Theorem C33_direction_order : forall (w : vec -> Q) S S' ms, Permutation S S' ->
  gram_schmidt ms S (Some (map w S)) = gram_schmidt ms S' (Some (map w S')) /\ gram_schmidt ms S None = gram_schmidt ms S' None.
Proof. intros w S S' ms H. split; [now apply gram_schmidt_perm|]. rewrite !gram_schmidt_ones. now apply gram_schmidt_perm. Qed.
Print Assumptions C33_direction_order.
(* a dependent last moment is not detected: x^3 = x on D2Q9, the result is a moment that vanishes on the stencil *)
Definition dependent_example : list qpoly := [expand ex; expand (ex ^ 3)%expr].
Theorem C33_dependent_last_refuted : exists out, gram_schmidt dependent_example D2Q9_walberla None = Ok out /\
  ~ independent_on D2Q9_walberla dependent_example /\ forall d, In d D2Q9_walberla -> peval (toR (nth 1 out [])) (vecR d) = 0%R.
Proof.
  eexists. split; [vm_compute; reflexivity|].
  assert (Q1 : Q2R 1 = 1%R) by apply RMicromega.Q2R_1. split.
  - intros H. specialize (H [1; -1]%R eq_refl). assert (F : Forall (fun a => a = 0%R) [1; -1]%R); [|inversion F; subst; lra].
    apply H. intros d Hd. unfold lin, dependent_example. cbn [combine map rsum fold_right fst snd]. rewrite !ev_expand by (cbn; auto). cbn [denote].
    repeat (destruct Hd as [<-|Hd]; [cbn [nth vecR map pow]; lra|]). destruct Hd.
  - intros d Hd. cbn [nth]. unfold toR, peval. cbn [map fst snd rsum fold_right].
    assert (Qm : Q2R (-1) = (-1)%R) by (unfold Q2R; cbn; lra). rewrite ?Q1, ?Qm.
    repeat (destruct Hd as [<-|Hd]; [cbn [vecR map rmono pow]; lra|]). destruct Hd.
Qed.
Print Assumptions C33_dependent_last_refuted.
Example C33_D2Q9 : exists out, gram_schmidt [expand one_e; expand (ex ^ 2)%expr; expand (ey ^ 2)%expr] D2Q9_walberla None = Ok out /\
  nth 1 out [] = [(1%Q, [2; 0; 0]); (-2 # 3, [0; 0; 0])].
Proof. eexists. split; vm_compute; reflexivity. Qed.

(* ---- C39 ---- *)
(* the shear/bulk classification, for every polynomial in three symbols and dimension *)
Theorem C39_bulk : forall p dim, Forall (fun t => length (snd t) = 3) p -> 1 <= dim <= 3 ->
  is_bulk_moment p dim = true <-> trace_like dim p.
Proof. exact is_bulk_spec. Qed.
Print Assumptions C39_bulk.
Theorem C39_shear : forall p dim, Forall (fun t => length (snd t) = 3) p -> 1 <= dim <= 3 ->
  is_shear_moment p dim = true <-> degree_two p /\ ~ trace_like dim p.
Proof. exact is_shear_spec. Qed.
Print Assumptions C39_shear.
(* "bulk" is not only the trace: a cross term is ignored *)
Theorem C39_bulk_cross_term_refuted : exists p, expanded p /\ is_bulk_moment p 2 = true /\ ~ no_cross_terms p.
Proof.
  exists (expand (ex ^ 2 + ey ^ 2 + ex * ey)%expr). split; [|split; [vm_compute; reflexivity|]].
  - replace (expand _) with [(1%Q, [2; 0; 0]); (1%Q, [1; 1; 0]); (1%Q, [0; 2; 0])] by (vm_compute; reflexivity). split.
    + cbn [map snd]. repeat constructor; cbn; intuition discriminate.
    + repeat constructor; cbn; discriminate.
  - intros H. destruct (H (1%Q, [1; 1; 0])) as (a & Ha); [vm_compute; tauto|reflexivity|]. cbn [snd] in Ha.
    destruct a as [|[|[|a]]]; try discriminate.
Qed.
Print Assumptions C39_bulk_cross_term_refuted.
(* the order of a moment is the degree of its lexicographically leading monomial: x + y^2 counts as first order *)
Theorem C39_order_refuted : exists p, expanded p /\ degree_two p /\ get_order p = 1.
Proof.
  exists [(1%Q, [1; 0; 0]); (1%Q, [0; 2; 0])]. split; [|split; [|reflexivity]].
  - split; [cbn; repeat constructor; cbn; intuition discriminate|repeat constructor; cbn; discriminate].
  - split; [intros t [<-|[<-|[]]]; cbn; lia|]. exists (1%Q, [0; 2; 0]). cbn. auto.
Qed.
Print Assumptions C39_order_refuted.
(* cascaded sets: exactly for the five standard stencils, in any order of the directions, and always a basis *)
Theorem C39_cascaded_basis : forall S, standard S -> exists gs, cascaded_moment_sets_literature S = Ok gs /\ moment_basis S (map expand (concat gs)).
Proof. exact cascaded_basis. Qed.
Print Assumptions C39_cascaded_basis.
Theorem C39_cascaded_only : forall S, NoDup S -> ~ standard S -> cascaded_moment_sets_literature S = Err ValueError.
Proof. exact cascaded_other. Qed.
Print Assumptions C39_cascaded_only.
Theorem C39_default_basis : forall S, standard S -> exists ps, get_default_moment_set_for_stencil S = Ok ps /\ moment_basis S ps.
Proof. exact default_basis. Qed.
Print Assumptions C39_default_basis.
(* the default set is chosen by size: for another stencil with nine directions it is no basis *)
Definition cross9 : stencil := [[0; 0]; [1; 0]; [-1; 0]; [0; 1]; [0; -1]; [2; 0]; [-2; 0]; [0; 2]; [0; -2]]%Z.
Theorem C39_default_by_size_refuted : exists ps, get_default_moment_set_for_stencil cross9 = Ok ps /\ NoDup cross9 /\ ~ moment_basis cross9 ps.
Proof.
  eexists. split; [vm_compute; reflexivity|]. split; [repeat constructor; cbn; intuition discriminate|].
  intros [_ H]. destruct (H [0; 0; 0; 0; 0; 1; 0; 0; 0]%R eq_refl) as (f & [L E] & _).
  do 9 (destruct f as [|? f]; [discriminate|]). destruct f; [|discriminate]. cbn [map] in E. injection E as _ _ _ _ _ E _ _ _.
  revert E. unfold poly_moment, toR, peval. cbn [map combine fst snd rsum fold_right rsub vecR rzero dimD cross9 repeat length hd rmono pow].
  cbn. unfold Q2R. cbn. lra.
Qed.
Print Assumptions C39_default_by_size_refuted.
(* literature modes: a basis, orthogonal under the lattice weights (or unweighted) *)
Theorem C39_literature_orthogonal : forall S (weighted : bool) gs, NoDup S -> mrt_orthogonal_modes_literature S weighted = Ok gs ->
  moment_basis S (map expand (concat gs)) /\
  exists w, (if weighted then get_weights S else Ok (repeat 1%Q (sizeQ S))) = Ok w /\ orthogonal w S (map expand (concat gs)).
Proof. exact literature_orthogonal. Qed.
Print Assumptions C39_literature_orthogonal.
Example C39_literature_cases : map (fun T => map (fun b => match mrt_orthogonal_modes_literature T b with Ok gs => length (concat gs) | Err _ => 0 end) [true; false]) standard_stencils
  = [[9; 0]; [0; 0]; [15; 0]; [19; 0]; [0; 27]].
Proof. vm_compute. reflexivity. Qed.
(* the modes create_mrt_orthogonal uses if none are given: a basis, orthogonal, grouped into mass, momentum, shear, bulk and higher order *)
Theorem C39_orthogonal_default : forall S (weighted : bool), standard S -> exists gs conserved shears bulks rest, orthogonal_default_groups S weighted = Ok gs /\
  moment_basis S (concat gs) /\ (exists w, (if weighted then get_weights S else Ok (repeat 1%Q (sizeQ S))) = Ok w /\ orthogonal w S (concat gs)) /\
  hydrodynamic_grouping (dimD S) gs conserved shears bulks rest.
Proof. exact orthogonal_default. Qed.
Print Assumptions C39_orthogonal_default.
Example C39_standard : standard D3Q19_walberla /\ standard (rev D2Q9_walberla).
Proof.
  split; [exists D3Q19_walberla|exists D2Q9_walberla]; (split; [cbn; tauto|split; [|intros d; rewrite <- ?in_rev; reflexivity]]).
  - apply five_nodup. cbn; tauto.
  - apply NoDup_rev, five_nodup. cbn; tauto.
Qed.
Example C39_group_sizes : map (fun T => match orthogonal_default_groups T true with Ok gs => map (@length _) gs | Err _ => [] end) standard_stencils
  = [[1; 2; 2; 1; 2; 1]; [1; 3; 2; 1]; [1; 3; 5; 1; 4; 1]; [1; 3; 5; 1; 6; 3]; [1; 3; 5; 1; 7; 6; 3; 1]].
Proof. vm_compute. reflexivity. Qed.

(* ---- C31 ---- *)
(* moments are compared by a decidable equality and occur once; 0 and 1 are the rates the library uses itself *)
Theorem C31_single_rate : forall (M V : Type) (eqb : M -> M -> bool) (rep : M -> qpoly) (zero one : V), (forall a b, eqb a b = true <-> a = b) ->
  forall nested dim conserved r, NoDup (concat nested) -> length (concat nested) <> 1 ->
  exists d, get_relaxation_info_dict eqb rep zero one (Rates [r]) nested dim conserved None = Ok d /\ map fst d = concat nested /\
    forall m, In m (concat nested) -> dict_get eqb d m =
      Some (if low_order rep m then (if conserved then zero else r) else if shear rep dim m then r else one).
Proof.
  intros M V eqb rep zero one He nested dim conserved r HN Hl. eexists. split; [apply one_rate_dict; auto|]. rewrite map_map. cbn [fst]. rewrite map_id. split; [reflexivity|].
  intros m Hm. rewrite (dict_get_in eqb He _ m (one_rate rep zero one dim conserved r m)).
  - f_equal. unfold one_rate, low_order, shear. destruct conserved, (get_order (rep m) <=? 1), (is_shear_moment (rep m) dim); reflexivity.
  - rewrite map_map. cbn [fst]. now rewrite map_id.
  - apply in_map_iff. eauto.
Qed.
Print Assumptions C31_single_rate.
Theorem C31_rate_per_moment : forall (M V : Type) (eqb : M -> M -> bool) (rep : M -> qpoly) (zero one : V), (forall a b, eqb a b = true <-> a = b) ->
  forall nested dim conserved rates, NoDup (concat nested) -> length rates = length (concat nested) ->
  exists d, get_relaxation_info_dict eqb rep zero one (Rates rates) nested dim conserved None = Ok d /\
    forall i m, nth_error (concat nested) i = Some m -> dict_get eqb d m = nth_error rates i.
Proof.
  intros M V eqb rep zero one He nested dim conserved rates HN Hl. unfold get_relaxation_info_dict. rewrite Hl, Nat.eqb_refl.
  set (d0 := match rates with [r] => _ | _ => _ end). destruct (zip_rates_total eqb (concat nested) d0 rates) as (out & E); [lia|]. rewrite E. cbn [rbind apply_modifier].
  exists out. split; [reflexivity|]. apply (zip_rates_set eqb rep He (concat nested) d0 rates out HN (eq_sym Hl) E).
Qed.
Print Assumptions C31_rate_per_moment.
(* any other number: shear rate, bulk rate, then one rate per group with other modes; too few are rejected, surplus rates are ignored *)
Theorem C31_rate_per_group : forall (M V : Type) (eqb : M -> M -> bool) (rep : M -> qpoly) (zero one : V), (forall a b, eqb a b = true <-> a = b) ->
  forall nested dim conserved rates, NoDup (concat nested) -> length rates <> 1 -> length rates <> length (concat nested) ->
  conserved = true \/ some (shear rep dim) nested = 1 ->
  if rates_needed rep dim nested <=? length rates
  then exists d, get_relaxation_info_dict eqb rep zero one (Rates rates) nested dim conserved None = Ok d /\ map fst d = concat nested /\
         forall g group m, nth_error nested g = Some group -> In m group ->
           dict_get eqb d m = Some (rate_by_group rep zero dim conserved rates nested g m)
  else get_relaxation_info_dict eqb rep zero one (Rates rates) nested dim conserved None = Err ValueError.
Proof.
  intros M V eqb rep zero one He nested dim conserved rates HN H1 Hl HC. unfold get_relaxation_info_dict.
  assert (E : forall (x y : res (list (M * V))), (if length rates =? length (concat nested) then x else match rates with [_] => y | _ => fallback_rates eqb rep zero dim conserved rates nested end) = fallback_rates eqb rep zero dim conserved rates nested).
  { intros x y. replace (length rates =? length (concat nested)) with false by (symmetry; now apply Nat.eqb_neq). destruct rates as [|r [|r2 rates]]; cbn in H1; auto; lia. }
  replace (length rates =? length (concat nested)) with false by (symmetry; now apply Nat.eqb_neq). replace (length rates =? 1) with false by (symmetry; now apply Nat.eqb_neq).
  rewrite (fallback_ok eqb rep zero He) by assumption. destruct (_ <=? length rates); [|reflexivity]. cbn [rbind apply_modifier].
  eexists. split; [reflexivity|]. split; [apply keys_by_group|]. intros g group m Hg Hm. now apply (lookup_by_group eqb He (rate_by_group rep zero dim conserved rates nested) nested HN g group).
Qed.
Print Assumptions C31_rate_per_group.
(* the number needed is the documented one (shear, bulk, one per group of other modes) if the last group has other modes ... *)
Theorem C31_documented_number : forall (M : Type) (rep : M -> qpoly) dim nested group, existsb (other rep dim) group = true ->
  rates_needed rep dim (nested ++ [group]) = some (shear rep dim) (nested ++ [group]) + some (bulk rep dim) (nested ++ [group]) + other_groups rep dim (nested ++ [group]).
Proof.
  intros M rep dim nested group H. unfold rates_needed. destruct (nested ++ [group]) eqn:E; [destruct nested; discriminate|]. rewrite <- E, removelast_last.
  f_equal. unfold other_groups. rewrite filter_app. cbn [filter]. rewrite H, app_length. cbn [length]. lia.
Qed.
Print Assumptions C31_documented_number.
(* ... and one more otherwise: shear and bulk rates for the seven modes of D3Q7 are rejected *)
Notation d3q7_modes := [[expand one_e]; [expand ex; expand ey; expand ez]; [expand (ex ^ 2 - ey ^ 2)%expr; expand (ex ^ 2 - ez ^ 2)%expr]; [expand sq3]].
Theorem C31_shear_and_bulk_refuted : forall V (zero one a b : V), some (shear (fun p => p) 3) d3q7_modes = 1 /\ some (bulk (fun p => p) 3) d3q7_modes = 1 /\
  other_groups (fun p => p) 3 d3q7_modes = 0 /\
  get_relaxation_info_dict qpoly_eqb (fun p => p) zero one (Rates [a; b]) d3q7_modes 3 true None = Err ValueError.
Proof. intros. repeat split; vm_compute; reflexivity. Qed.
Print Assumptions C31_shear_and_bulk_refuted.
(* without conserved moments and without shear modes, assigning the unset shear rate raises UnboundLocalError *)
Theorem C31_unbound_refuted : forall V (zero one a b : V),
  get_relaxation_info_dict qpoly_eqb (fun p => p) zero one (Rates [a; b]) [[expand one_e]; [expand ex]; [expand (ex ^ 2)%expr]] 1 false None = Err UnboundLocalError.
Proof. intros. vm_compute. reflexivity. Qed.
Print Assumptions C31_unbound_refuted.
(* a callable gives the rates of each group *)
Theorem C31_callable : forall (M V : Type) (eqb : M -> M -> bool) (rep : M -> qpoly) (zero one : V), (forall a b, eqb a b = true <-> a = b) ->
  forall (f : list M -> list V) nested dim conserved, NoDup (concat nested) -> (forall g, In g nested -> length g <= length (f g)) ->
  exists d, get_relaxation_info_dict eqb rep zero one (Callable f) nested dim conserved None = Ok d /\ map fst d = concat nested /\
    forall group i m, In group nested -> nth_error group i = Some m -> dict_get eqb d m = nth_error (f group) i.
Proof. intros M V eqb rep zero one He f nested dim conserved. exact (callable_ok eqb rep zero one He f nested dim conserved). Qed.
Print Assumptions C31_callable.
(* a modifier multiplies every rate and changes nothing else *)
Theorem C31_modifier : forall (M V : Type) (eqb : M -> M -> bool) (rep : M -> qpoly) (zero one : V) rr nested dim conserved h,
  get_relaxation_info_dict eqb rep zero one rr nested dim conserved (Some h) =
  match get_relaxation_info_dict eqb rep zero one rr nested dim conserved None with
  | Ok d => Ok (map (fun kv => (fst kv, h (snd kv))) d) | Err e => Err e end.
Proof. intros. unfold get_relaxation_info_dict. destruct rr as [f|rates]; cbv zeta; match goal with |- rbind ?x _ = _ => destruct x end; reflexivity. Qed.
Print Assumptions C31_modifier.
(* the viscosities read back: the shear rate is the first rate, the bulk rate the second *)
Theorem C31_viscosity_roundtrip : forall (M V : Type) (eqb : M -> M -> bool) (veqb : V -> V -> bool) (rep : M -> qpoly) (zero one : V),
  (forall a b, eqb a b = true <-> a = b) -> (forall a b, veqb a b = true <-> a = b) ->
  forall nested dim rates d, NoDup (concat nested) -> length rates <> 1 -> length rates <> length (concat nested) ->
  (forall m, In m (concat nested) -> shear rep dim m = true \/ bulk rep dim m = true -> low_order rep m = false) ->
  some (shear rep dim) nested = 1 -> get_relaxation_info_dict eqb rep zero one (Rates rates) nested dim true None = Ok d ->
  get_shear_relaxation_rate rep veqb dim d = Ok (nth 0 rates zero) /\
  (some (bulk rep dim) nested = 1 -> get_bulk_relaxation_rate rep veqb dim d = Ok (nth 1 rates zero)) /\
  (some (bulk rep dim) nested = 0 -> get_bulk_relaxation_rate rep veqb dim d = Ok (nth 0 rates zero)).
Proof. exact viscosity_roundtrip. Qed.
Print Assumptions C31_viscosity_roundtrip.
(* different rates for two shear modes: there is no shear viscosity *)
Theorem C31_ambiguous_viscosity : forall (M V : Type) (rep : M -> qpoly) (veqb : V -> V -> bool), (forall a b, veqb a b = true <-> a = b) ->
  forall dim d k1 v1 k2 v2, In (k1, v1) d -> In (k2, v2) d -> shear rep dim k1 = true -> shear rep dim k2 = true -> v1 <> v2 ->
  get_shear_relaxation_rate rep veqb dim d = Err ValueError.
Proof. intros M V rep veqb Hv. exact (shear_rate_two rep veqb Hv). Qed.
Print Assumptions C31_ambiguous_viscosity.
(* the default modes of D3Q19 with five rates *)
Example C31_D3Q19 : match orthogonal_default_groups D3Q19_walberla true with
  | Ok gs => NoDup (concat gs) /\ rates_needed (fun p : qpoly => p) 3 gs = 4 /\ length (concat gs) = 19 /\ some (shear (fun p : qpoly => p) 3) gs = 1 /\ some (bulk (fun p : qpoly => p) 3) gs = 1 /\
      match get_relaxation_info_dict qpoly_eqb (fun p : qpoly => p) 0%Z 1%Z (Rates [11; 12; 13; 14]%Z) gs 3 true None with
      | Ok d => map snd d = [0; 0; 0; 0; 11; 11; 11; 11; 11; 12; 13; 13; 13; 13; 13; 13; 14; 14; 14]%Z | Err _ => False end
  | Err _ => False end.
Proof.
  assert (E : forall gs : list qpoly, forallb (fun i => negb (existsb (qpoly_eqb (nth i gs [])) (skipn (Datatypes.S i) gs))) (seq 0 (length gs)) = true -> NoDup gs) by exact nodup_b.
  destruct (orthogonal_default_groups D3Q19_walberla true) as [gs|] eqn:Eg; [|vm_compute in Eg; discriminate].
  vm_compute in Eg. injection Eg as <-. split; [apply E; vm_compute; reflexivity|]. repeat split; vm_compute; reflexivity.
Qed.
