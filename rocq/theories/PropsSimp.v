(* C37: simplification passes keep the collision rule *)
From Coq Require Import String List ZArith QArith Qreals Bool Arith Lia Reals Lra Permutation.
From Verif Require Import StencilModel SimpModel SimpSpec SimpProofs SimpProofs2 SimpProofs3 SimpProofs4 SimpProofs5.
Import ListNotations.
Local Open Scope string_scope.
Local Open Scope list_scope.

Section Props.
Context {Op : Type} (sem : Op -> R -> R -> R) (K : cas Op) (mixed : name -> Prop).
Hypothesis contract : cas_ok sem K mixed.

(* splitting by symmetry: same main symbols in the same order, same values *)
Theorem C37_split : forall S symbols a a', well_formed a -> fresh a -> split_by_symmetry Op K (Some S) (Some symbols) a = Ok a' ->
  map fst (mains a') = map fst (mains a) /\ well_formed a' /\ forall p s, In s (map fst (mains a)) -> run sem a' p s = run sem a p s.
Proof.
  intros S symbols a a' HW HF H. destruct (split_ok sem K mixed contract S symbols a a' HW HF H) as (W & L & V). split; [exact L|]. split; [exact W|].
  intros p s Hs. now apply (same_run sem a a' HW W V).
Qed.
Theorem C37_split_succeeds : forall S symbols a, (forall c, In c S -> In (vneg c) S) -> length symbols = length S -> NoDup (map fst (mains a)) ->
  (forall s, In s symbols -> In s (map fst (mains a))) -> exists a', split_by_symmetry Op K (Some S) (Some symbols) a = Ok a'.
Proof. exact (split_succeeds K). Qed.

(* common subexpressions in opposing directions, for rules with one assignment for each population: the same main symbols, in the order of the
   post-collision symbols; the assignments can be ordered, and in any order that defines symbols before they are used the values are the same *)
Theorem C37_cse : forall S posts rates a a', well_formed a -> fresh a -> NoDup S -> (length (mains a) <= length S)%nat ->
  (forall k, In (Xi k) rates -> (k < gen a)%nat) -> (forall r, In r rates -> ~ In r (map fst (mains a))) ->
  cse_in_opposing_directions Op K S posts (Some (true, rates)) a = Ok a' ->
  Permutation (map fst (mains a)) (map fst (mains a')) /\ (forall l1 x l2 y, mains a' = l1 ++ x :: l2 -> In y l2 -> before posts (fst x) (fst y)) /\
  (exists definitions, Permutation (subs a') definitions /\ ordered (definitions ++ mains a')) /\
  forall l, Permutation (all a') l -> ordered l -> forall p s, In s (map fst (mains a)) -> fold_left (assign sem) l p s = run sem a p s.
Proof.
  intros S posts rates a a' HW HF HS HL Hr Hm H. pose proof HW as [HO _]. assert (HN : NoDup (map fst (mains a))) by (apply well_formed_iff in HW; apply HW).
  destruct (cse_ok sem K mixed contract S posts rates a a' HF HN HS HL Hr H) as (P & V & B). split; [exact P|]. split; [exact B|].
  split; [exact (cse_order sem K mixed contract S posts rates a a' HW HF HS HL Hr Hm H)|]. intros l HP Hl. apply (keeps_any_order sem a a' l HO); auto. intros p s v. apply V.
Qed.
Theorem C37_cse_succeeds : forall S posts rates a, fresh a -> NoDup (map fst (mains a)) -> NoDup S -> (forall c, In c S -> In (vneg c) S) -> (length S <= length (mains a))%nat ->
  (forall k, In (Xi k) rates -> (k < gen a)%nat) -> (forall d, In d (firstn (length S) (mains a)) -> In (fst d) posts) ->
  exists a', cse_in_opposing_directions Op K S posts (Some (true, rates)) a = Ok a'.
Proof. exact (cse_succeeds sem K mixed contract). Qed.
(* an empty relaxation rate hint: nothing happens *)
Theorem C37_cse_no_rates : forall S posts rates a, cse_in_opposing_directions Op K S posts (Some (false, rates)) a = Ok a.
Proof. reflexivity. Qed.
(* main assignments after the populations are dropped.  create_lb_collision_rule (creationfunctions.py:741-743, 764-766) adds the output equations
   before it calls the pass, so that the optimisation cse_pdfs removes the density and velocity output. *)
Theorem C37_cse_outputs_refuted : forall S posts rates a a' rule outputs, fresh a -> NoDup (map fst (mains a)) -> NoDup S -> (forall k, In (Xi k) rates -> (k < gen a)%nat) ->
  mains a = rule ++ outputs -> length rule = length S ->
  cse_in_opposing_directions Op K S posts (Some (true, rates)) a = Ok a' ->
  Permutation (map fst rule) (map fst (mains a')) /\ forall d, In d outputs -> ~ In (fst d) (map fst (mains a')).
Proof.
  intros S posts rates a a' rule outputs HF HN HS Hr E EL H. destruct (cse_drops sem K mixed contract S posts rates a a' HF HN HS Hr H) as [P D]. rewrite E, <- EL in P, D.
  rewrite firstn_app, firstn_all, Nat.sub_diag, app_nil_r in P. rewrite skipn_app, skipn_all, Nat.sub_diag in D. split; [exact P|exact D].
Qed.

(* the other passes on the main assignments *)
Theorem C37_factor_relaxation_rates : forall hint, good_pass sem (factor_relaxation_rates Op K hint).
Proof. intros hint a a' HW H. destruct (factor_rates_ok sem K mixed contract hint a a' HW H) as (A & B & C & _). auto. Qed.
Theorem C37_factor_density : forall density hint, good_pass sem (factor_density Op K density hint).
Proof. intros density hint a a' HW H. destruct (factor_density_ok sem K mixed contract density hint a a' HW H) as (A & B & C & _). auto. Qed.
Theorem C37_replace_density_and_velocity : forall rho u a a', well_formed a -> (forall s, In s (rho :: u) -> ~ In s (map fst (mains a))) ->
  replace_density_and_velocity Op K (Some rho) (Some u) a = Ok a' ->
  well_formed a' /\ map fst (mains a') = map fst (mains a) /\ forall p s, In s (map fst (mains a)) -> run sem a' p s = run sem a p s.
Proof.
  intros rho u a a' HW Hn H. destruct (replace_density_ok sem K mixed contract rho u a a' HW Hn H) as (A & B & C & _). split; [exact A|]. split; [exact B|]. intros p s Hs. now apply (same_run sem a a').
Qed.
Theorem C37_replace_common_term : forall density velocity hint S common a a', well_formed a -> ~ occurs f_eq_common a ->
  (forall x k, common a = Some (x, k) -> mentions f_eq_common x = false /\ forall s, In s (map fst (mains a)) -> mentions s x = false) ->
  replace_common_term Op K density velocity hint S common a = Ok a' ->
  well_formed a' /\ map fst (mains a') = map fst (mains a) /\ forall p s, In s (map fst (mains a)) -> run sem a' p s = run sem a p s.
Proof.
  intros density velocity hint S common a a' HW Hf Hc H. destruct (replace_common_ok sem K mixed contract _ _ _ _ _ a a' HW Hf Hc H) as (A & B & C). split; [exact A|]. split; [exact B|].
  intros p s Hs. now apply (same_run sem a a').
Qed.
Theorem C37_insert_subexpressions : forall callback, good_pass sem (fun a => Ok (insert_subexpressions Op callback a)).
Proof. exact (insert_good sem). Qed.
(* only products are inserted by insert_pure_products: a definition with a sum or a function stays *)
Theorem C37_pure_products_only : forall symbols a a' s x, insert_pure_products Op symbols a = Ok a' -> In (s, x) (subs a) -> has_sum x -> In s (map fst (subs a')).
Proof. exact insert_pure_keeps. Qed.
(* the conserved quantities expressed by moments: any admissible order of the result gives the same values *)
Theorem C37_substitute_moments : forall hint a a', well_formed a -> substitute_moments Op K hint a = Ok a' ->
  map fst (all a') = map fst (all a) /\
  forall l, Permutation (all a') l -> ordered l -> forall p s, In s (map fst (mains a)) -> fold_left (assign sem) l p s = run sem a p s.
Proof.
  intros hint a a' HW H. destruct (substitute_moments_ok sem K mixed contract hint a a' HW H) as (A & B & C). split; [unfold all; rewrite !map_app; now f_equal|].
  intros l HP Hl. apply (keeps_any_order sem a a' l); auto. apply HW.
Qed.

(* the strategies of create_simplification_strategy, if the pystencils passes keep the values *)
Theorem C37_strategies : forall X is_log h m a a', external_ok sem X -> well_formed a ->
  (forall k, m = MomentBased false k -> (k <= 2)%nat -> srt_ready mixed h a) ->
  run_strategy Op (simplification_strategy Op K X is_log h m) a = Ok a' ->
  map fst (mains a') = map fst (mains a) /\ well_formed a' /\ forall p s, In s (map fst (mains a)) -> run sem a' p s = run sem a p s.
Proof.
  intros X is_log h m a a' HX HW Hs H.
  assert (G : well_formed a' /\ map fst (mains a') = map fst (mains a) /\ same_values sem a a').
  { destruct m as [[|] k| | |]; cbn [simplification_strategy] in H.
    - exact (moment_space_good sem K X HX h a a' HW H).
    - destruct (k <=? 2)%nat eqn:E; [|exact (mrt_good sem X HX a a' HW H)]. apply (srt_trt_good sem K mixed contract X HX h a a'); auto. apply (Hs k eq_refl). now apply Nat.leb_le.
    - exact (moment_space_good sem K X HX h a a' HW H).
    - exact (cumulant_good sem K mixed contract X HX is_log h a a' HW H).
    - injection H as <-. split; [exact HW|]. split; [reflexivity|apply same_refl]. }
  destruct G as (A & B & C). split; [exact B|]. split; [exact A|]. intros p s Hp. now apply (same_run sem a a').
Qed.

(* missing hints and missing inverse directions *)
Theorem C37_errors : (forall st sy a, st = None \/ sy = None -> split_by_symmetry Op K st sy a = Err ValueError) /\
  (forall S posts a, cse_in_opposing_directions Op K S posts None a = Err AssertionError) /\
  (forall a, replace_second_order_velocity_products Op K None a = Err AssertionError /\ factor_relaxation_rates Op K None a = Err AssertionError /\ substitute_moments Op K None a = Err ValueError) /\
  (forall posts rates a c m S, mains a <> [] -> S = c :: m -> ~ In (vneg c) S -> cse_in_opposing_directions Op K S posts (Some (true, rates)) a = Err KeyError).
Proof.
  split; [intros [x|] [y|] a [E|E]; try discriminate; reflexivity|]. split; [reflexivity|]. split; [auto|].
  exact (cse_missing_inverse K).
Qed.
End Props.
Print Assumptions C37_split.
Print Assumptions C37_split_succeeds.
Print Assumptions C37_cse.
Print Assumptions C37_cse_succeeds.
Print Assumptions C37_cse_no_rates.
Print Assumptions C37_cse_outputs_refuted.
Print Assumptions C37_factor_relaxation_rates.
Print Assumptions C37_factor_density.
Print Assumptions C37_replace_density_and_velocity.
Print Assumptions C37_replace_common_term.
Print Assumptions C37_insert_subexpressions.
Print Assumptions C37_pure_products_only.
Print Assumptions C37_substitute_moments.
Print Assumptions C37_strategies.
Print Assumptions C37_errors.

(* ---- examples ---- *)
Definition f (i : nat) : expr eop := Sym (Nm (match i with 0%nat => "f_0" | 1%nat => "f_1" | _ => "f_2" end)%string).
Definition omega : name := Nm "omega"%string.
Definition rho : expr eop := Sym (Nm "rho").
Definition ex_rule (e : expr eop) (i : nat) : asg eop := (Post i, Add e (Mul (Sym omega) (Mul (Cst (2 # 3)) (Add rho (f 0))))).
Definition ex_ac : ac eop := {| subs := [(Nm "rho", Add (f 0) (Add (f 1) (f 2)))]; mains := [ex_rule (f 0) 0; ex_rule (f 1) 1; ex_rule (f 2) 2]; gen := 4 |}.
Definition ex_out : ac eop := {| subs := subs ex_ac; mains := mains ex_ac ++ [(Nm "density", rho)]; gen := 4 |}.
Definition D1Q3 : stencil := [[0%Z]; [1%Z]; [(-1)%Z]].
Definition posts : list name := [Post 0; Post 1; Post 2].
Example ex_fresh : fresh ex_ac /\ fresh ex_out.
Proof.
  split; intros k [H|(d & Hd & H)].
  1, 3: cbn in H; repeat (destruct H as [H|H]; [discriminate|]); destruct H.
  all: cbn in Hd; repeat (destruct Hd as [Hd|Hd]; [subst d; cbn in H; discriminate|]); destruct Hd.
Qed.
Example ex_well_formed : well_formed ex_ac /\ well_formed ex_out.
Proof.
  split; apply well_formed_iff; cbn.
  all: split; [apply ordered_cons_intro; [apply ordered_nil|intros []|intros t [<-|[]]; reflexivity]|].
  all: split; [repeat constructor; cbn; intuition discriminate|].
  all: split; [intros t [<-|[]]; intuition discriminate|].
  all: intros s d Hs Hd; repeat (destruct Hs as [Hs|Hs]; [subst s; repeat (destruct Hd as [Hd|Hd]; [subst d; reflexivity|]); destruct Hd|]); destruct Hs.
Qed.
(* the opposite populations share one generated term and one generated coefficient *)
Example C37_cse_ex : exists a', cse_in_opposing_directions eop ex_cas D1Q3 posts (Some (true, [omega])) ex_ac = Ok a' /\
  subs a' = subs ex_ac ++ [(Xi 5, Add rho (f 0)); (Xi 4, Mul (Cst (2 # 3)) (Sym omega))] /\
  mains a' = [ex_rule (f 0) 0; (Post 1, Add (f 1) (Mul (Sym (Xi 4)) (Sym (Xi 5)))); (Post 2, Add (f 2) (Mul (Sym (Xi 4)) (Sym (Xi 5))))].
Proof. eexists. split; [vm_compute; reflexivity|]. split; reflexivity. Qed.
Example C37_cse_hyps : NoDup D1Q3 /\ (length (mains ex_ac) <= length D1Q3)%nat /\ (forall c, In c D1Q3 -> In (vneg c) D1Q3) /\
  (forall k, In (Xi k) [omega] -> (k < gen ex_ac)%nat) /\ (forall r, In r [omega] -> ~ In r (map fst (mains ex_ac))).
Proof.
  split; [repeat constructor; cbn; intuition discriminate|]. split; [cbn; lia|]. split; [cbn; intros c [<-|[<-|[<-|[]]]]; cbn; auto|].
  split; [cbn; intros k [H|[]]; discriminate|]. cbn. intros r [<-|[]]. intuition discriminate.
Qed.
(* with a density output the pass succeeds and the output is gone *)
Example C37_cse_outputs_ex : exists a', cse_in_opposing_directions eop ex_cas D1Q3 posts (Some (true, [omega])) ex_out = Ok a' /\
  map fst (mains ex_out) = [Post 0; Post 1; Post 2; Nm "density"] /\ map fst (mains a') = [Post 0; Post 1; Post 2].
Proof. eexists. split; [vm_compute; reflexivity|]. split; reflexivity. Qed.
Example C37_split_ex : exists a', split_by_symmetry eop ex_cas (Some D1Q3) (Some posts) ex_ac = Ok a' /\
  mains a' = [ex_rule (f 0) 0; (Post 1, Add (Sym (Xi 4)) (Sym (Xi 5))); (Post 2, Sub eop (Sym (Xi 4)) (Sym (Xi 5)))] /\ gen a' = 6%nat.
Proof. eexists. split; [vm_compute; reflexivity|]. split; reflexivity. Qed.
Example C37_contract_ex : cas_ok esem ex_cas no_mixed.
Proof. exact ex_cas_ok. Qed.
Definition ex_external : external eop := {| x_substitution := @Ok _; x_divisions := @Ok _; x_insert_constants := @Ok _; x_insert_aliases := @Ok _; x_add_constants := @Ok _; x_unused := @Ok _ |}.
Example C37_external_ex : external_ok esem ex_external.
Proof. constructor; intros a a' HW [= <-]; (split; [exact HW|]); (split; [reflexivity|apply same_refl]). Qed.
Definition ex_hints : hints eop := {| h_density := Some (Nm "rho"); h_velocity := Some [Nm "u_0"]; h_rates := Some (1%nat, [omega]); h_stencil := D1Q3;
  h_common := fun _ => Some (Add rho (f 0), 2%nat); h_force := None; h_conserved := []; h_post := [] |}.
Example C37_srt_ready_ex : srt_ready no_mixed ex_hints ex_ac.
Proof.
  exists (Nm "rho"), [Nm "u_0"]. split; [reflexivity|]. split; [reflexivity|]. split; [cbn; intros s [<-|[<-|[]]]; intuition discriminate|]. split; [intros s []|]. split.
  - split; [intros []|]. split; [cbn; intuition discriminate|]. intros [H|(d & Hd & H)].
    + cbn in H. repeat (destruct H as [H|H]; [discriminate|]). destruct H.
    + cbn in Hd. repeat (destruct Hd as [Hd|Hd]; [subst d; cbn in H; discriminate|]). destruct Hd.
  - intros b x k [= <- <-]. split; [reflexivity|]. intros s Hs. cbn in Hs. repeat (destruct Hs as [Hs|Hs]; [subst s; reflexivity|]). destruct Hs.
Qed.
(* the common term is taken out *)
Example C37_strategy_ex : exists a', run_strategy eop (simplification_strategy eop ex_cas ex_external (fun _ => false) ex_hints (MomentBased false 1)) ex_ac = Ok a' /\
  nth 1 (mains a') (Post 9, Cst 0) = (Post 1, Add (f 1) (Mul (Sym omega) (Mul (Cst (2 # 3)) (Sym f_eq_common)))).
Proof. eexists. split; [vm_compute; reflexivity|]. reflexivity. Qed.
(* the half of the rate is inserted, the density stays *)
Example C37_pure_ex : exists a', insert_pure_products eop [omega] {| subs := (Nm "half", Mul (Cst (1 # 2)) (Sym omega)) :: subs ex_ac; mains := mains ex_ac; gen := 4 |} = Ok a' /\ subs a' = subs ex_ac.
Proof. eexists. split; [vm_compute; reflexivity|reflexivity]. Qed.
