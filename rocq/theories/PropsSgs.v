(* C77: exchanging the shear relaxation rate of a collision rule by a local rate. *)
From Coq Require Import String List Bool Arith Reals Lra Lia.
From Verif Require Import SgsModel SgsSpec SgsProofs.
Import ListNotations.
Local Open Scope R_scope.
Open Scope string_scope.

(* a symbolic rate: the collision with the model is the collision without it where this symbol has the local value; the local value is computed from the given one *)
Theorem C77_replaced : forall rule w norm c, fresh "sgs_omega" rule -> w <> "sgs_omega" ->
  exists rule', add_smagorinsky_model rule (Sympy (Sym w)) norm c = Some rule' /\ forall v, let v' := set v w (v "sgs_omega") in
  (solves v rule' <->
    (forall s e, In (s, e) rule -> s <> w -> v' s = value v' e) /\ (forall e, In (w, e) rule -> v w = value v' e) /\
    v "tau_0_" = 1 / v w /\ v "Pi" = value v norm /\ v "sgs_omega" = 2 / (v "tau_0_" + sqrt (18 * c ^ 2 * v "Pi" + v "tau_0_" * v "tau_0_"))).
Proof.
  intros rule w norm c F N. eexists. split; [reflexivity|]. intros v v'. unfold solves. split.
  - intros H. assert (R : forall s e, In (s, e) rule -> v s = value v' e).
    { intros s e I. unfold v'. rewrite <- value_subs. apply H. apply in_or_app. left. unfold new_with_substitutions. apply in_map_iff. exists (s, e). split; [reflexivity|exact I]. }
    split; [|split; [|split; [|split]]].
    + intros s e I Ns. unfold v' at 1. rewrite set_other by exact Ns. exact (R s e I).
    + intros e I. exact (R w e I).
    + rewrite (H "tau_0_" (Mul (Num 1) (Inv (Sym w)))) by (apply in_or_app; right; left; reflexivity). reflexivity.
    + apply H. apply in_or_app. right. right. left. reflexivity.
    + apply (H "sgs_omega" (Mul (Num 2) (Inv (Add (Sym "tau_0_") (Sqrt (Add (Mul (Num (18 * c ^ 2)) (Sym "Pi")) (Mul (Sym "tau_0_") (Sym "tau_0_")))))))). apply in_or_app. right. right. right. left. reflexivity.
  - intros (H1 & H2 & H3 & H4 & H5) s e I. apply in_app_or in I. destruct I as [I|I].
    + unfold new_with_substitutions in I. apply in_map_iff in I. destruct I as ([s' e'] & Q & I). cbn [fst snd] in Q. injection Q as <- <-. rewrite value_subs. fold v'. destruct (string_dec s' w) as [->|Ns]; [exact (H2 e' I)|]. rewrite <- (H1 s' e' I Ns). unfold v'. rewrite set_other by exact Ns. reflexivity.
    + destruct I as [Q|[Q|[Q|[]]]]; injection Q as <- <-; cbn [value]; [exact H3|exact H4|exact H5].
Qed.
Print Assumptions C77_replaced.

(* a number: if one assignment has it as right hand side, its symbol is the symbolic rate *)
Theorem C77_number : forall l1 w r l2 norm c, (forall s e, In (s, e) (l1 ++ l2)%list -> e <> Num r) -> (forall s e, In (s, e) l2 -> e <> Sym w) ->
  add_smagorinsky_model (l1 ++ (w, Num r) :: l2)%list (Python r) norm c = add_smagorinsky_model (l1 ++ (w, Num r) :: l2)%list (Sympy (Sym w)) norm c /\ forall v, solves v (l1 ++ (w, Num r) :: l2)%list -> v w = r.
Proof.
  intros l1 w r l2 norm c H1 H2. split.
  - unfold add_smagorinsky_model, extract_shear_relaxation_rate. rewrite fold_left_app. rewrite (extract_none l1) by (intros [s e] I; cbn; apply (H1 s e); apply in_or_app; left; exact I). cbn [fold_left]. unfold extract_step at 2. cbn [snd fst]. destruct (expr_eq_dec (Num r) (Num r)) as [_|N]; [|congruence]. rewrite (extract_none l2) by (intros [s e] I; cbn; exact (H2 s e I)). reflexivity.
  - intros v H. apply (H w (Num r)). apply in_or_app. right. left. reflexivity.
Qed.
Print Assumptions C77_number.
(* a number that is nowhere assigned is an error, and only then *)
Theorem C77_missing : forall rule r norm c, add_smagorinsky_model rule (Python r) norm c = None <-> forall s e, In (s, e) rule -> e <> Num r.
Proof.
  intros rule r norm c. unfold add_smagorinsky_model, extract_shear_relaxation_rate. split.
  - intros H s e I ->. apply in_split in I. destruct I as (l1 & l2 & ->). rewrite fold_left_app in H. cbn [fold_left] in H. set (st := fold_left extract_step l1 (Num r, false)) in *.
    assert (F : snd (extract_step st (s, Num r)) = true). { pose proof (extract_shape l1 r) as S. fold st in S. cbv zeta in S. unfold extract_step. cbn [snd fst]. destruct S as [[_ ->]|[S _]]; [destruct (expr_eq_dec (Num r) (Num r)); [reflexivity|congruence]|destruct (expr_eq_dec _ _); [reflexivity|exact S]]. }
    pose proof (extract_found l2 _ F) as G. unfold st, assignment in G, H. match type of G with snd ?x = true => destruct x as [o f] end. cbn in G. subst f. cbn [negb] in H. discriminate H.
  - intros H. rewrite extract_none by (intros [s e] I; exact (H s e I)). reflexivity.
Qed.
Print Assumptions C77_missing.
(* the symbol that is found has the value of the rate *)
Theorem C77_value : forall rule r e, extract_shear_relaxation_rate rule (Python r) = (e, true) -> exists s, e = Sym s /\ In s (map fst rule) /\ forall v, solves v rule -> v s = r.
Proof.
  intros rule r e H. cbn [extract_shear_relaxation_rate] in H. pose proof (extract_shape rule r) as S. rewrite H in S. cbn in S. destruct S as [[S _]|[_ (s & -> & I)]]; [discriminate|]. exists s. split; [reflexivity|]. split; [exact I|]. intros v V. pose proof (extract_value v r rule V (Num r, false) eq_refl) as E. rewrite H in E. exact E.
Qed.
Print Assumptions C77_value.

(* the local rate lies between 0 and the given rate, and is the given rate without strain *)
Theorem C77_local_rate : forall rule w norm c rule' v, add_smagorinsky_model rule (Sympy (Sym w)) norm c = Some rule' -> fresh "sgs_omega" rule -> w <> "sgs_omega" -> solves v rule' -> 0 < v w -> 0 <= value v norm ->
  0 < v "sgs_omega" <= v w /\ (value v norm = 0 -> v "sgs_omega" = v w).
Proof.
  intros rule w norm c rule' v E F N S P Q. destruct (C77_replaced rule w norm c F N) as (r2 & E2 & A). rewrite E in E2. injection E2 as <-. apply A in S. destruct S as (_ & _ & T & PI_ & O). rewrite O, T, PI_. set (t := 1 / v w). assert (Pt : 0 < t) by (apply Rdiv_lt_0_compat; lra). assert (W : v w = 2 / (t + t)) by (unfold t; field; lra).
  assert (K : 0 <= 18 * c ^ 2 * value v norm) by (apply Rmult_le_pos; [pose proof (pow2_ge_0 c); lra|exact Q]). assert (L : t <= sqrt (18 * c ^ 2 * value v norm + t * t)) by (rewrite <- (sqrt_square t) at 1 by lra; apply sqrt_le_1_alt; lra).
  split; [split|].
  - apply Rdiv_lt_0_compat; lra.
  - rewrite W. unfold Rdiv. apply Rmult_le_compat_l; [lra|]. apply Rinv_le_contravar; lra.
  - intros Z. rewrite Z, Rmult_0_r, Rplus_0_l, sqrt_square by lra. symmetry. exact W.
Qed.
Print Assumptions C77_local_rate.

(* any other expression as rate, for example 1 / (3 nu + 1/2), if it appears in one assignment only: its symbol gets the local value *)
Theorem C77_expression : forall l1 w e l2 norm c, (forall s x, In (s, x) (l1 ++ l2)%list -> ~ part e x) ->
  add_smagorinsky_model (l1 ++ (w, e) :: l2)%list (Sympy e) norm c = Some (l1 ++ (w, Sym "sgs_omega") :: l2 ++ smagorinsky_equations e norm c)%list.
Proof.
  intros l1 w e l2 norm c H. unfold add_smagorinsky_model. cbn [extract_shear_relaxation_rate negb]. f_equal. unfold new_with_substitutions. rewrite map_app. cbn [map fst snd]. rewrite subs_eq. destruct (expr_eq_dec e e); [|congruence].
  assert (I : forall l : list assignment, (forall s x, In (s, x) l -> ~ part e x) -> map (fun eq => (fst eq, subs e (Sym "sgs_omega") (snd eq))) l = l).
  { clear. induction l as [|[s x] l IH]; intros H; [reflexivity|]. cbn [map fst snd]. rewrite subs_no_part by (apply (H s); left; reflexivity). rewrite IH by (intros s' x' I; apply (H s'); right; exact I). reflexivity. }
  rewrite !I by (intros s x J; apply (H s); apply in_or_app; tauto). rewrite <- app_assoc. reflexivity.
Qed.
Print Assumptions C77_expression.

(* refuted: another quantity with the same number in an earlier assignment, for example a force of 1 with the rate 1: its symbol is taken for the rate.
   If no equation uses it, every solution of the rule with the model is a solution of the rule without it: the collision does not depend on the local rate *)
Theorem C77_equal_number_refuted : forall l1 f r l2 norm c, (forall s e, In (s, e) l1 -> e <> Num r) -> (forall s e, In (s, e) (l1 ++ l2)%list -> ~ occurs f e) ->
  let rule := (l1 ++ (f, Num r) :: l2)%list in exists rule', add_smagorinsky_model rule (Python r) norm c = Some rule' /\ forall v, solves v rule' -> solves v rule /\ forall w, In (w, Num r) l2 -> v w = r.
Proof.
  intros l1 f r l2 norm c H1 H2 rule. unfold add_smagorinsky_model, extract_shear_relaxation_rate, rule. rewrite fold_left_app. rewrite (extract_none l1) by (intros [s e] I; cbn; exact (H1 s e I)). cbn [fold_left]. unfold extract_step at 2. cbn [snd fst]. destruct (expr_eq_dec (Num r) (Num r)) as [_|N]; [|congruence].
  rewrite (extract_none l2) by (intros [s e] I Q; cbn in Q; subst e; apply (H2 s (Sym f)); [apply in_or_app; right; exact I|reflexivity]). cbn [negb]. eexists. split; [reflexivity|]. intros v V.
  assert (S : solves v (l1 ++ (f, Num r) :: l2)%list).
  { intros s e I. assert (U : ~ part (Sym f) e).
    { assert (O : ~ occurs f e) by (apply in_app_or in I; destruct I as [I|[I|I]]; [apply (H2 s); apply in_or_app; left; exact I|injection I as _ <-; cbn; tauto|apply (H2 s); apply in_or_app; right; exact I]).
      intros P. apply O. clear - P. induction e; cbn [part occurs] in *; destruct P as [P|P]; try discriminate; try tauto. injection P as <-. reflexivity. }
    apply V. apply in_or_app. left. unfold new_with_substitutions. apply in_map_iff. exists (s, e). split; [cbn [fst snd]; rewrite subs_no_part by exact U; reflexivity|exact I]. }
  split; [exact S|]. intros w I. apply (S w (Num r)). apply in_or_app. right. right. exact I.
Qed.
Print Assumptions C77_equal_number_refuted.

(* refuted: a rate given as a sympy number is always found and replaced wherever the number appears, also where it is a weight or a factor *)
Theorem C77_sympy_number_refuted : forall rule r norm c g f, In (g, Mul (Num r) (Sym f)) rule -> exists rule', add_smagorinsky_model rule (Sympy (Num r)) norm c = Some rule' /\ forall v, solves v rule' -> v g = v "sgs_omega" * v f.
Proof.
  intros rule r norm c g f I. eexists. split; [reflexivity|]. intros v V. apply (V g (Mul (Sym "sgs_omega") (Sym f))). apply in_or_app. left. unfold new_with_substitutions. apply in_map_iff. exists (g, Mul (Num r) (Sym f)). split; [|exact I]. cbn [fst snd]. f_equal. rewrite subs_eq. destruct (expr_eq_dec _ _); [discriminate|]. f_equal; rewrite subs_eq; destruct (expr_eq_dec _ _); congruence.
Qed.
Print Assumptions C77_sympy_number_refuted.

(* refuted: only the shear rate is exchanged.  Equal numeric rates share one symbol (C34), so a bulk rate with the same number becomes local too; a different number stays *)
Theorem C77_shared_rate_refuted : forall r norm c, let rule := [("rr_0", Num r); ("shear_out", Mul (Sym "rr_0") (Sym "shear")); ("bulk_out", Mul (Sym "rr_0") (Sym "bulk"))] in
  exists rule', add_smagorinsky_model rule (Python r) norm c = Some rule' /\ forall v, solves v rule' -> v "bulk_out" = v "sgs_omega" * v "bulk".
Proof.
  intros r norm c rule. unfold rule. destruct (C77_number [] "rr_0" r [("shear_out", Mul (Sym "rr_0") (Sym "shear")); ("bulk_out", Mul (Sym "rr_0") (Sym "bulk"))] norm c) as [E _]; [intros s e [Q|[Q|[]]]; injection Q as _ <-; discriminate|intros s e [Q|[Q|[]]]; injection Q as _ <-; discriminate|]. cbn [app] in E. rewrite E. eexists. split; [reflexivity|]. intros v V.
  rewrite (V "bulk_out" (subs (Sym "rr_0") (Sym "sgs_omega") (Mul (Sym "rr_0") (Sym "bulk")))) by (right; right; left; reflexivity). rewrite value_subs. cbn [value]. rewrite set_same, set_other by discriminate. reflexivity.
Qed.
Print Assumptions C77_shared_rate_refuted.
Theorem C77_separate_rate : forall r r2 norm c, r <> r2 -> let rule := [("rr_0", Num r); ("rr_1", Num r2); ("shear_out", Mul (Sym "rr_0") (Sym "shear")); ("bulk_out", Mul (Sym "rr_1") (Sym "bulk"))] in
  exists rule', add_smagorinsky_model rule (Python r) norm c = Some rule' /\ forall v, solves v rule' -> v "shear_out" = v "sgs_omega" * v "shear" /\ v "bulk_out" = r2 * v "bulk".
Proof.
  intros r r2 norm c N rule. unfold rule. destruct (C77_number [] "rr_0" r [("rr_1", Num r2); ("shear_out", Mul (Sym "rr_0") (Sym "shear")); ("bulk_out", Mul (Sym "rr_1") (Sym "bulk"))] norm c) as [E _]; [intros s e [Q|[Q|[Q|[]]]]; injection Q as _ <-; congruence|intros s e [Q|[Q|[Q|[]]]]; injection Q as _ <-; discriminate|]. cbn [app] in E. rewrite E. eexists. split; [reflexivity|]. intros v V. split.
  - rewrite (V "shear_out" (subs (Sym "rr_0") (Sym "sgs_omega") (Mul (Sym "rr_0") (Sym "shear")))) by (right; right; left; reflexivity). rewrite value_subs. cbn [value]. rewrite set_same, set_other by discriminate. reflexivity.
  - rewrite (V "bulk_out" (subs (Sym "rr_0") (Sym "sgs_omega") (Mul (Sym "rr_1") (Sym "bulk")))) by (right; right; right; left; reflexivity). rewrite value_subs. cbn [value]. rewrite !set_other by discriminate. rewrite (V "rr_1" (subs (Sym "rr_0") (Sym "sgs_omega") (Num r2))) by (right; left; reflexivity). rewrite value_subs. reflexivity.
Qed.
Print Assumptions C77_separate_rate.

(* the hypotheses can be met: a rule with a symbolic rate, and values that solve it with the model *)
Example C77_example : let rule := [("out", Mul (Sym "omega") (Sym "f"))] in let v := fun s => if string_dec s "Pi" then 0 else if string_dec s "out" then 5 else if string_dec s "f" then 5 else 1 in
  fresh "sgs_omega" rule /\ exists rule', add_smagorinsky_model rule (Sympy (Sym "omega")) (Num 0) (1 / 10) = Some rule' /\ solves v rule'.
Proof.
  intros rule v. assert (F : fresh "sgs_omega" rule) by (intros t e [Q|[]]; injection Q as <- <-; split; [discriminate|cbn; intros [Q|Q]; discriminate]). split; [exact F|]. assert (N : "omega" <> "sgs_omega") by discriminate.
  destruct (C77_replaced rule "omega" (Num 0) (1 / 10) F N) as (rule' & E & A). exists rule'. split; [exact E|]. apply A. split; [|split; [|split; [|split]]].
  - intros s e [Q|[]] _. injection Q as <- <-. cbn. unfold set. cbn. lra.
  - intros e [Q|[]]. discriminate.
  - cbn. lra.
  - reflexivity.
  - unfold v. cbn. replace (18 * (1 / 10 * (1 / 10 * 1)) * 0 + 1 * 1) with (1 * 1) by ring. rewrite sqrt_square by lra. lra.
Qed.
