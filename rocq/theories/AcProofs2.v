(* Finite difference stencils on polynomials: all orderings of the stencils, all polynomials. *)
From Coq Require Import String List ZArith Bool Arith Reals Lra Lia Permutation.
From Verif Require Import StencilModel StencilProofs2 RealLib LinLib TransSpec AcModel AcSpec AcProofs.
Import ListNotations.
Local Open Scope R_scope.

(* ---- linear functionals of polynomials ---- *)
Definition linear (L : poly -> R) : Prop := forall p, L p = rsum (map (fun t => fst t * L [(1, snd t)]) p).
Lemma peval_map (h : R * list nat -> R * list nat) (k : list nat -> R) (l : list nat -> list nat) x p : (forall c e, h (c, e) = (c * k e, l e)) -> peval (map h p) x = rsum (map (fun t => fst t * (k (snd t) * rmono x (l (snd t)))) p).
Proof. intros H. unfold peval. rewrite map_map. apply rsum_ext. intros [c e] _. rewrite H. cbn. ring. Qed.
(* a derivative is a map that multiplies the coefficient by a number depending on the exponents *)
Definition termwise (T : poly -> poly) : Prop := exists (k : list nat -> R) (l : list nat -> list nat), forall p, T p = map (fun t => (fst t * k (snd t), l (snd t))) p.
Lemma termwise_pderiv a T : termwise T -> termwise (fun p => pderiv a (T p)).
Proof.
  intros (k & l & H). exists (fun e => k e * INR (nth a (l e) 0%nat)), (fun e => lower a (l e)). intros p. rewrite H. unfold pderiv. rewrite map_map. apply map_ext. intros t. cbn. f_equal. ring.
Qed.
Lemma termwise_id : termwise (fun p => p).
Proof. exists (fun _ => 1), (fun e => e). intros p. rewrite <- (map_id p) at 1. apply map_ext. intros [c e]. cbn. f_equal. ring. Qed.
Lemma termwise_linear T x : termwise T -> linear (fun p => peval (T p) x).
Proof.
  intros (k & l & H) p. rewrite H, (peval_map _ k l) by reflexivity. apply rsum_ext. intros t _. rewrite H. cbn. unfold peval. cbn. ring.
Qed.
Lemma linear_sum (Ls : nat -> poly -> R) l : (forall a, linear (Ls a)) -> linear (fun p => rsum (map (fun a => Ls a p) l)).
Proof.
  intros H p. rewrite (rsum_ext _ (fun a => rsum (map (fun t => fst t * Ls a [(1, snd t)]) p))) by (intros a _; apply H).
  rewrite rsum_swap. apply rsum_ext. intros t _. now rewrite rsum_scal.
Qed.
Lemma linear_comb L M c : linear L -> linear M -> linear (fun p => L p + c * M p).
Proof.
  intros HL HM p. rewrite (HL p), (HM p), <- rsum_scal, <- rsum_plus. apply rsum_ext. intros t _. ring.
Qed.
Lemma linear_ext L M : (forall p, L p = M p) -> linear L -> linear M.
Proof. intros H HL p. rewrite <- H, HL. apply rsum_ext. intros t _. now rewrite H. Qed.
Lemma peval_app p q x : peval (p ++ q) x = peval p x + peval q x.
Proof. unfold peval. rewrite map_app. apply rsum_app. Qed.
Lemma peval_flat_map (f : nat -> poly) l x : peval (flat_map f l) x = rsum (map (fun a => peval (f a) x) l).
Proof. induction l as [|a l IH]; [reflexivity|]. cbn [flat_map map]. rewrite peval_app, rsum_cons, IH. reflexivity. Qed.
Lemma pderiv_flat_map a (f : nat -> poly) l : pderiv a (flat_map f l) = flat_map (fun b => pderiv a (f b)) l.
Proof. unfold pderiv. induction l as [|b l IH]; [reflexivity|]. cbn. now rewrite map_app, IH. Qed.
Lemma plap_eval T D x : (forall a, linear (fun p => peval (T (pderiv a (pderiv a p))) x)) -> (forall (f : nat -> poly) l, peval (T (flat_map f l)) x = rsum (map (fun a => peval (T (f a)) x) l)) ->
  linear (fun p => peval (T (plap D p)) x).
Proof. intros H1 H2. eapply linear_ext; [intros p; unfold plap; symmetry; apply H2|]. apply linear_sum. exact H1. Qed.
Lemma linear_d1 a x : linear (fun p => peval (pderiv a p) x).
Proof. apply termwise_linear. apply (termwise_pderiv a (fun p => p)), termwise_id. Qed.
Lemma linear_d2 D x : linear (fun p => peval (plap D p) x).
Proof.
  apply (plap_eval (fun p => p)); [|intros; apply peval_flat_map]. intros a. apply (termwise_linear (fun p => pderiv a (pderiv a p))).
  apply termwise_pderiv, (termwise_pderiv a (fun p => p)), termwise_id.
Qed.
Lemma linear_d3 D a x : linear (fun p => peval (pderiv a (plap D p)) x).
Proof.
  apply (plap_eval (pderiv a)); [|intros f l; rewrite pderiv_flat_map; apply peval_flat_map]. intros b. apply (termwise_linear (fun p => pderiv a (pderiv b (pderiv b p)))).
  apply termwise_pderiv, termwise_pderiv, (termwise_pderiv b (fun p => p)), termwise_id.
Qed.
Lemma linear_d4 D x : linear (fun p => peval (plap D (plap D p)) x).
Proof.
  apply (linear_ext (fun p => rsum (map (fun b => peval (pderiv b (pderiv b (plap D p))) x) (seq 0 D)))); [intros p; symmetry; apply peval_flat_map|].
  apply linear_sum. intros b. apply (plap_eval (fun p => pderiv b (pderiv b p))); [|intros f l; rewrite !pderiv_flat_map; apply peval_flat_map].
  intros a. apply (termwise_linear (fun p => pderiv b (pderiv b (pderiv a (pderiv a p))))).
  apply termwise_pderiv, termwise_pderiv, termwise_pderiv, (termwise_pderiv a (fun p => p)), termwise_id.
Qed.
Lemma sampled_mono x e o : sampled [(1, e)] x o = mono_field x e o.
Proof. unfold sampled, peval, mono_field. cbn. ring. Qed.
Lemma op_linear (w : vec -> R) (S : stencil) x : linear (fun p => rsum (map (fun c => w c * sampled p x c) S)).
Proof.
  intros p. rewrite (rsum_ext _ (fun c => rsum (map (fun t => fst t * (w c * sampled [(1, snd t)] x c)) p))).
  - rewrite rsum_swap. apply rsum_ext. intros t _. now rewrite rsum_scal.
  - intros c _. unfold sampled at 1, peval. rewrite <- rsum_scal. apply rsum_ext. intros t _. rewrite sampled_mono. unfold mono_field. ring.
Qed.
Lemma linear_eq L M D n p : linear L -> linear M -> degree_le D n p -> (forall e, length e = D -> (list_sum e <= n)%nat -> L [(1, e)] = M [(1, e)]) -> L p = M p.
Proof.
  intros HL HM Hp H. rewrite HL, HM. apply rsum_ext. intros t Ht. unfold degree_le in Hp. rewrite Forall_forall in Hp. destruct (Hp t Ht). now rewrite H.
Qed.

(* ---- every ordering ---- *)
Lemma op_perm (f : vec -> R) S T : Permutation S T -> rsum (map f S) = rsum (map f T).
Proof. intros H. apply rsum_perm, Permutation_map, H. Qed.
(* the weights of an accepted stencil *)
Inductive fd_case (S : stencil) : nat -> (Z -> R) -> (Z -> R) -> Prop :=
| case_D2Q9 : Permutation D2Q9_walberla S -> fd_case S 2 gD2Q9 lD2Q9
| case_D3Q15 : Permutation D3Q15_walberla S -> fd_case S 3 gD3Q15 lD3Q15
| case_D3Q19 : Permutation D3Q19_walberla S -> fd_case S 3 gD3Q19 lD3Q19
| case_D3Q27 : Permutation D3Q27_walberla S -> fd_case S 3 gD3Q27 lD3Q27.
Definition pure_gradient (D : nat) (g : Z -> R) (S : stencil) (phi : vec -> R) : list R := map (fun a => grad_op g S a phi) (seq 0 D) ++ pad D.
Lemma dims_perm name o S : predefined_stencils name "walberla" = Ok o -> Permutation o S -> (forall c, In c S -> length c = dimD o) -> S <> [] -> dimD S = dimD o /\ sizeQ S = sizeQ o.
Proof.
  intros _ HP Hl Hne. split; [|unfold sizeQ; symmetry; now apply Permutation_length]. unfold dimD at 1. destruct S as [|c S]; [congruence|]. apply Hl. now left.
Qed.
Lemma perm_lengths S T D : Permutation S T -> forallb (fun c => Nat.eqb (length c) D) S = true -> S <> [] -> dimD T = D /\ sizeQ T = sizeQ S /\ forall c, In c T -> length c = D.
Proof.
  intros HP Hb Hne. rewrite forallb_forall in Hb.
  assert (H : forall c, In c T -> length c = D) by (intros c Hc; apply Nat.eqb_eq, Hb; apply Permutation_in with T; [now apply Permutation_sym|exact Hc]).
  split; [|split; [unfold sizeQ; symmetry; now apply Permutation_length|exact H]]. destruct T as [|c T]; [apply Permutation_sym, Permutation_nil in HP; congruence|]. unfold dimD. cbn. apply H. now left.
Qed.
Lemma fd_cases name ord S : fd_name name -> predefined_stencils name ord = Ok S -> exists D g l, fd_case S D g l /\ dimD S = D /\
  (name = "D2Q9"%string /\ l = lD2Q9 \/ name = "D3Q15"%string /\ l = lD3Q15 \/ name = "D3Q19"%string /\ l = lD3Q19 \/ name = "D3Q27"%string /\ l = lD3Q27) /\
  (forall phi, gradient S phi = Ok (pure_gradient D g S phi)) /\ (forall phi, laplacian S phi = Ok (lap_op l S phi)).
Proof.
  intros [<-|[<-|[<-|[<-|[]]]]] H.
  - assert (HP : Permutation D2Q9_walberla S) by (apply (predefined_perm "D2Q9" "walberla" ord); [reflexivity|exact H]).
    destruct (perm_lengths _ _ 2 HP eq_refl) as (H1 & H2 & _); [discriminate|]. cbn in H2. exists 2%nat, gD2Q9, lD2Q9. split; [now constructor|]. split; [exact H1|]. split; [now left|].
    unfold gradient, laplacian. rewrite H1, H2. split; reflexivity.
  - assert (HP : Permutation D3Q15_walberla S) by (apply (predefined_perm "D3Q15" "walberla" ord); [reflexivity|exact H]).
    destruct (perm_lengths _ _ 3 HP eq_refl) as (H1 & H2 & _); [discriminate|]. cbn in H2. exists 3%nat, gD3Q15, lD3Q15. split; [now constructor|]. split; [exact H1|]. split; [right; now left|].
    unfold gradient, laplacian. rewrite H1, H2. split; reflexivity.
  - assert (HP : Permutation D3Q19_walberla S) by (apply (predefined_perm "D3Q19" "walberla" ord); [reflexivity|exact H]).
    destruct (perm_lengths _ _ 3 HP eq_refl) as (H1 & H2 & _); [discriminate|]. cbn in H2. exists 3%nat, gD3Q19, lD3Q19. split; [now constructor|]. split; [exact H1|]. split; [right; right; now left|].
    unfold gradient, laplacian. rewrite H1, H2. split; reflexivity.
  - assert (HP : Permutation D3Q27_walberla S) by (apply (predefined_perm "D3Q27" "walberla" ord); [reflexivity|exact H]).
    destruct (perm_lengths _ _ 3 HP eq_refl) as (H1 & H2 & _); [discriminate|]. cbn in H2. exists 3%nat, gD3Q27, lD3Q27. split; [now constructor|]. split; [exact H1|]. split; [right; right; now right|].
    unfold gradient, laplacian. rewrite H1, H2. split; reflexivity.
Qed.
Lemma grad_case S D g l : fd_case S D g l -> grad_good D g S.
Proof.
  intros H a x e Ha Hx He Hs. unfold grad_op. destruct H as [H|H|H|H]; rewrite <- (op_perm _ _ _ H); [now apply grad_D2Q9|now apply grad_D3Q15|now apply grad_D3Q19|now apply grad_D3Q27].
Qed.
Lemma grad_poly S D g l a x p : fd_case S D g l -> (a < D)%nat -> length x = D -> degree_le D 4 p ->
  grad_op g S a (sampled p x) = peval (pderiv a p) x + 1 / 6 * peval (pderiv a (plap D p)) x.
Proof.
  intros HS Ha Hx Hp. apply (linear_eq (fun p => grad_op g S a (sampled p x)) (fun p => peval (pderiv a p) x + 1 / 6 * peval (pderiv a (plap D p)) x) D 4); auto.
  - unfold grad_op. apply (op_linear (fun c => entry c a * g (norm2 c))).
  - apply linear_comb; [apply linear_d1|apply linear_d3].
  - intros e He Hs. refine (eq_trans _ (grad_case S D g l HS a x e Ha Hx He Hs)). apply rsum_ext. intros c _. now rewrite sampled_mono.
Qed.
Lemma lap_case S D g l : fd_case S D g l -> l <> lD3Q15 -> lap_good D l S.
Proof.
  intros H Hn x e Hx He Hs. unfold lap_op. destruct H as [H|H|H|H]; rewrite <- (op_perm _ _ _ H); [now apply lap_D2Q9|congruence|now apply lap_D3Q19|now apply lap_D3Q27].
Qed.
Lemma lap_poly S D g l x p : fd_case S D g l -> l <> lD3Q15 -> length x = D -> degree_le D 5 p ->
  lap_op l S (sampled p x) = peval (plap D p) x + 1 / 12 * peval (plap D (plap D p)) x.
Proof.
  intros HS Hn Hx Hp. apply (linear_eq (fun p => lap_op l S (sampled p x)) (fun p => peval (plap D p) x + 1 / 12 * peval (plap D (plap D p)) x) D 5); auto.
  - apply (op_linear (fun c => l (norm2 c))).
  - apply linear_comb; [apply linear_d2|apply linear_d4].
  - intros e He Hs. refine (eq_trans _ (lap_case S D g l HS Hn x e Hx He Hs)). apply rsum_ext. intros c _. now rewrite sampled_mono.
Qed.
(* fourth derivatives of a cubic, third derivatives of a quadratic *)
Lemma lower_sum a e : (nth a e 0 <> 0)%nat -> list_sum (lower a e) = (list_sum e - 1)%nat /\ (0 < list_sum e)%nat.
Proof.
  revert a. induction e as [|n e IH]; intros a H; [destruct a; cbn in H; congruence|]. destruct a as [|a].
  - change (list_sum (lower 0 (n :: e))) with (Nat.pred n + list_sum e)%nat. change (list_sum (n :: e)) with (n + list_sum e)%nat. cbn in H. lia.
  - change (list_sum (lower (S a) (n :: e))) with (n + list_sum (lower a e))%nat. change (list_sum (n :: e)) with (n + list_sum e)%nat. cbn in H. destruct (IH a H). lia.
Qed.
Definition vanishes (p : poly) : Prop := forall x, peval p x = 0.
Definition zero_above (n : nat) (p : poly) : Prop := Forall (fun t => fst t = 0 \/ (list_sum (snd t) <= n)%nat) p.
Lemma pderiv_degree a n p : zero_above (S n) p -> zero_above n (pderiv a p).
Proof.
  unfold zero_above, pderiv. rewrite !Forall_forall. intros H t Ht. apply in_map_iff in Ht as ([c e] & <- & Hin). cbn [fst snd]. destruct (H _ Hin) as [E|He]; [cbn in E; subst c; left; ring|]. cbn [snd] in He.
  destruct (Nat.eq_dec (nth a e 0%nat) 0) as [->|Hn]; [left; cbn; ring|]. right. destruct (lower_sum a e Hn). lia.
Qed.
Lemma pderiv_const a p : zero_above 0 p -> vanishes (pderiv a p).
Proof.
  unfold zero_above, vanishes, pderiv, peval. rewrite Forall_forall. intros H x. rewrite map_map. rewrite (rsum_ext _ (fun _ => 0)); [apply rsum_zero|]. intros [c e] Hin. cbn. destruct (H _ Hin) as [E|He]; [cbn in E; subst c; ring|].
  cbn [snd] in He. destruct (Nat.eq_dec (nth a e 0%nat) 0) as [->|Hn]; [cbn; ring|]. destruct (lower_sum a e Hn). lia.
Qed.
Lemma plap_degree D n p : zero_above (S (S n)) p -> zero_above n (plap D p).
Proof. intros H. unfold zero_above, plap. apply Forall_flat_map, Forall_forall. intros a _. apply pderiv_degree, pderiv_degree, H. Qed.
Lemma degree_zero_above D n p : degree_le D n p -> zero_above n p.
Proof. apply Forall_impl. intros t [_ H]. now right. Qed.
Lemma zero_above_mono n m p : (n <= m)%nat -> zero_above n p -> zero_above m p.
Proof. intros H. apply Forall_impl. intros t [E|E]; [now left|right; lia]. Qed.
Lemma plap_linear D p : zero_above 1 p -> vanishes (plap D p).
Proof.
  intros H x. unfold plap. rewrite peval_flat_map, (rsum_ext _ (fun _ => 0)); [apply rsum_zero|]. intros a _. apply pderiv_const. now apply pderiv_degree.
Qed.
Lemma grad_exact S D g l a x p : fd_case S D g l -> (a < D)%nat -> length x = D -> degree_le D 2 p -> grad_op g S a (sampled p x) = peval (pderiv a p) x.
Proof.
  intros HS Ha Hx Hp. rewrite (grad_poly S D g l); auto.
  - rewrite (pderiv_const a (plap D p)); [ring|]. apply plap_degree, (degree_zero_above D), Hp.
  - revert Hp. apply Forall_impl. intros t [H1 H2]. split; [exact H1|lia].
Qed.
Lemma lap_exact S D g l x p : fd_case S D g l -> length x = D -> degree_le D 3 p -> lap_op l S (sampled p x) = peval (plap D p) x.
Proof.
  intros HS Hx Hp. destruct HS as [H|H|H|H].
  2: { apply (linear_eq (fun p => lap_op lD3Q15 S (sampled p x)) (fun p => peval (plap 3 p) x) 3 3); auto; [apply (op_linear (fun c => lD3Q15 (norm2 c)))|apply linear_d2|].
       intros e He Hs. unfold lap_op. rewrite <- (op_perm _ _ _ H). refine (eq_trans _ (lap_D3Q15 x e Hx He Hs)). apply rsum_ext. intros c _. now rewrite sampled_mono. }
  1: assert (HS : fd_case S 2 gD2Q9 lD2Q9) by now constructor.
  2: assert (HS : fd_case S 3 gD3Q19 lD3Q19) by now constructor.
  3: assert (HS : fd_case S 3 gD3Q27 lD3Q27) by now constructor.
  1: assert (Hn : lD2Q9 <> lD3Q15) by (intros E; apply (f_equal (fun f => f 1%Z)) in E; unfold lD2Q9, lD3Q15 in E; cbn in E; lra).
  2: assert (Hn : lD3Q19 <> lD3Q15) by (intros E; apply (f_equal (fun f => f 1%Z)) in E; unfold lD3Q19, lD3Q15 in E; cbn in E; lra).
  3: assert (Hn : lD3Q27 <> lD3Q15) by (intros E; apply (f_equal (fun f => f 1%Z)) in E; unfold lD3Q27, lD3Q15 in E; cbn in E; lra).
  all: rewrite (lap_poly S _ _ _ x p HS Hn Hx).
  1, 3, 5: rewrite (plap_linear _ (plap _ p)); [ring|]; eapply plap_degree, degree_zero_above, Hp.
  all: revert Hp; apply Forall_impl; intros t [H1 H2]; (split; [exact H1|lia]).
Qed.
