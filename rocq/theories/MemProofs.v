From Coq Require Import String Ascii List ZArith Bool Arith Reals Lra Lia.
From Verif Require Import MemModel MemSpec.
Import ListNotations.
Local Open Scope R_scope.

Lemma root_ok k x : (0 < k)%nat -> 0 <= x -> exists r, root k x = Some r /\ 0 <= r /\ r ^ k = x.
Proof.
  intros Hk Hx. unfold root. destruct (Rlt_dec x 0); [lra|]. eexists. split; [reflexivity|]. destruct (Req_EM_T x 0) as [->|N].
  - split; [lra|]. apply pow_i. exact Hk.
  - split; [left; apply exp_pos|]. rewrite <- Rpower_pow by apply exp_pos. rewrite Rpower_mult. replace (1 / INR k * INR k) with 1 by (field; apply not_0_INR; lia). apply Rpower_1. lra.
Qed.
Lemma pow_le_iff k a b : (0 < k)%nat -> 0 <= a -> 0 <= b -> a ^ k <= b ^ k <-> a <= b.
Proof.
  intros Hk Ha Hb. split; intros H; [|apply pow_incr; lra]. destruct (Rle_dec a b) as [L|L]; [exact L|]. exfalso. assert (B : b < a) by lra. clear L.
  revert H. apply Rlt_not_le. clear Ha. destruct k as [|k]; [lia|]. clear Hk. induction k as [|k IH]; [cbn; lra|]. change (b * b ^ Datatypes.S k < a * a ^ Datatypes.S k). apply Rmult_ge_0_gt_0_lt_compat; try lra.
  - apply Rle_ge. apply pow_le. exact Hb.
Qed.
Lemma edge_ok dim m p a i : (0 < dim)%nat -> (0 < p)%nat -> (0 < a)%nat -> (0 < i)%nat -> 0 <= m -> exists e, edge_length dim m p a i = Some e /\ 0 <= e /\ e ^ dim * INR (p * a * i) = m.
Proof.
  intros Hd Hp Ha Hi Hm. unfold edge_length. cbv zeta. destruct (Nat.eqb_spec i 0); [lia|]. destruct (Nat.eqb_spec (p * a) 0); [nia|].
  assert (I1 : 0 < INR i) by (apply lt_0_INR; exact Hi). assert (I2 : 0 < INR (p * a)) by (apply lt_0_INR; lia).
  destruct (root_ok dim (m / INR i / INR (p * a)) Hd) as (e & E & P & Q).
  { apply Rmult_le_pos; [apply Rmult_le_pos; [exact Hm|]|]; left; apply Rinv_0_lt_compat; assumption. }
  exists e. split; [exact E|]. split; [exact P|]. rewrite Q, (mult_INR (p * a) i). field. lra.
Qed.
Lemma fits_edge dim m p a i e n : (0 < dim)%nat -> (0 < p)%nat -> (0 < a)%nat -> (0 < i)%nat -> 0 <= e -> e ^ dim * INR (p * a * i) = m -> fits dim p a i m n <-> INR n <= e.
Proof.
  intros Hd Hp Ha Hi He E. unfold fits, bytes_needed. rewrite <- E. assert (I : 0 < INR (p * a * i)) by (apply lt_0_INR; nia).
  replace (n ^ dim * p * a * i)%nat with (n ^ dim * (p * a * i))%nat by ring. rewrite mult_INR, pow_INR. rewrite <- (pow_le_iff dim (INR n) e Hd (pos_INR n) He).
  split; intros H; [apply (Rmult_le_reg_r _ _ _ I H)|apply Rmult_le_compat_r; [lra|exact H]].
Qed.

(* texts *)
Definition blank (c : ascii) : Prop := is_space c = true.
Lemma drop_blanks a l : Forall blank a -> drop_spaces (a ++ l) = drop_spaces l.
Proof. intros H. induction H as [|c a Hc H IH]; [reflexivity|]. cbn [app drop_spaces]. rewrite Hc. exact IH. Qed.
Lemma drop_none c l : is_space c = false -> drop_spaces (c :: l) = c :: l.
Proof. intros H. cbn. rewrite H. reflexivity. Qed.
Lemma Forall_rev' {A} (P : A -> Prop) l : Forall P l -> Forall P (rev l).
Proof. intros H. apply Forall_forall. intros x Hx. apply in_rev in Hx. exact (proj1 (Forall_forall P l) H x Hx). Qed.
Lemma strip_ok a b c l d : Forall blank a -> Forall blank b -> is_space c = false -> is_space d = false -> strip (a ++ (c :: l ++ [d]) ++ b) = c :: l ++ [d].
Proof.
  intros Ha Hb Hc Hd. unfold strip. rewrite drop_blanks by exact Ha. cbn [app]. rewrite drop_none by exact Hc.
  change (c :: (l ++ [d]) ++ b) with ((c :: l ++ [d]) ++ b). rewrite rev_app_distr, drop_blanks by (apply Forall_rev'; exact Hb).
  change (c :: l ++ [d]) with ((c :: l) ++ [d]). rewrite rev_app_distr. cbn [rev app]. rewrite drop_none by exact Hd. cbn [rev]. rewrite rev_app_distr, rev_involutive. reflexivity.
Qed.
Lemma strip_right b l c : Forall blank b -> is_space c = false -> (l = [] \/ exists x r, l = x :: r /\ is_space x = false) -> strip ((l ++ [c]) ++ b) = l ++ [c].
Proof.
  intros Hb Hc [->|(x & r & -> & Hx)]; [|exact (strip_ok [] b x r c (Forall_nil _) Hb Hx Hc)]. unfold strip. cbn [app]. rewrite drop_none by exact Hc.
  change (c :: b) with ([c] ++ b). rewrite rev_app_distr, drop_blanks by (apply Forall_rev'; exact Hb). cbn. rewrite Hc. reflexivity.
Qed.
Lemma below_ten (P : nat -> Prop) d : (d < 10)%nat -> P 0%nat -> P 1%nat -> P 2%nat -> P 3%nat -> P 4%nat -> P 5%nat -> P 6%nat -> P 7%nat -> P 8%nat -> P 9%nat -> P d.
Proof. intros H ? ? ? ? ? ? ? ? ? ?. do 10 (destruct d as [|d]; [assumption|]). lia. Qed.
Lemma digit_facts d : (d < 10)%nat -> lower_char (digit_char d) = digit_char d /\ is_space (digit_char d) = false /\ digit (digit_char d) = Some d /\ Ascii.eqb (digit_char d) "."%char = false.
Proof. intros H. revert H. intros H. apply (below_ten (fun d => lower_char (digit_char d) = digit_char d /\ is_space (digit_char d) = false /\ digit (digit_char d) = Some d /\ Ascii.eqb (digit_char d) "."%char = false) d H); repeat split; reflexivity. Qed.
Lemma lower_blank c : blank c -> lower_char c = c.
Proof.
  unfold blank, is_space, lower_char. intros H. cbv zeta in *. destruct ((65 <=? nat_of_ascii c)%nat && (nat_of_ascii c <=? 90)%nat) eqn:E; [|reflexivity]. exfalso.
  apply andb_true_iff in E. destruct E as [E1 E2]. apply Nat.leb_le in E1. apply orb_true_iff in H. destruct H as [H|H]; [apply Nat.eqb_eq in H; lia|]. apply andb_true_iff in H. destruct H as [_ H]. apply Nat.leb_le in H. lia.
Qed.
Lemma lower_blanks l : Forall blank l -> map lower_char l = l.
Proof. intros H. induction H as [|c l Hc H IH]; [reflexivity|]. cbn. rewrite (lower_blank c Hc), IH. reflexivity. Qed.
Lemma lower_digits l : Forall (fun d => d < 10)%nat l -> map lower_char (map digit_char l) = map digit_char l.
Proof. intros H. induction H as [|d l Hd H IH]; [reflexivity|]. cbn [map]. rewrite (proj1 (digit_facts d Hd)), IH. reflexivity. Qed.
Lemma digits_ok l : Forall (fun d => d < 10)%nat l -> forall acc, digits_value acc (map digit_char l) = Some (acc * 10 ^ length l + decimal l)%nat.
Proof.
  intros H. induction H as [|d l Hd H IH]; intros acc; [cbn; f_equal; lia|]. cbn [map digits_value]. rewrite (proj1 (proj2 (proj2 (digit_facts d Hd)))), IH. f_equal. cbn [length decimal]. rewrite Nat.pow_succ_r'. ring.
Qed.
Lemma split_digits l : Forall (fun d => d < 10)%nat l -> split_point (map digit_char l) = (map digit_char l, None).
Proof. intros H. induction H as [|d l Hd H IH]; [reflexivity|]. cbn [map split_point]. rewrite (proj2 (proj2 (proj2 (digit_facts d Hd)))), IH. reflexivity. Qed.
Lemma split_digits_point l r : Forall (fun d => d < 10)%nat l -> split_point (map digit_char l ++ "."%char :: r) = (map digit_char l, Some r).
Proof. intros H. induction H as [|d l Hd H IH]; [reflexivity|]. cbn [map split_point app]. rewrite (proj2 (proj2 (proj2 (digit_facts d Hd)))), IH. reflexivity. Qed.
Lemma parse_int l b : l <> [] -> Forall (fun d => d < 10)%nat l -> Forall blank b -> parse_float (map digit_char l ++ b) = Some (INR (decimal l)).
Proof.
  intros N H Hb. unfold parse_float. assert (E : strip (map digit_char l ++ b) = map digit_char l).
  { destruct (exists_last N) as (l' & d & ->). apply Forall_app in H. destruct H as [H1 H2]. inversion H2; subst. rewrite map_app. cbn [map]. apply strip_right; [exact Hb|exact (proj1 (proj2 (digit_facts d H3)))|].
    destruct l' as [|x r]; [left; reflexivity|right]. inversion H1; subst. exists (digit_char x), (map digit_char r). split; [reflexivity|exact (proj1 (proj2 (digit_facts x H5)))]. }
  rewrite E, (split_digits l H). destruct l as [|d l]; [tauto|]. cbn [map]. change (digit_char d :: map digit_char l) with (map digit_char (d :: l)). rewrite (digits_ok (d :: l) H 0). reflexivity.
Qed.
Lemma parse_point l r b : l <> [] -> r <> [] -> Forall (fun d => d < 10)%nat l -> Forall (fun d => d < 10)%nat r -> Forall blank b ->
  parse_float ((map digit_char l ++ "."%char :: map digit_char r) ++ b) = Some (INR (decimal l) + INR (decimal r) / 10 ^ length r).
Proof.
  intros N M H G Hb. unfold parse_float. assert (E : strip ((map digit_char l ++ "."%char :: map digit_char r) ++ b) = map digit_char l ++ "."%char :: map digit_char r).
  { destruct (exists_last M) as (r' & d & ->). apply Forall_app in G. destruct G as [G1 G2]. inversion G2; subst. rewrite map_app. cbn [map]. change ("."%char :: map digit_char r' ++ [digit_char d]) with (("."%char :: map digit_char r') ++ [digit_char d]). rewrite (app_assoc (map digit_char l)).
    apply strip_right; [exact Hb|exact (proj1 (proj2 (digit_facts d H2)))|]. right. destruct l as [|x l]; [tauto|]. inversion H; subst. exists (digit_char x). eexists. split; [reflexivity|exact (proj1 (proj2 (digit_facts x H4)))]. }
  rewrite E, (split_digits_point l _ H). destruct l as [|d l]; [tauto|]. cbn [map]. change (digit_char d :: map digit_char l) with (map digit_char (d :: l)). rewrite (digits_ok (d :: l) H 0), (digits_ok r G 0), map_length. reflexivity.
Qed.
(* units *)
Definition unit_chars (u : list ascii) (f : R) : Prop := exists k b, u = [k; b] /\ is_space (lower_char k) = false /\ is_space (lower_char b) = false /\ factor_of [lower_char k; lower_char b] = Some f.
Lemma convert_text a num b u c q f x r : Forall blank a -> Forall blank b -> Forall blank c -> map lower_char num = num -> num = x :: r -> is_space x = false -> parse_float (num ++ b) = Some q -> unit_chars u f ->
  convert_memory_size (Text (text_of (a ++ num ++ b ++ u ++ c))) = Some (q * f).
Proof.
  intros Ha Hb Hc Hn En Hx Hq (k & l & -> & K1 & K2 & Hf). unfold convert_memory_size, text_of. rewrite list_ascii_of_string_of_list_ascii.
  rewrite !map_app, (lower_blanks a Ha), (lower_blanks b Hb), (lower_blanks c Hc), Hn. cbn [map].
  replace (a ++ num ++ b ++ [lower_char k; lower_char l] ++ c) with (a ++ (x :: (r ++ b ++ [lower_char k]) ++ [lower_char l]) ++ c) by (rewrite En; cbn [app]; rewrite <- !app_assoc; reflexivity).
  rewrite strip_ok by assumption. replace (x :: (r ++ b ++ [lower_char k]) ++ [lower_char l]) with ((num ++ b) ++ [lower_char k; lower_char l]) by (rewrite En; cbn [app]; rewrite <- !app_assoc; reflexivity).
  rewrite app_length. cbn [length]. replace (length (num ++ b) + 2 - 2)%nat with (length (num ++ b)) by lia. rewrite skipn_app, skipn_all, Nat.sub_diag. cbn [skipn app]. rewrite firstn_app, Nat.sub_diag, firstn_all. cbn [firstn]. rewrite app_nil_r, Hf, Hq. reflexivity.
Qed.
