(* C73: domain sizes that fit into a memory. *)
From Coq Require Import String Ascii List ZArith Bool Arith Reals Lra Lia.
From Verif Require Import MemModel MemSpec MemProofs.
Import ListNotations.
Local Open Scope R_scope.

(* the edge length is exact: a cubic domain fits if and only if its edge is not longer *)
Theorem C73_fits : forall dim memory pdfs arrays itemsize, (0 < dim)%nat -> (0 < pdfs)%nat -> (0 < arrays)%nat -> (0 < itemsize)%nat -> 0 <= memory ->
  exists e, edge_length dim memory pdfs arrays itemsize = Some e /\ 0 <= e /\ forall n, fits dim pdfs arrays itemsize memory n <-> INR n <= e.
Proof.
  intros dim m p a i Hd Hp Ha Hi Hm. destruct (edge_ok dim m p a i Hd Hp Ha Hi Hm) as (e & E & P & Q). exists e. split; [exact E|]. split; [exact P|]. intros n. exact (fits_edge dim m p a i e n Hd Hp Ha Hi P Q).
Qed.
Print Assumptions C73_fits.
Theorem C73_square_and_cube : forall memory pdfs arrays itemsize, square_size memory pdfs arrays itemsize = edge_length 2 memory pdfs arrays itemsize /\ cube_size memory pdfs arrays itemsize = edge_length 3 memory pdfs arrays itemsize.
Proof. split; reflexivity. Qed.
Print Assumptions C73_square_and_cube.

(* one array instead of two: the same memory holds twice the cells; more memory never holds less *)
Theorem C73_in_place : forall dim memory pdfs itemsize e1 e2, (0 < dim)%nat -> (0 < pdfs)%nat -> (0 < itemsize)%nat -> 0 <= memory ->
  edge_length dim memory pdfs 1 itemsize = Some e1 -> edge_length dim memory pdfs 2 itemsize = Some e2 -> e1 ^ dim = 2 * e2 ^ dim.
Proof.
  intros dim m p i e1 e2 Hd Hp Hi Hm H1 H2. assert (L1 : (0 < 1)%nat) by lia. assert (L2 : (0 < 2)%nat) by lia.
  destruct (edge_ok dim m p 1 i Hd Hp L1 Hi Hm) as (x & X & _ & EX). destruct (edge_ok dim m p 2 i Hd Hp L2 Hi Hm) as (y & Y & _ & EY). rewrite H1 in X. rewrite H2 in Y. injection X as <-. injection Y as <-.
  assert (I : 0 < INR (p * i)) by (apply lt_0_INR; nia). apply (Rmult_eq_reg_r (INR (p * i))); [|lra]. replace (p * 1 * i)%nat with (p * i)%nat in EX by ring. replace (p * 2 * i)%nat with (2 * (p * i))%nat in EY by ring. rewrite mult_INR in EY. cbn [INR] in EY. lra.
Qed.
Print Assumptions C73_in_place.
Theorem C73_monotone : forall dim m m' pdfs arrays itemsize e e', (0 < dim)%nat -> (0 < pdfs)%nat -> (0 < arrays)%nat -> (0 < itemsize)%nat -> 0 <= m <= m' ->
  edge_length dim m pdfs arrays itemsize = Some e -> edge_length dim m' pdfs arrays itemsize = Some e' -> e <= e'.
Proof.
  intros dim m m' p a i e e' Hd Hp Ha Hi [H0 H1] E E'. assert (H2 : 0 <= m') by lra. destruct (edge_ok dim m p a i Hd Hp Ha Hi H0) as (x & X & PX & EX). destruct (edge_ok dim m' p a i Hd Hp Ha Hi H2) as (y & Y & PY & EY).
  rewrite E in X. rewrite E' in Y. injection X as <-. injection Y as <-. apply (pow_le_iff dim e e' Hd PX PY). assert (I : 0 < INR (p * a * i)) by (apply lt_0_INR; nia). apply (Rmult_le_reg_r _ _ _ I). lra.
Qed.
Print Assumptions C73_monotone.

(* texts: whole numbers and decimal fractions, in units of 1024, 1024^2, 1024^3 bytes, in upper or lower case and with blanks anywhere around *)
Theorem C73_units : forall a b c digits k l f, Forall (fun x => is_space x = true) a -> Forall (fun x => is_space x = true) b -> Forall (fun x => is_space x = true) c ->
  digits <> [] -> Forall (fun d => d < 10)%nat digits -> In l ["b"; "B"]%char -> In (k, f) [("k", 1024); ("K", 1024); ("m", 1024 ^ 2); ("M", 1024 ^ 2); ("g", 1024 ^ 3); ("G", 1024 ^ 3)]%char ->
  convert_memory_size (Text (text_of (a ++ map digit_char digits ++ b ++ [k; l] ++ c))) = Some (INR (decimal digits) * f) /\
  forall fraction, fraction <> [] -> Forall (fun d => d < 10)%nat fraction ->
    convert_memory_size (Text (text_of (a ++ (map digit_char digits ++ "."%char :: map digit_char fraction) ++ b ++ [k; l] ++ c))) = Some ((INR (decimal digits) + INR (decimal fraction) / 10 ^ length fraction) * f).
Proof.
  intros a b c ds k l f Ha Hb Hc N H Hl Hk.
  assert (U : unit_chars [k; l] f).
  { exists k, l. split; [reflexivity|]. cbn [In] in Hl, Hk. destruct Hl as [<-|[<-|[]]]; repeat (destruct Hk as [Q|Hk]; [injection Q as <- <-; repeat split; reflexivity|]); destruct Hk. }
  destruct ds as [|d ds]; [tauto|]. assert (Hd : (d < 10)%nat) by (inversion H; assumption). destruct (digit_facts d Hd) as (_ & S & _). split.
  - apply (convert_text a (map digit_char (d :: ds)) b [k; l] c _ f (digit_char d) (map digit_char ds) Ha Hb Hc (lower_digits _ H) eq_refl S (parse_int _ b N H Hb) U).
  - intros fr NF HF. apply (convert_text a (map digit_char (d :: ds) ++ "."%char :: map digit_char fr) b [k; l] c _ f (digit_char d) (map digit_char ds ++ "."%char :: map digit_char fr) Ha Hb Hc).
    + rewrite map_app, (lower_digits _ H). cbn [map]. f_equal. change (lower_char "."%char) with "."%char. f_equal. exact (lower_digits _ HF).
    + reflexivity.
    + exact S.
    + exact (parse_point _ fr b N NF H HF Hb).
    + exact U.
Qed.
Print Assumptions C73_units.
(* bytes as a number are taken as they are; other units are errors *)
Theorem C73_other_units : (forall n, convert_memory_size (Bytes n) = Some n) /\
  forall s k b l, rev (strip (map lower_char (list_ascii_of_string s))) = b :: k :: l -> ~ (b = "b"%char /\ In k ["k"; "m"; "g"]%char) -> convert_memory_size (Text s) = None.
Proof.
  split; [reflexivity|]. intros s k b l E N. unfold convert_memory_size. cbv zeta. assert (E2 : strip (map lower_char (list_ascii_of_string s)) = rev l ++ [k; b]) by (rewrite <- (rev_involutive (strip _)), E; cbn [rev]; rewrite <- app_assoc; reflexivity).
  rewrite E2, app_length. cbn [length]. replace (length (rev l) + 2 - 2)%nat with (length (rev l)) by lia. rewrite skipn_app, skipn_all, Nat.sub_diag. cbn [skipn app factor_of].
  destruct (Ascii.eqb_spec b "b"%char) as [->|]; [|reflexivity]. destruct (Ascii.eqb_spec k "k"%char) as [->|]; [exfalso; apply N; cbn; tauto|]. destruct (Ascii.eqb_spec k "m"%char) as [->|]; [exfalso; apply N; cbn; tauto|]. destruct (Ascii.eqb_spec k "g"%char) as [->|]; [exfalso; apply N; cbn; tauto|]. reflexivity.
Qed.
Print Assumptions C73_other_units.

(* the table has one row for each memory, in order, with the sizes for D2Q9, D3Q19 and D3Q27 *)
Theorem C73_overview : forall arrays itemsize l, (0 < arrays)%nat -> (0 < itemsize)%nat -> (forall e, In e l -> exists m, convert_memory_size (snd e) = Some m /\ 0 <= m) ->
  exists rows, cache_domain_size_overview arrays itemsize l = Some rows /\ map (fun r => (fst (fst r), snd (fst r))) rows = l /\
  forall name size es, In (name, size, es) rows -> exists m a b c, convert_memory_size size = Some m /\ es = [a; b; c] /\
    forall n, (fits 2 9 arrays itemsize m n <-> INR n <= a) /\ (fits 3 19 arrays itemsize m n <-> INR n <= b) /\ (fits 3 27 arrays itemsize m n <-> INR n <= c).
Proof.
  intros ar it l Ha Hi. induction l as [|[name mem] l IH]; intros H; [exists []; repeat split; intros ? ? ? []|]. destruct IH as (rows & E & M & A); [intros e He; apply H; right; exact He|].
  destruct (H _ (or_introl eq_refl)) as (m & Em & Pm). cbn [snd] in Em. assert (L : (0 < 2)%nat /\ (0 < 3)%nat /\ (0 < 9)%nat /\ (0 < 19)%nat /\ (0 < 27)%nat) by lia. destruct L as (L2 & L3 & L9 & L19 & L27).
  destruct (C73_fits 2 m 9 ar it L2 L9 Ha Hi Pm) as (a & EA & _ & FA). destruct (C73_fits 3 m 19 ar it L3 L19 Ha Hi Pm) as (b & EB & _ & FB). destruct (C73_fits 3 m 27 ar it L3 L27 Ha Hi Pm) as (c & EC & _ & FC).
  exists ((name, mem, [a; b; c]) :: rows). split; [|split].
  - cbn [cache_domain_size_overview]. unfold overview_row. cbn [snd fst]. rewrite Em. unfold square_size, cube_size. rewrite EA, EB, EC, E. reflexivity.
  - cbn [map fst snd]. rewrite M. reflexivity.
  - intros nm sz es [Q|Q]; [|exact (A nm sz es Q)]. injection Q as <- <- <-. exists m, a, b, c. split; [exact Em|]. split; [reflexivity|]. intros n. split; [apply FA|]. split; [apply FB|apply FC].
Qed.
Print Assumptions C73_overview.

(* the table rounds to the nearest tenth: for every n there is a memory for which n.0 is printed although a square of n cells does not fit *)
Theorem C73_printed_refuted : forall n, (0 < n)%nat -> exists bytes e, square_size (INR bytes) 9 2 8 = Some e /\ printed_tenths e = (10 * Z.of_nat n)%Z /\ ~ fits 2 9 2 8 (INR bytes) n.
Proof.
  intros n Hn. assert (N : 1 <= INR n) by (apply (le_INR 1 n); lia). exists (n * n * 144 - 1)%nat. assert (L2 : (0 < 2)%nat) by lia. assert (L9 : (0 < 9)%nat) by lia. assert (L8 : (0 < 8)%nat) by lia.
  assert (B : INR (n * n * 144 - 1) = INR n * INR n * 144 - 1) by (rewrite minus_INR by nia; rewrite !mult_INR; cbn [INR]; lra).
  destruct (edge_ok 2 (INR (n * n * 144 - 1)) 9 2 8 L2 L9 L2 L8 (pos_INR _)) as (e & E & P & Q). exists e. split; [exact E|].
  assert (Q' : e * e * 144 = INR n * INR n * 144 - 1) by (rewrite <- B, <- Q; replace (INR (9 * 2 * 8)) with 144 by (cbn; lra); ring).
  assert (U : e < INR n) by (destruct (Rlt_dec e (INR n)) as [U|U]; [exact U|exfalso; nra]). assert (W : INR n - 1 / 20 <= e) by (destruct (Rle_dec (INR n - 1 / 20) e) as [W|W]; [exact W|exfalso; nra]).
  split.
  - unfold printed_tenths. assert (T : up (10 * e + 1 / 2) = (10 * Z.of_nat n + 1)%Z); [|lia]. symmetry. apply tech_up; rewrite plus_IZR, mult_IZR, <- INR_IZR_INZ; lra.
  - rewrite (fits_edge 2 _ 9 2 8 e n L2 L9 L2 L8 P Q). lra.
Qed.
Print Assumptions C73_printed_refuted.
(* the arrays of a simulation have a ghost layer on each side: with it the largest domain never fits *)
Theorem C73_ghost_layers_refuted : forall dim memory pdfs arrays itemsize e n, (0 < dim)%nat -> (0 < pdfs)%nat -> (0 < arrays)%nat -> (0 < itemsize)%nat -> 0 <= memory ->
  edge_length dim memory pdfs arrays itemsize = Some e -> INR n <= e < INR n + 1 -> fits dim pdfs arrays itemsize memory n /\ ~ fits dim pdfs arrays itemsize memory (n + 2).
Proof.
  intros dim m p a i e n Hd Hp Ha Hi Hm E H. destruct (C73_fits dim m p a i Hd Hp Ha Hi Hm) as (x & X & _ & F). rewrite E in X. injection X as <-. rewrite !F, plus_INR. cbn [INR]. lra.
Qed.
Print Assumptions C73_ghost_layers_refuted.

(* 32 KB hold two arrays of a D2Q9 domain with 15 x 15 cells, not with 16 x 16 *)
Example C73_example : convert_memory_size (Text "32 KB") = Some (INR 32 * 1024) /\ fits 2 9 2 8 (INR 32 * 1024) 15 /\ ~ fits 2 9 2 8 (INR 32 * 1024) 16 /\ convert_memory_size (Text "32 KiB") = None.
Proof.
  split; [|split; [|split]].
  - assert (D : [3; 2]%nat <> []) by discriminate. assert (F : Forall (fun d => d < 10)%nat [3; 2]%nat) by (repeat constructor). assert (SP : Forall (fun x => is_space x = true) [" "%char]) by (repeat constructor).
    exact (proj1 (C73_units [] [" "%char] [] [3; 2]%nat "K" "B" 1024 (Forall_nil _) SP (Forall_nil _) D F (or_intror (or_introl eq_refl)) (or_intror (or_introl eq_refl)))).
  - unfold fits, bytes_needed. rewrite !mult_INR, pow_INR. cbn [INR]. lra.
  - unfold fits, bytes_needed. rewrite !mult_INR, pow_INR. cbn [INR]. lra.
  - reflexivity.
Qed.
