From Coq Require Import String List ZArith QArith Qreals Reals Lra Lia Bool Arith Permutation.
From Verif Require Import StencilModel StencilProofs StencilProofs2 RealLib LinLib LinQ TransSpec MomModel EqModel ModeModel ModeSpec ModeProofs ModeProofs2 ModeProofs3.
Import ListNotations.
Local Open Scope nat_scope.

(* ---- the order of the directions does not matter ---- *)
Lemma qsum_perm l l' : Permutation l l' -> (qsum l == qsum l')%Q.
Proof.
  intros H. induction H; cbn [qsum fold_right]; [reflexivity| | |].
  - unfold qsum in *. now rewrite IHPermutation.
  - fold (qsum l). ring.
  - etransitivity; eassumption.
Qed.
Lemma qdot3_map (w h g : vec -> Q) S : qdot3 (map w S) (map h S) (map g S) = qsum (map (fun c => (w c * h c * g c)%Q) S).
Proof. unfold qdot3. f_equal. induction S as [|c S IH]; [reflexivity|]. cbn [map combine]. now rewrite IH. Qed.
Lemma qdot3_perm (w h g : vec -> Q) S S' : Permutation S S' -> (qdot3 (map w S) (map h S) (map g S) == qdot3 (map w S') (map h S') (map g S'))%Q.
Proof. intros H. rewrite !qdot3_map. apply qsum_perm, Permutation_map, H. Qed.
Lemma Qeq_bool_perm_aux a b : (a == b)%Q -> Qeq_bool a 0 = Qeq_bool b 0.
Proof. intros H. apply eq_true_iff_eq. rewrite !Qeq_bool_iff, H. reflexivity. Qed.
Definition at_dirs (S : stencil) (hs : list ((vec -> Q) * qpoly)) : list (list Q * qpoly) := map (fun hp => (map (fst hp) S, snd hp)) hs.
Lemma gs_inner_perm w S S' : Permutation S S' -> forall hs h m,
  (exists e, gs_inner (map w S) (at_dirs S hs) (map h S) m = Err e /\ gs_inner (map w S') (at_dirs S' hs) (map h S') m = Err e) \/
  (exists h' m', gs_inner (map w S) (at_dirs S hs) (map h S) m = Ok (map h' S, m') /\ gs_inner (map w S') (at_dirs S' hs) (map h S') m = Ok (map h' S', m')).
Proof.
  intros HP. induction hs as [|[g p] hs IH]; intros h m; cbn [at_dirs map gs_inner fst snd]; [right; exists h, m; auto|].
  rewrite (Qeq_bool_perm_aux (qdot3 (map w S') (map g S') (map g S')) (qdot3 (map w S) (map g S) (map g S))).
  2:{ now apply qdot3_perm, Permutation_sym. }
  destruct (Qeq_bool (qdot3 (map w S) (map g S) (map g S)) 0); [left; eauto|].
  rewrite (Qred_complete (qdot3 (map w S') (map h S') (map g S') / qdot3 (map w S') (map g S') (map g S'))
                         (qdot3 (map w S) (map h S) (map g S) / qdot3 (map w S) (map g S) (map g S))).
  2:{ rewrite (qdot3_perm w h g S' S), (qdot3_perm w g g S' S) by now apply Permutation_sym. reflexivity. }
  set (o := Qred _). specialize (IH (fun c => Qred (h c - o * g c)) (qp_add m (qp_scal (- o) p))).
  assert (E : forall T : stencil, qsubv (map h T) (map (Qmult o) (map g T)) = map (fun c => Qred (h c - o * g c)) T).
  { clear. intros T. unfold qsubv. induction T as [|c T IH]; [reflexivity|]. cbn [map combine fst snd]. now rewrite IH. }
  rewrite !E. exact IH.
Qed.

Lemma gs_outer_perm w S S' : Permutation S S' -> forall ms hs,
  gs_outer (map w S) S (at_dirs S hs) ms = gs_outer (map w S') S' (at_dirs S' hs) ms.
Proof.
  intros HP. induction ms as [|m ms IH]; intros hs; cbn [gs_outer].
  - f_equal. unfold at_dirs. rewrite !map_map. reflexivity.
  - change (qmoment_row S m) with (map (fun c => Qred (qeval m (vecQ c))) S). change (qmoment_row S' m) with (map (fun c => Qred (qeval m (vecQ c))) S').
    destruct (gs_inner_perm w S S' HP hs (fun c => Qred (qeval m (vecQ c))) m) as [(e & -> & ->)|(h' & m' & -> & ->)]; [reflexivity|].
    cbn [rbind]. specialize (IH (hs ++ [(h', m')])). unfold at_dirs in IH. rewrite !map_app in IH. exact IH.
Qed.
Lemma gram_schmidt_perm w S S' ms : Permutation S S' -> gram_schmidt ms S (Some (map w S)) = gram_schmidt ms S' (Some (map w S')).
Proof.
  intros HP. unfold gram_schmidt. rewrite !map_length. unfold sizeQ. rewrite !Nat.eqb_refl. cbn [negb]. destruct ms; [reflexivity|].
  apply (gs_outer_perm w S S' HP _ []).
Qed.
Lemma gram_schmidt_ones S ms : gram_schmidt ms S None = gram_schmidt ms S (Some (map (fun _ => 1%Q) S)).
Proof.
  unfold gram_schmidt. replace (map (fun _ => 1%Q) S) with (repeat 1%Q (sizeQ S)); [reflexivity|]. unfold sizeQ. induction S as [|c S IH]; cbn [length repeat map]; [reflexivity|]. now f_equal.
Qed.

(* ---- the five stencils ---- *)
Lemma five_nodup T : In T standard_stencils -> NoDup T.
Proof.
  intros H. assert (B : forallb (fun T => forallb (fun i => negb (existsb (vec_eqb (nth i T [])) (skipn (Datatypes.S i) T))) (seq 0 (length T))) standard_stencils = true) by (vm_compute; reflexivity).
  rewrite forallb_forall in B. specialize (B _ H). rewrite forallb_forall in B. clear H.
  assert (G : forall l : stencil, (forall i, In i (seq 0 (length l)) -> negb (existsb (vec_eqb (nth i l [])) (skipn (Datatypes.S i) l)) = true) -> NoDup l).
  { clear. induction l as [|a l IH]; intros H; [constructor|]. constructor.
    - specialize (H 0 ltac:(cbn; auto)). cbn [nth skipn] in H. intros Hin. apply negb_true_iff in H.
      assert (existsb (vec_eqb a) l = true); [|congruence]. now apply existsb_vec_In.
    - apply IH. intros i Hi. apply (H (Datatypes.S i)). apply in_seq in Hi. apply in_seq. cbn [length]. lia. }
  now apply G.
Qed.
Lemma reordering_perm T S : NoDup T -> reordering_of T S -> Permutation T S.
Proof. intros HT [HS H]. apply NoDup_Permutation; auto. intros d. symmetry. apply H. Qed.
Lemma five_dim T : In T standard_stencils -> Forall (fun c => length c = dimD T) T /\ T <> [].
Proof.
  intros H. assert (B : forallb (fun T => forallb (fun c => length c =? dimD T) T && (0 <? length T)) standard_stencils = true) by (vm_compute; reflexivity).
  rewrite forallb_forall in B. specialize (B _ H). apply andb_true_iff in B. destruct B as [B1 B2]. split.
  - apply Forall_forall. intros c Hc. rewrite forallb_forall in B1. apply Nat.eqb_eq, B1, Hc.
  - intros ->. discriminate.
Qed.
Lemma perm_dim T S : In T standard_stencils -> Permutation T S -> dimD S = dimD T /\ sizeQ S = sizeQ T.
Proof.
  intros H HP. destruct (five_dim T H) as [HD HT]. split; [|symmetry; apply Permutation_length; exact HP].
  destruct S as [|c S]; [apply Permutation_sym, Permutation_nil in HP; contradiction|]. unfold dimD at 1.
  rewrite Forall_forall in HD. apply HD. apply (Permutation_in _ (Permutation_sym HP)). now left.
Qed.
Lemma same_entries_perm S T T' : NoDup S -> In T standard_stencils -> Permutation T S -> In T' standard_stencils -> have_same_entries S T' = have_same_entries T T'.
Proof.
  intros HS HT HP HT'. pose proof (five_nodup _ HT) as N. pose proof (five_nodup _ HT') as N'. apply eq_true_iff_eq.
  rewrite !have_same_entries_spec by assumption. split; intros H; [now apply (Permutation_trans HP)|now apply (Permutation_trans (Permutation_sym HP))].
Qed.
Lemma standard_perm S : standard S -> exists T, In T standard_stencils /\ NoDup S /\ Permutation T S.
Proof. intros (T & HT & HR). exists T. split; [exact HT|]. split; [apply HR|]. apply reordering_perm; [now apply five_nodup|exact HR]. Qed.

Definition weight_fn (n : nat) (d : vec) : Q := match weight_for_direction n d with Ok q => q | Err _ => 0%Q end.
Lemma weights_map S w : get_weights S = Ok w -> w = map (weight_fn (sizeQ S)) S.
Proof.
  unfold get_weights. generalize (sizeQ S). intros n. revert w. induction S as [|c S IH]; intros w H; cbn [mapM] in H; [injection H as <-; reflexivity|].
  cbn [map]. unfold weight_fn at 1. destruct (weight_for_direction n c) as [q|]; [|discriminate]. cbn [rbind] in H.
  destruct (mapM (weight_for_direction n) S) as [ws|]; [|discriminate]. cbn [rbind] in H. injection H as <-. f_equal. now apply IH.
Qed.
Lemma weights_standard S : standard S -> get_weights S = Ok (map (weight_fn (sizeQ S)) S).
Proof.
  intros HS. apply standard_perm in HS. destruct HS as (T & HT & HN & HP). destruct (perm_dim T S HT HP) as [_ EQ].
  assert (A : forall d, In d S -> exists q, weight_for_direction (sizeQ S) d = Ok q).
  { assert (B : forallb (fun T => forallb (fun d => match weight_for_direction (sizeQ T) d with Ok _ => true | Err _ => false end) T) standard_stencils = true) by (vm_compute; reflexivity).
    rewrite forallb_forall in B. specialize (B _ HT). rewrite forallb_forall in B. intros d Hd. specialize (B d (Permutation_in _ (Permutation_sym HP) Hd)). rewrite EQ.
    destruct (weight_for_direction (sizeQ T) d); [eauto|discriminate]. }
  unfold get_weights. revert A. generalize (sizeQ S). intros n A. clear - A. induction S as [|c S IH]; [reflexivity|]. cbn [mapM map]. unfold weight_fn at 1.
  destruct (A c (or_introl eq_refl)) as [q ->]. cbn [rbind]. rewrite IH by (intros d Hd; apply A; now right). reflexivity.
Qed.

Definition basis_check (S : stencil) (ps : list qpoly) : bool := let A := qmoment_matrix ps S in qinverse_check (length S) A (qinv A).
Lemma basis_from T S ps : In T standard_stencils -> Permutation T S -> basis_check T ps = true -> moment_basis S ps.
Proof.
  intros HT HP H. apply (basis_perm T); [now apply five_nodup|exact HP|now apply perm_dim|]. eapply basis_of_inverse; [now apply five_dim|exact H].
Qed.
(* cascaded *)
Lemma cascaded_table : forallb (fun T => match cascaded_moment_sets_literature T with Ok gs => basis_check T (map expand (concat gs)) | Err _ => false end) standard_stencils = true.
Proof. vm_compute. reflexivity. Qed.
Lemma cascaded_perm T S : In T standard_stencils -> NoDup S -> Permutation T S -> cascaded_moment_sets_literature S = cascaded_moment_sets_literature T.
Proof. intros HT HN HP. unfold cascaded_moment_sets_literature. rewrite !(same_entries_perm S T) by (auto; cbn; tauto). reflexivity. Qed.
Lemma cascaded_basis S : standard S -> exists gs, cascaded_moment_sets_literature S = Ok gs /\ moment_basis S (map expand (concat gs)).
Proof.
  intros HS. apply standard_perm in HS. destruct HS as (T & HT & HN & HP). rewrite (cascaded_perm T S) by assumption.
  pose proof cascaded_table as B. rewrite forallb_forall in B. specialize (B _ HT). destruct (cascaded_moment_sets_literature T) as [gs|]; [|discriminate].
  exists gs. split; [reflexivity|]. now apply (basis_from T).
Qed.
Lemma cascaded_other S : NoDup S -> ~ standard S -> cascaded_moment_sets_literature S = Err ValueError.
Proof.
  intros HN HS. assert (A : forall T, In T standard_stencils -> have_same_entries S T = false).
  { intros T HT. destruct (have_same_entries S T) eqn:E; [|reflexivity]. exfalso. apply HS. exists T. split; [exact HT|].
    apply have_same_entries_spec in E; [|exact HN|now apply five_nodup]. split; [exact HN|]. intros d. split; apply Permutation_in; auto using Permutation_sym. }
  unfold cascaded_moment_sets_literature. rewrite !A by (cbn; tauto). reflexivity.
Qed.
(* default sets *)
Lemma default_table : forallb (fun T => match get_default_moment_set_for_stencil T with Ok ps => basis_check T ps | Err _ => false end) standard_stencils = true.
Proof. vm_compute. reflexivity. Qed.
Lemma default_perm T S : In T standard_stencils -> Permutation T S -> get_default_moment_set_for_stencil S = get_default_moment_set_for_stencil T.
Proof. intros HT HP. destruct (perm_dim T S HT HP) as [E1 E2]. unfold get_default_moment_set_for_stencil. rewrite E1, E2. reflexivity. Qed.
Lemma default_basis S : standard S -> exists ps, get_default_moment_set_for_stencil S = Ok ps /\ moment_basis S ps.
Proof.
  intros HS. apply standard_perm in HS. destruct HS as (T & HT & HN & HP). rewrite (default_perm T S) by assumption.
  pose proof default_table as B. rewrite forallb_forall in B. specialize (B _ HT). destruct (get_default_moment_set_for_stencil T) as [ps|]; [|discriminate].
  exists ps. split; [reflexivity|]. now apply (basis_from T).
Qed.
(* literature *)
Definition weight_choice (weighted : bool) (n : nat) (d : vec) : Q := if weighted then weight_fn n d else 1%Q.
Lemma literature_table : forallb (fun T => forallb (fun b => match mrt_orthogonal_modes_literature T b with
  | Ok gs => let ps := map expand (concat gs) in basis_check T ps && orth_check (weight_choice b (sizeQ T)) T ps | Err _ => true end) [true; false]) standard_stencils = true.
Proof. vm_compute. reflexivity. Qed.
Lemma literature_perm T S b : In T standard_stencils -> NoDup S -> Permutation T S -> mrt_orthogonal_modes_literature S b = mrt_orthogonal_modes_literature T b.
Proof. intros HT HN HP. unfold mrt_orthogonal_modes_literature. rewrite !(same_entries_perm S T) by (auto; cbn; tauto). reflexivity. Qed.
Lemma literature_standard S b gs : NoDup S -> mrt_orthogonal_modes_literature S b = Ok gs -> standard S.
Proof.
  intros HN H. assert (A : forall T, In T standard_stencils -> have_same_entries S T = true -> standard S).
  { intros T HT E. exists T. split; [exact HT|]. apply have_same_entries_spec in E; [|exact HN|now apply five_nodup]. split; [exact HN|]. intros d. split; apply Permutation_in; auto using Permutation_sym. }
  unfold mrt_orthogonal_modes_literature in H.
  destruct (have_same_entries S D2Q9_walberla) eqn:E1; [apply (A D2Q9_walberla); [cbn; tauto|exact E1]|].
  destruct (have_same_entries S D3Q15_walberla) eqn:E2; [apply (A D3Q15_walberla); [cbn; tauto|exact E2]|].
  destruct (have_same_entries S D3Q19_walberla) eqn:E3; [apply (A D3Q19_walberla); [cbn; tauto|exact E3]|].
  destruct (have_same_entries S D3Q27_walberla) eqn:E4; [apply (A D3Q27_walberla); [cbn; tauto|exact E4]|]. discriminate.
Qed.
Lemma ones_map S : map (weight_choice false (sizeQ S)) S = repeat 1%Q (sizeQ S).
Proof. generalize (sizeQ S) at 1. intros n. unfold sizeQ. induction S as [|c S IH]; [reflexivity|]. cbn [map length repeat]. now rewrite IH. Qed.
Lemma weights_chosen S (b : bool) : standard S -> exists w, (if b then get_weights S else Ok (repeat 1%Q (sizeQ S))) = Ok w /\ w = map (weight_choice b (sizeQ S)) S.
Proof. intros HS. destruct b; [rewrite (weights_standard S HS)|rewrite <- ones_map]; eexists; split; reflexivity. Qed.
Lemma literature_orthogonal S (b : bool) gs : NoDup S -> mrt_orthogonal_modes_literature S b = Ok gs ->
  moment_basis S (map expand (concat gs)) /\
  exists w, (if b then get_weights S else Ok (repeat 1%Q (sizeQ S))) = Ok w /\ orthogonal w S (map expand (concat gs)).
Proof.
  intros HN H. pose proof (literature_standard _ _ _ HN H) as HS. destruct (weights_chosen S b HS) as (w & Hw & ->).
  apply standard_perm in HS. destruct HS as (T & HT & _ & HP). rewrite (literature_perm T S) in H by assumption.
  pose proof literature_table as B. rewrite forallb_forall in B. specialize (B _ HT). rewrite forallb_forall in B. specialize (B b ltac:(destruct b; cbn; tauto)).
  rewrite H in B. cbv zeta in B. apply andb_true_iff in B. destruct B as [B1 B2]. split; [now apply (basis_from T)|].
  exists (map (weight_choice b (sizeQ S)) S). split; [exact Hw|]. rewrite (proj2 (perm_dim T S HT HP)). now apply (orth_check_sound _ T).
Qed.
(* the modes of create_mrt_orthogonal *)
Definition group_check (D : nat) (gs : list (list qpoly)) : bool :=
  match gs with
  | [p] :: conserved :: shears :: bulks :: rest =>
    let hom k (p : qpoly) := negb (Nat.eqb (length p) 0) && forallb (fun t : Q * list nat => nsum (snd t) =? k) p in
    hom 0 p && (length conserved =? D) && forallb (hom 1) conserved && forallb (fun p => is_shear_moment p D) shears &&
    (length bulks =? 1) && forallb (fun p => is_bulk_moment p D && forallb (fun t => implb (nsum (snd t) =? 2) (existsb (fun a => tuple_eqb (snd t) (square a)) [0; 1; 2])) p) bulks &&
    forallb (forallb (fun p => existsb (fun t => 2 <? nsum (snd t)) p)) rest && forallb (forallb (fun p => forallb (fun t => length (snd t) =? 3) p)) gs
  | _ => false
  end.
Lemma group_check_sound D gs : 1 <= D <= 3 -> group_check D gs = true -> exists conserved shears bulks rest, hydrodynamic_grouping D gs conserved shears bulks rest.
Proof.
  intros HD H. destruct gs as [|[|p [|]] [|conserved [|shears [|bulks rest]]]]; try discriminate. cbn [group_check] in H. cbv zeta in H.
  rewrite !andb_true_iff in H. destruct H as ((((((((H1 & H1') & H2) & H3) & H4) & H5) & H6) & H7) & H8).
  assert (Hom : forall k (p : qpoly), negb (length p =? 0) && forallb (fun t : Q * list nat => nsum (snd t) =? k) p = true -> homogeneous k p).
  { clear. intros k p H. apply andb_true_iff in H. destruct H as [H1 H2]. split; [intros ->; discriminate|]. intros t Ht. rewrite forallb_forall in H2. now apply Nat.eqb_eq, H2. }
  exists conserved, shears, bulks, rest. unfold hydrodynamic_grouping. cbn [firstn app]. split; [reflexivity|].
  split; [exists p; split; [reflexivity|]; apply Hom, andb_true_iff; auto|].
  split; [split; [now apply Nat.eqb_eq|]; apply Forall_forall; intros q Hq; rewrite forallb_forall in H3; apply Hom, H3, Hq|].
  rewrite forallb_forall in H8.
  assert (K : forall g q, In g ([p] :: conserved :: shears :: bulks :: rest) -> In q g -> three q).
  { intros g q Hg Hq. specialize (H8 g Hg). rewrite forallb_forall in H8. specialize (H8 q Hq). rewrite forallb_forall in H8. apply Forall_forall. intros t Ht. now apply Nat.eqb_eq, H8. }
  split; [apply Forall_forall; intros q Hq; rewrite forallb_forall in H4; apply is_shear_spec; [apply (K shears); cbn; auto|exact HD|now apply H4]|].
  split; [split; [now apply Nat.eqb_eq|]|].
  - apply Forall_forall. intros q Hq. rewrite forallb_forall in H6. specialize (H6 q Hq). apply andb_true_iff in H6. destruct H6 as [H6 H9]. split.
    + apply is_bulk_spec; [apply (K bulks); cbn; auto|exact HD|exact H6].
    + intros t Ht E. rewrite forallb_forall in H9. specialize (H9 t Ht). rewrite E in H9. cbn [Nat.eqb implb] in H9. apply existsb_exists in H9. destruct H9 as (a & _ & H9). exists a. now apply tuple_eqb_eq.
  - apply Forall_forall. intros g Hg. apply Forall_forall. intros q Hq. rewrite forallb_forall in H7. specialize (H7 g Hg). rewrite forallb_forall in H7. specialize (H7 q Hq).
    apply existsb_exists in H7. destruct H7 as (t & Ht & E). exists t. split; [exact Ht|now apply Nat.ltb_lt].
Qed.
Lemma orthogonal_default_table : forallb (fun T => forallb (fun b => match orthogonal_default_groups T b with
  | Ok gs => basis_check T (concat gs) && orth_check (weight_choice b (sizeQ T)) T (concat gs) && group_check (dimD T) gs | Err _ => false end) [true; false]) standard_stencils = true.
Proof. vm_compute. reflexivity. Qed.
Lemma orthogonal_default_perm T S b : In T standard_stencils -> standard T -> standard S -> Permutation T S -> orthogonal_default_groups S b = orthogonal_default_groups T b.
Proof.
  intros HT HsT HS HP. destruct (perm_dim T S HT HP) as [E1 E2]. unfold orthogonal_default_groups, orthogonal_default_moments.
  rewrite E1, (default_perm T S) by assumption. rewrite (weights_standard S HS), (weights_standard T HsT), E2.
  destruct b; cbn [rbind]; destruct (get_default_moment_set_for_stencil T) as [ps|]; cbn [rbind]; auto; f_equal.
  - apply gram_schmidt_perm. now apply Permutation_sym.
  - rewrite !gram_schmidt_ones. apply gram_schmidt_perm. now apply Permutation_sym.
Qed.
Lemma orthogonal_default S (b : bool) : standard S -> exists gs conserved shears bulks rest, orthogonal_default_groups S b = Ok gs /\
  moment_basis S (concat gs) /\ (exists w, (if b then get_weights S else Ok (repeat 1%Q (sizeQ S))) = Ok w /\ orthogonal w S (concat gs)) /\
  hydrodynamic_grouping (dimD S) gs conserved shears bulks rest.
Proof.
  intros HS. destruct (weights_chosen S b HS) as (w & Hw & ->). pose proof HS as HS'. apply standard_perm in HS. destruct HS as (T & HT & HN & HP).
  rewrite (orthogonal_default_perm T S); auto.
  2:{ exists T. split; [exact HT|]. split; [now apply five_nodup|tauto]. }
  pose proof orthogonal_default_table as B. rewrite forallb_forall in B. specialize (B _ HT). rewrite forallb_forall in B. specialize (B b ltac:(destruct b; cbn; tauto)).
  destruct (orthogonal_default_groups T b) as [gs|]; [|discriminate]. rewrite !andb_true_iff in B. destruct B as [[B1 B2] B3].
  destruct (perm_dim T S HT HP) as [E1 E2].
  assert (HD : 1 <= dimD T <= 3). { clear - HT. cbn in HT. destruct HT as [<-|[<-|[<-|[<-|[<-|[]]]]]]; cbn; lia. }
  destruct (group_check_sound (dimD T) gs HD B3) as (c & s & bb & r & G).
  exists gs, c, s, bb, r. split; [reflexivity|]. split; [now apply (basis_from T)|]. split; [|rewrite E1; exact G].
  exists (map (weight_choice b (sizeQ S)) S). split; [exact Hw|]. rewrite E2. now apply (orth_check_sound _ T).
Qed.

(* ---- the statements of PropsMode ---- *)
Lemma qpoly_eqb_refl p : qpoly_eqb p p = true.
Proof.
  induction p as [|[c e] p IH]; [reflexivity|]. cbn [qpoly_eqb fst snd]. rewrite IH, andb_true_r. apply andb_true_iff. split; [now apply Qeq_bool_iff|].
  now apply tuple_eqb_eq.
Qed.
Lemma nodup_b (gs : list qpoly) : forallb (fun i => negb (existsb (qpoly_eqb (nth i gs [])) (skipn (Datatypes.S i) gs))) (seq 0 (length gs)) = true -> NoDup gs.
Proof.
  intros B. rewrite forallb_forall in B. induction gs as [|a l IH]; [constructor|]. constructor.
  - specialize (B 0 ltac:(cbn; auto)). cbn [nth skipn] in B. intros Hin. apply negb_true_iff in B.
    assert (existsb (qpoly_eqb a) l = true); [|congruence]. apply existsb_exists. exists a. split; [exact Hin|apply qpoly_eqb_refl].
  - apply IH. intros i Hi. apply (B (Datatypes.S i)). apply in_seq in Hi. apply in_seq. cbn [length]. lia.
Qed.
Lemma dict_get_app_l {M V} (eqb : M -> M -> bool) (d d' : list (M * V)) k : (exists v, dict_get eqb d k = Some v) -> dict_get eqb (d ++ d') k = dict_get eqb d k.
Proof. intros (v & H). induction d as [|[k' v'] d IH]; [discriminate|]. cbn [app dict_get] in *. destruct (eqb k' k); auto. Qed.
Lemma callable_dict {M V} (eqb : M -> M -> bool) (He : forall a b, eqb a b = true <-> a = b) (f : list M -> list V) nested : forall d,
  NoDup (map fst d ++ concat nested) -> (forall g, In g nested -> length g <= length (f g)) ->
  callable_rates eqb f d nested = Ok (d ++ concat (map (fun g => combine g (f g)) nested)).
Proof.
  induction nested as [|g nested IH]; intros d HN HL; cbn [callable_rates map concat]; [now rewrite app_nil_r|].
  cbn [concat] in HN. rewrite app_assoc in HN. rewrite (zip_rates_ok eqb (fun _ => []) He g d (f g)); [|eapply NoDup_app_l; exact HN|apply HL; now left]. cbn [rbind].
  assert (K : map fst (combine g (f g)) = g). { specialize (HL g (or_introl eq_refl)). clear - HL. revert HL. generalize (f g). induction g as [|a g IH]; intros [|b l] H; cbn in *; auto; [lia|]. f_equal. apply IH. lia. }
  rewrite IH; [now rewrite <- app_assoc|rewrite map_app, K; exact HN|intros g' Hg'; apply HL; now right].
Qed.
Lemma map_fst_combine_le {A B} (g : list A) (l : list B) : length g <= length l -> map fst (combine g l) = g.
Proof. revert l. induction g as [|a g IH]; intros [|b l] H; cbn in *; auto; [lia|]. f_equal. apply IH. lia. Qed.
Lemma callable_ok {M V} (eqb : M -> M -> bool) (rep : M -> qpoly) (zero one : V) (He : forall a b, eqb a b = true <-> a = b) (f : list M -> list V) nested (dim : nat) (conserved : bool) :
  NoDup (concat nested) -> (forall g, In g nested -> length g <= length (f g)) ->
  exists d, get_relaxation_info_dict eqb rep zero one (Callable f) nested dim conserved None = Ok d /\ map fst d = concat nested /\
    forall group i m, In group nested -> nth_error group i = Some m -> dict_get eqb d m = nth_error (f group) i.
Proof.
  intros HN HL. unfold get_relaxation_info_dict. rewrite (callable_dict eqb He f nested []) by assumption. cbn [rbind apply_modifier app]. eexists. split; [reflexivity|].
  assert (K : map fst (concat (map (fun g => combine g (f g)) nested)) = concat nested).
  { clear HN. induction nested as [|g nested IH]; [reflexivity|]. cbn [map concat]. rewrite map_app, map_fst_combine_le by (apply HL; now left). f_equal. apply IH. intros g' H. apply HL. now right. }
  split; [exact K|]. intros group i m Hg Hi. assert (Li : i < length group) by (apply nth_error_Some; congruence). specialize (HL group Hg).
  destruct (nth_error (f group) i) as [v|] eqn:Ev. 2:{ apply nth_error_None in Ev. lia. }
  apply (dict_get_in eqb He); [rewrite K; exact HN|]. apply in_concat. exists (combine group (f group)). split; [apply in_map_iff; eauto|].
  clear - Hi Ev. revert i Hi Ev. generalize (f group). induction group as [|a g IH]; intros l [|i] Hi Ev; try discriminate; destruct l as [|b l]; try discriminate; cbn in *.
  - left. congruence.
  - right. eapply IH; eauto.
Qed.
Lemma viscosity_roundtrip : forall (M V : Type) (eqb : M -> M -> bool) (veqb : V -> V -> bool) (rep : M -> qpoly) (zero one : V),
  (forall a b, eqb a b = true <-> a = b) -> (forall a b, veqb a b = true <-> a = b) ->
  forall nested dim rates d, NoDup (concat nested) -> length rates <> 1 -> length rates <> length (concat nested) ->
  (forall m, In m (concat nested) -> shear rep dim m = true \/ bulk rep dim m = true -> low_order rep m = false) ->
  some (shear rep dim) nested = 1 -> get_relaxation_info_dict eqb rep zero one (Rates rates) nested dim true None = Ok d ->
  get_shear_relaxation_rate rep veqb dim d = Ok (nth 0 rates zero) /\
  (some (bulk rep dim) nested = 1 -> get_bulk_relaxation_rate rep veqb dim d = Ok (nth 1 rates zero)) /\
  (some (bulk rep dim) nested = 0 -> get_bulk_relaxation_rate rep veqb dim d = Ok (nth 0 rates zero)).
Proof.
  intros M V eqb veqb rep zero one He Hv nested dim rates d HN H1 H2 HO Hs H. unfold get_relaxation_info_dict in H.
  replace (length rates =? length (concat nested)) with false in H by (symmetry; now apply Nat.eqb_neq). replace (length rates =? 1) with false in H by (symmetry; now apply Nat.eqb_neq).
  rewrite (fallback_ok eqb rep zero He) in H by auto. destruct (_ <=? length rates); [|discriminate]. cbn [rbind apply_modifier] in H. injection H as <-.
  set (d := concat _).
  assert (In_d : forall k v, In (k, v) d -> In k (concat nested) /\ exists g, v = rate_by_group rep zero dim true rates nested g k).
  { intros k v Hk. unfold d in Hk. apply in_concat in Hk. destruct Hk as (l & Hl & Hk). apply in_map_iff in Hl. destruct Hl as ([g group] & <- & Hg). cbn [fst snd] in Hk.
    apply in_map_iff in Hk. destruct Hk as (m & Em & Hm). injection Em as -> <-. split; [|eauto]. apply in_concat. exists group. split; [now apply in_combine_r in Hg|exact Hm]. }
  assert (Some_d : forall P, some P nested = 1 -> exists kv, In kv d /\ P (fst kv) = true).
  { intros P HP. unfold some in HP. destruct (existsb P (concat nested)) eqn:E; [|discriminate]. apply existsb_exists in E. destruct E as (m & Hm & E).
    assert (Hk : In m (map fst d)) by (unfold d; rewrite keys_by_group; exact Hm). apply in_map_iff in Hk. destruct Hk as (kv & <- & Hkv). eauto. }
  assert (Sh : get_shear_relaxation_rate rep veqb dim d = Ok (nth 0 rates zero)).
  { apply shear_rate_const; [exact Hv|now apply Some_d|]. intros k v Hk Hsk. apply In_d in Hk. destruct Hk as (Hin & g & ->). unfold rate_by_group.
    rewrite (HO k Hin (or_introl Hsk)), Hsk. reflexivity. }
  split; [exact Sh|]. split; intros Hb.
  - apply bulk_rate_const; [now apply Some_d|]. intros k v Hk Hbk. apply In_d in Hk. destruct Hk as (Hin & g & ->). unfold rate_by_group.
    rewrite (HO k Hin (or_intror Hbk)), Hbk, Hs. destruct (shear rep dim k) eqn:E; [|reflexivity].
    exfalso. unfold shear, bulk, is_shear_moment in *. rewrite Hbk in E. discriminate.
  - unfold get_bulk_relaxation_rate. destruct (find _ d) as [[k v]|] eqn:E; [|exact Sh]. exfalso. apply find_some in E. destruct E as [Hk Hbk]. cbn [fst] in Hbk.
    apply In_d in Hk. destruct Hk as [Hin _]. rewrite (some_in (bulk rep dim) nested k Hin Hbk) in Hb. discriminate.
Qed.
