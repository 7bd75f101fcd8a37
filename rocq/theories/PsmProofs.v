(* Proofs about partially saturated cells. *)
From Coq Require Import List ZArith Bool Arith Reals Lra Lia Permutation.
From Verif Require Import StencilModel StencilProofs AccessModel StreamModel StreamSpec AccessProofs IndexProofs RealLib LinLib EqSpec CollModel PsmModel.
Import ListNotations.
Local Open Scope R_scope.

Lemma fsum_seq (f : list R) (S : stencil) g : length f = length S ->
  fsum f S g = rsum (map (fun i => nth i f 0 * g (nth i S [])) (seq 0 (length S))).
Proof.
  unfold fsum. revert f. induction S as [|c S IH]; intros [|x f] H; cbn [length] in H; try discriminate; [reflexivity|].
  cbn [combine map length seq rsum fold_right fst snd nth]. rewrite <- seq_shift, map_map.
  f_equal. apply IH. lia.
Qed.
Lemma fsum_radd (x y : list R) S g : length x = length S -> length y = length S -> fsum (radd x y) S g = fsum x S g + fsum y S g.
Proof.
  intros Hx Hy. rewrite !fsum_seq; [|assumption..|rewrite radd_length; lia].
  rewrite <- rsum_plus. apply rsum_ext. intros i Hi. rewrite nth_radd by lia. lra.
Qed.
Lemma fold_radd_length (l : list (list R)) x n : length x = n -> Forall (fun y => length y = n) l -> length (fold_left radd l x) = n.
Proof. intros Hx H. revert x Hx. induction H as [|y l Hy Hl IH]; intros x Hx; cbn [fold_left]; [exact Hx|]. apply IH. rewrite radd_length. lia. Qed.
Lemma fsum_fold (l : list (list R)) x S g : length x = length S -> Forall (fun y => length y = length S) l ->
  fsum (fold_left radd l x) S g = fsum x S g + rsum (map (fun y => fsum y S g) l).
Proof.
  intros Hx H. revert x Hx. induction H as [|y l Hy Hl IH]; intros x Hx; cbn [fold_left map rsum fold_right]; [lra|].
  rewrite IH by (rewrite radd_length; lia). rewrite fsum_radd by assumption. unfold rsum. lra.
Qed.
Lemma fold_radd_zero (l : list (list R)) x : Forall (fun y => y = rzero (length x)) l -> fold_left radd l x = x.
Proof. intros H. revert H. induction l as [|y l IH]; intros H; [reflexivity|]. inversion H; subst. cbn [fold_left]. rewrite radd_zero_r. apply IH; assumption. Qed.

Lemma length_concat_const {A} (l : list (list A)) m : (forall y, In y l -> length y = m) -> length (concat l) = (length l * m)%nat.
Proof. induction l as [|x l IH]; intros H; [reflexivity|]. cbn [concat length]. rewrite app_length, (H x (or_introl eq_refl)), IH; [lia|]. intros y Hy. apply H. now right. Qed.
Lemma skipn_skipn' {A} a b (l : list A) : skipn a (skipn b l) = skipn (b + a) l.
Proof. revert l. induction b as [|b IH]; intros l; [reflexivity|]. destruct l; [now rewrite !skipn_nil|]. cbn [plus skipn]. apply IH. Qed.

  Lemma ltb_true a b : a < b -> ltb a b = true.
  Proof. unfold ltb. destruct (Rlt_dec a b); tauto. Qed.
  Lemma ltb_false a b : ~ a < b -> ltb a b = false.
  Proof. unfold ltb. destruct (Rlt_dec a b); tauto. Qed.
  Lemma leb_true a b : a <= b -> leb a b = true.
  Proof. unfold leb. destruct (Rle_dec a b); tauto. Qed.
  Lemma leb_false a b : ~ a <= b -> leb a b = false.
  Proof. unfold leb. destruct (Rle_dec a b); tauto. Qed.


Section Sym.
  Context (D : nat) (S : stencil) (HS : symmetric_stencil D S).
  Local Notation Q := (length S).
  Local Notation opp := (opp S).

  Lemma opp_perm : Permutation (map opp (seq 0 Q)) (seq 0 Q).
  Proof.
    apply NoDup_Permutation.
    - apply (proj2 (NoDup_nth (map opp (seq 0 Q)) (opp 0%nat))). rewrite map_length, seq_length.
      intros i j Hi Hj. rewrite !map_nth, !seq_nth by assumption. cbn. apply (opp_inj D S HS); assumption.
    - apply seq_NoDup.
    - intros x. rewrite in_map_iff. split.
      + intros (i & <- & Hi). apply in_seq in Hi. apply in_seq. pose proof (opp_lt D S HS i). lia.
      + intros Hx. apply in_seq in Hx. exists (opp x). split; [apply (opp_opp D S HS); lia|]. apply in_seq. pose proof (opp_lt D S HS x). lia.
  Qed.
  Lemma rsum_opp (g : nat -> R) : rsum (map (fun i => g (opp i)) (seq 0 Q)) = rsum (map g (seq 0 Q)).
  Proof. rewrite <- (map_map opp g). apply rsum_perm, Permutation_map, opp_perm. Qed.
  Lemma rsum_nth (f : list R) : length f = Q -> rsum (map (fun i => nth i f 0) (seq 0 Q)) = density f S.
  Proof. intros H. unfold density. rewrite fsum_seq by exact H. apply rsum_ext. intros. lra. Qed.

  Context (collision : list R -> list R -> res (list R)) (rates : list R)
          (equilibrium : list R -> list R -> list R) (velocity : list R -> list R)
          (SC : Z) (omega fraction : R) (individual : nat -> R) (object_velocity : nat -> list R).
  Context (HSC : SC = 1%Z \/ SC = 2%Z \/ SC = 3%Z).

  Definition sc_val (f : list R) (p i : nat) : R :=
    let eF := equilibrium f (velocity f) in let eS := equilibrium f (object_velocity p) in
    individual p *
    (if Z.eqb SC 1 then (nth (opp i) f 0 - nth (opp i) eF 0) - (nth i f 0 - nth i eS 0)
     else if Z.eqb SC 2 then (nth i eS 0 - nth i f 0) + (1 - omega) * (nth i f 0 - nth i eF 0)
     else (nth (opp i) f 0 - nth (opp i) eS 0) - (nth i f 0 - nth i eS 0)).
  Local Notation particle_collision := (particle_collision S equilibrium velocity SC omega individual object_velocity).
  Local Notation add_psm := (add_psm S equilibrium velocity SC omega individual object_velocity).
  Local Notation psm_update := (psm_update S collision rates equilibrium velocity SC omega fraction individual object_velocity).

  Definition sc_list (f : list R) (p : nat) : list R := map (sc_val f p) (seq 0 Q).
  Lemma sc_list_length f p : length (sc_list f p) = Q.
  Proof. unfold sc_list. now rewrite map_length, seq_length. Qed.
  Lemma particle_collision_ok f p : particle_collision f p = Ok (sc_list f p).
  Proof.
    unfold PsmModel.particle_collision, sc_list. rewrite <- mapM_map_Ok. apply mapM_ext. intros i Hi. apply in_seq in Hi. unfold sizeQ in Hi.
    unfold solid_collision. destruct (opp_spec D S HS i) as (E & _); [lia|]. unfold dir in E. rewrite E. unfold sc_val.
    destruct HSC as [->|[->| ->]]; reflexivity.
  Qed.
  Lemma add_psm_ok n main f : add_psm n main f =
    Ok (fold_left radd (map (sc_list f) (seq 0 n)) main, concat (map (fun p => particle_force S (sc_list f p)) (seq 0 n))).
  Proof.
    unfold PsmModel.add_psm. replace (mapM (particle_collision f) (seq 0 n)) with (Ok (map (sc_list f) (seq 0 n))).
    - cbn [rbind]. now rewrite map_map.
    - symmetry. rewrite <- mapM_map_Ok. apply mapM_ext. intros. apply particle_collision_ok.
  Qed.

  Lemma sc_lists_wf f l : Forall (fun y => length y = Q) (map (sc_list f) l).
  Proof. apply Forall_forall. intros y Hy. apply in_map_iff in Hy as (p & <- & _). apply sc_list_length. Qed.
  Lemma psm_inv n f g F : psm_update n f = Ok (g, F) ->
    exists main, collision (scaled_rates rates fraction) f = Ok main /\ g = fold_left radd (map (sc_list f) (seq 0 n)) main /\
                 F = concat (map (fun p => particle_force S (sc_list f p)) (seq 0 n)).
  Proof.
    unfold PsmModel.psm_update. destruct (collision (scaled_rates rates fraction) f) as [main|e]; cbn [rbind]; [|discriminate].
    rewrite add_psm_ok. intros [= <- <-]. exists main. auto.
  Qed.

  (* mass *)
  Definition mass_neutral (f : list R) (p : nat) : Prop :=
    let eF := equilibrium f (velocity f) in let eS := equilibrium f (object_velocity p) in
    match SC with
    | 3%Z => True
    | 1%Z => density eS S = density eF S
    | _ => density eS S = density eF S /\ density eF S = density f S
    end.
  Lemma sc_density f p : length f = Q -> (forall u, length (equilibrium f u) = Q) -> mass_neutral f p -> density (sc_list f p) S = 0.
  Proof.
    intros Hf He Hm. unfold density. rewrite fsum_seq by apply sc_list_length.
    rewrite (rsum_ext _ (fun i => sc_val f p i)).
    2:{ intros i Hi. apply in_seq in Hi. unfold sc_list. rewrite nth_map_seq by lia. lra. }
    unfold sc_val. cbv zeta. rewrite rsum_scal. unfold mass_neutral in Hm. cbv zeta in Hm.
    set (eF := equilibrium f (velocity f)) in *. set (eS := equilibrium f (object_velocity p)) in *.
    assert (LF : length eF = Q) by apply He. assert (LS : length eS = Q) by apply He.
    match goal with |- _ * ?x = 0 => enough (x = 0) as -> by lra end.
    pose proof (rsum_nth f Hf) as Ef. pose proof (rsum_nth eF LF) as EF. pose proof (rsum_nth eS LS) as ES.
    destruct HSC as [E|[E|E]]; rewrite E in *; cbn [Z.eqb Pos.eqb].
    - rewrite rsum_minus, !rsum_minus.
      rewrite (rsum_opp (fun i => nth i f 0)), (rsum_opp (fun i => nth i eF 0)). lra.
    - rewrite rsum_plus, rsum_minus, rsum_scal, rsum_minus. rewrite Ef, EF, ES. destruct Hm as [H1 H2]. rewrite H1, H2. lra.
    - rewrite rsum_minus, !rsum_minus.
      rewrite (rsum_opp (fun i => nth i f 0)), (rsum_opp (fun i => nth i eS 0)). lra.
  Qed.
  Lemma psm_density n f g F main : psm_update n f = Ok (g, F) -> collision (scaled_rates rates fraction) f = Ok main ->
    length f = Q -> length main = Q -> (forall u, length (equilibrium f u) = Q) ->
    (forall p, (p < n)%nat -> mass_neutral f p) -> density g S = density main S.
  Proof.
    intros H Hc Hf Hmn He Hm. apply psm_inv in H as (main' & Hc' & -> & _). rewrite Hc in Hc'. injection Hc' as <-.
    unfold density at 1. rewrite fsum_fold by (try apply sc_lists_wf; exact Hmn). rewrite map_map.
    rewrite (rsum_ext _ (fun _ => 0)); [rewrite rsum_zero; unfold density; lra|].
    intros p Hp. apply in_seq in Hp. apply sc_density; try assumption. apply Hm. lia.
  Qed.

  (* forces *)
  Lemma particle_force_length sc : length (particle_force S sc) = dimD S.
  Proof. unfold particle_force. now rewrite map_length, seq_length. Qed.
  Lemma nth_concat_block {A} (d : A) m (l : list (list A)) p j : Forall (fun x => length x = m) l -> (j < m)%nat -> (p < length l)%nat ->
    nth (p * m + j) (concat l) d = nth j (nth p l []) d.
  Proof.
    intros H Hj. revert p. induction H as [|x l Hx Hl IH]; intros p Hp; [cbn in Hp; lia|]. cbn [concat].
    destruct p as [|p]; [cbn [nth]; rewrite app_nth1 by lia; reflexivity|].
    rewrite app_nth2 by (rewrite Hx; cbn; lia). rewrite Hx. replace (Datatypes.S p * m + j - m)%nat with (p * m + j)%nat by (cbn; lia).
    cbn [nth]. apply IH. cbn in Hp. lia.
  Qed.
  Lemma force_entry f n p j : (p < n)%nat -> (j < D)%nat ->
    nth (p * D + j) (concat (map (fun p => particle_force S (sc_list f p)) (seq 0 n))) 0 = - momentum (sc_list f p) S j.
  Proof.
    intros Hp Hj. rewrite <- (dimD_D D S HS) in Hj |- *.
    rewrite nth_concat_block; [|apply Forall_forall; intros y Hy; apply in_map_iff in Hy as (q & <- & _); apply particle_force_length|exact Hj|now rewrite map_length, seq_length].
    rewrite (nth_indep _ [] (particle_force S (sc_list f 0%nat))) by (rewrite map_length, seq_length; exact Hp).
    rewrite (map_nth (fun p => particle_force S (sc_list f p))), seq_nth by exact Hp. cbn [plus].
    unfold particle_force. rewrite nth_map_seq by exact Hj. reflexivity.
  Qed.
  Lemma psm_momentum n f g F main j : psm_update n f = Ok (g, F) -> collision (scaled_rates rates fraction) f = Ok main ->
    length main = Q -> (j < D)%nat ->
    momentum g S j + rsum (map (fun p => nth (p * D + j) F 0) (seq 0 n)) = momentum main S j.
  Proof.
    intros H Hc Hmn Hj. apply psm_inv in H as (main' & Hc' & -> & ->). rewrite Hc in Hc'. injection Hc' as <-.
    unfold momentum at 1. rewrite fsum_fold by (try apply sc_lists_wf; exact Hmn). rewrite map_map.
    rewrite (rsum_ext (fun p => nth _ _ 0) (fun p => (-1) * momentum (sc_list f p) S j)).
    2:{ intros p Hp. apply in_seq in Hp. rewrite force_entry by lia. lra. }
    rewrite rsum_scal. unfold momentum. lra.
  Qed.

  (* particles which do not overlap the cell *)
  Lemma sc_list_zero f p : individual p = 0 -> sc_list f p = rzero Q.
  Proof.
    intros H. apply list_ext; [rewrite sc_list_length, rzero_length; reflexivity|].
    intros i Hi. rewrite sc_list_length in Hi. rewrite nth_rzero. unfold sc_list. rewrite nth_map_seq by exact Hi. unfold sc_val. rewrite H. lra.
  Qed.
  Lemma particle_force_zero n : particle_force S (rzero n) = rzero (dimD S).
  Proof.
    apply list_ext; [now rewrite particle_force_length, rzero_length|]. rewrite particle_force_length. intros j Hj. rewrite nth_rzero.
    unfold particle_force. rewrite nth_map_seq by exact Hj.
    match goal with |- - ?x = 0 => enough (x = 0) by lra end.
    rewrite (rsum_ext _ (fun _ => 0)); [apply rsum_zero|]. intros [a c] Ha. apply in_combine_l in Ha. unfold rzero in Ha. apply repeat_spec in Ha. subst. cbn [fst]. lra.
  Qed.
  Lemma psm_zero n f main : (forall p, (p < n)%nat -> individual p = 0) -> collision (scaled_rates rates fraction) f = Ok main -> length main = Q ->
    psm_update n f = Ok (main, rzero (n * D)).
  Proof.
    intros H Hc Hl. unfold PsmModel.psm_update. rewrite Hc. cbn [rbind]. rewrite add_psm_ok. f_equal. f_equal.
    - apply fold_radd_zero. apply Forall_forall. intros y Hy. apply in_map_iff in Hy as (p & <- & Hp). apply in_seq in Hp. rewrite Hl. apply sc_list_zero. apply H. lia.
    - rewrite <- (dimD_D D S HS). rewrite (map_ext_in _ (fun _ => rzero (dimD S))).
      2:{ intros p Hp. apply in_seq in Hp. rewrite sc_list_zero by (apply H; lia). apply particle_force_zero. }
      clear. induction n as [|n IH]; [reflexivity|]. rewrite seq_S, map_app, concat_app. cbn [map concat]. rewrite app_nil_r, IH.
      unfold rzero. rewrite <- repeat_app. f_equal. cbn. lia.
  Qed.
  Lemma scaled_rates_one : fraction = 0 -> scaled_rates rates fraction = rates.
  Proof. intros ->. unfold scaled_rates. rewrite <- (map_id rates) at 2. apply map_ext. intros. lra. Qed.

  (* m more particles which do not overlap do not change the populations *)
  Lemma psm_more n m f g F : psm_update n f = Ok (g, F) -> (forall p, (n <= p < n + m)%nat -> individual p = 0) ->
    (forall main, collision (scaled_rates rates fraction) f = Ok main -> length main = Q) ->
    psm_update (n + m) f = Ok (g, F ++ rzero (m * D)).
  Proof.
    intros H Hz Hlen. pose proof H as H'. apply psm_inv in H' as (main & Hc & -> & ->). specialize (Hlen main Hc).
    unfold PsmModel.psm_update. rewrite Hc. cbn [rbind]. rewrite add_psm_ok. f_equal. rewrite seq_app, !map_app, concat_app, fold_left_app. f_equal.
    - apply fold_radd_zero. apply Forall_forall. intros y Hy. apply in_map_iff in Hy as (p & <- & Hp). apply in_seq in Hp.
      rewrite (fold_radd_length _ _ Q); [|exact Hlen|apply sc_lists_wf]. apply sc_list_zero. apply Hz. lia.
    - f_equal. rewrite <- (dimD_D D S HS). rewrite (map_ext_in _ (fun _ => rzero (dimD S))).
      2:{ intros p Hp. apply in_seq in Hp. rewrite sc_list_zero by (apply Hz; lia). apply particle_force_zero. }
      clear. generalize (0 + n)%nat. induction m as [|m IH]; intros k; [reflexivity|]. cbn [seq map concat]. rewrite IH.
      unfold rzero. rewrite <- repeat_app. f_equal.
  Qed.

  (* ---- the conditional blocks ---- *)
  Context (plain : list R -> res (list R)).
  Local Notation particle_blocks := (particle_blocks S collision rates equilibrium velocity SC omega fraction individual object_velocity).
  Local Notation psm_kernel := (psm_kernel S collision rates equilibrium velocity SC omega fraction individual object_velocity plain).
  Lemma particle_blocks_app f l l' st : particle_blocks f (l ++ l') st = rbind (particle_blocks f l st) (particle_blocks f l').
  Proof.
    revert st. induction l as [|p l IH]; intros st; [reflexivity|]. cbn [app PsmModel.particle_blocks].
    destruct (when _ _ _) as [st'|e]; cbn [rbind]; [apply IH|reflexivity].
  Qed.
  Lemma particle_blocks_none f l st : (forall p, In p l -> individual p <= 0) -> particle_blocks f l st = Ok st.
  Proof.
    revert st. induction l as [|p l IH]; intros st H; [reflexivity|]. cbn [PsmModel.particle_blocks]. unfold when at 1.
    rewrite ltb_false by (specialize (H p (or_introl eq_refl)); lra). cbn [rbind]. apply IH. intros q Hq. apply H. now right.
  Qed.
  Lemma psm_update_total n f main : collision (scaled_rates rates fraction) f = Ok main -> exists gF, psm_update n f = Ok gF.
  Proof. intros H. unfold PsmModel.psm_update. rewrite H. cbn [rbind]. rewrite add_psm_ok. eexists; reflexivity. Qed.
  (* the forces of block k only overwrite entries below k * D *)
  Lemma particle_blocks_total f main n st : collision (scaled_rates rates fraction) f = Ok main ->
    exists st', particle_blocks f (seq 0 n) st = Ok st' /\ skipn (n * D) (snd st') = skipn (n * D) (snd st).
  Proof.
    intros Hc. induction n as [|n IH]; [exists st; auto|]. destruct IH as (st' & H & Hs). rewrite seq_S, particle_blocks_app, H. cbn [rbind plus].
    cbn [PsmModel.particle_blocks]. unfold when.
    assert (Hsk : skipn (Datatypes.S n * D) (snd st') = skipn (Datatypes.S n * D) (snd st)).
    { replace (Datatypes.S n * D)%nat with (n * D + D)%nat by (cbn; lia). rewrite <- !skipn_skipn'. now rewrite Hs. }
    destruct (ltb 0 (individual n)).
    - unfold psm_block. destruct (psm_update_total (n + 1) f main Hc) as ([g F] & E). rewrite E. cbn [rbind fst snd]. eexists. split; [reflexivity|].
      cbn [snd]. unfold write_forces. rewrite (dimD_D D S HS).
      apply psm_inv in E as (_ & _ & _ & ->).
      set (X := concat _). assert (LX : length X = (Datatypes.S n * D)%nat).
      { unfold X. rewrite (length_concat_const _ D). 2:{ intros y Hy. apply in_map_iff in Hy as (q & <- & _). rewrite particle_force_length. apply (dimD_D D S HS). }
        rewrite map_length, seq_length. lia. }
      rewrite skipn_app, LX, Nat.sub_diag. rewrite skipn_all2 by lia. cbn [skipn app]. replace (n + 1)%nat with (Datatypes.S n) by lia. exact Hsk.
    - cbn [rbind]. exists st'. auto.
  Qed.

  (* two population fields: the last overlapping particle decides; all other particles contribute nothing *)
  Lemma psm_kernel_ok f st main k m : collision (scaled_rates rates fraction) f = Ok main -> length main = Q ->
    fraction > 0 -> individual k > 0 -> (forall p, (k < p < k + 1 + m)%nat -> individual p = 0) ->
    exists g F, psm_update (k + 1 + m) f = Ok (g, F) /\
      psm_kernel (k + 1 + m) f st = Ok (g, firstn ((k + 1) * D) F ++ skipn ((k + 1) * D) (snd st)).
  Proof.
    intros Hc Hl Hfr Hk Hz. destruct (psm_update_total (k + 1) f main Hc) as ([g F] & E).
    assert (E2 : psm_update (k + 1 + m) f = Ok (g, F ++ rzero (m * D))).
    { apply psm_more; [exact E|intros p Hp; apply Hz; lia|]. intros main' Hm'. congruence. }
    exists g, (F ++ rzero (m * D)). split; [exact E2|].
    assert (LF : length F = ((k + 1) * D)%nat).
    { apply psm_inv in E as (_ & _ & _ & ->). rewrite (length_concat_const _ D).
      2:{ intros y Hy. apply in_map_iff in Hy as (q & <- & _). rewrite particle_force_length. apply (dimD_D D S HS). }
      rewrite map_length, seq_length. lia. }
    rewrite firstn_app, LF, Nat.sub_diag, firstn_all2 by lia. cbn [firstn]. rewrite app_nil_r.
    unfold PsmModel.psm_kernel. unfold when at 1. rewrite leb_false by lra. cbn [rbind].
    rewrite <- Nat.add_assoc, seq_app, particle_blocks_app.
    destruct (particle_blocks_total f main k st Hc) as (st' & E1 & Hs). rewrite E1. cbn [rbind plus seq].
    replace (seq k (Datatypes.S m)) with (k :: seq (Datatypes.S k) m) by reflexivity. cbn [PsmModel.particle_blocks].
    unfold when at 1. rewrite ltb_true by lra. unfold psm_block. rewrite E. cbn [rbind fst snd].
    rewrite particle_blocks_none. 2:{ intros p Hp. apply in_seq in Hp. rewrite Hz by lia. lra. }
    f_equal. f_equal. unfold write_forces. rewrite (dimD_D D S HS). f_equal.
    replace ((k + 1) * D)%nat with (k * D + D)%nat by lia. rewrite <- !skipn_skipn'. now rewrite Hs.
  Qed.
  Lemma psm_kernel_fluid f st n g : fraction <= 0 -> (forall p, (p < n)%nat -> individual p <= 0) -> plain f = Ok g -> psm_kernel n f st = Ok (g, snd st).
  Proof.
    intros Hfr Hz Hp. unfold PsmModel.psm_kernel, when. rewrite leb_true by exact Hfr. unfold plain_block. rewrite Hp. cbn [rbind].
    apply particle_blocks_none. intros p Hin. apply in_seq in Hin. apply Hz. lia.
  Qed.
End Sym.

Section Solid.
  Context (D : nat) (S : stencil) (HS : symmetric_stencil D S).
  Context (collision : list R -> list R -> res (list R)) (rates : list R)
          (equilibrium : list R -> list R -> list R) (velocity : list R -> list R)
          (SC : Z) (omega : R) (individual : nat -> R) (object_velocity : nat -> list R).
  Context (HSC : SC = 1%Z \/ SC = 2%Z \/ SC = 3%Z).
  Lemma opposite_opp i k : opposite S i k -> (i < length S)%nat /\ opp S i = k.
  Proof.
    intros (d & Hi & Hk). assert (Li : (i < length S)%nat) by (apply nth_error_Some; congruence). split; [exact Li|].
    assert (Lk : (k < length S)%nat) by (apply nth_error_Some; congruence).
    apply (dir_inj D S HS); [apply (opp_lt D S HS); exact Li|exact Lk|]. rewrite (dir_opp D S HS) by exact Li.
    pose proof (dir_nth_error S i Li). pose proof (dir_nth_error S k Lk). congruence.
  Qed.
  Lemma solid_entry f g F i k : length f = length S -> collision (scaled_rates rates 1) f = Ok f -> individual 0%nat = 1 ->
    psm_update S collision rates equilibrium velocity SC omega 1 individual object_velocity 1 f = Ok (g, F) -> opposite S i k ->
    opp S i = k /\ nth i g 0 = nth i f 0 + sc_val S equilibrium velocity SC omega individual object_velocity f 0 i.
  Proof.
    intros Hf Hc H1 Hu Ho. destruct (opposite_opp i k Ho) as (Li & Hk). split; [exact Hk|].
    apply (psm_inv D) in Hu as (main & Hm & -> & _); [|assumption..]. rewrite Hc in Hm. injection Hm as <-.
    cbn [seq map fold_left]. rewrite nth_radd by (rewrite (sc_list_length S); exact Hf). f_equal. unfold sc_list. now rewrite nth_map_seq.
  Qed.
End Solid.

Lemma option2_srt D S equilibrium velocity w fraction individual object_velocity n f :
  symmetric_stencil D S -> length f = length S -> (forall u, length (equilibrium f u) = length S) ->
  (forall p, (p < n)%nat -> object_velocity p = velocity f) -> rsum (map individual (seq 0 n)) = fraction ->
  let srt := fun d h => Ok (relax d (equilibrium h (velocity h)) h) in
  let rates := repeat w (length S) in
  exists g F, psm_update S srt rates equilibrium velocity 2 w fraction individual object_velocity n f = Ok (g, F) /\ srt rates f = Ok g.
Proof.
  intros HS Hf He Hv Hs srt rates. set (eF := equilibrium f (velocity f)). assert (LF : length eF = length S) by apply He.
  assert (V2 : 2%Z = 1%Z \/ 2%Z = 2%Z \/ 2%Z = 3%Z) by tauto.
  unfold psm_update. unfold srt at 1. cbn [rbind]. rewrite (add_psm_ok D S HS) by exact V2. eexists _, _. split; [reflexivity|].
  unfold srt. f_equal. symmetry. fold eF.
  assert (Lr : length (relax (scaled_rates rates fraction) eF f) = length S).
  { unfold relax, scaled_rates, rates. rewrite radd_length, rmul_length, rsub_length, map_length, repeat_length. lia. }
  set (l := map _ (seq 0 n)).
  assert (Fl : Forall (fun y => length y = length S) l) by apply sc_lists_wf.
  assert (E : forall i, (i < length S)%nat -> nth i (fold_left radd l (relax (scaled_rates rates fraction) eF f)) 0 =
              nth i (relax (scaled_rates rates fraction) eF f) 0 + rsum (map (fun y => nth i y 0) l)).
  { intros i Hi. revert Lr Fl. generalize (relax (scaled_rates rates fraction) eF f). clear -Hi.
    induction l as [|y l IH]; intros x Lx Fl; cbn [fold_left map rsum fold_right]; [lra|]. inversion Fl; subst.
    rewrite IH by (try assumption; rewrite radd_length; lia). rewrite nth_radd by lia. unfold rsum. lra. }
  apply list_ext. { rewrite (fold_radd_length _ _ (length S)) by assumption. unfold relax, rates. rewrite radd_length, rmul_length, rsub_length, repeat_length. lia. }
  intros i Hi. rewrite (fold_radd_length _ _ (length S)) in Hi by assumption. rewrite E by exact Hi.
  unfold l. rewrite map_map. rewrite (rsum_ext _ (fun p => individual p * (- w * (nth i f 0 - nth i eF 0)))).
  2:{ intros p Hp. apply in_seq in Hp. unfold sc_list. rewrite nth_map_seq by exact Hi. unfold sc_val. cbn [Z.eqb Pos.eqb].
      rewrite Hv by lia. fold eF. lra. }
  rewrite rsum_scal_r, Hs. unfold relax.
  rewrite !nth_radd, !nth_rmul, !nth_rsub by (unfold scaled_rates, rates; rewrite ?radd_length, ?rmul_length, ?rsub_length, ?map_length, ?repeat_length; lia).
  unfold scaled_rates, rates. rewrite (nth_indep (map _ _) 0 ((fun w => w * (1 - fraction)) w)) by (rewrite map_length, repeat_length; exact Hi).
  rewrite (map_nth (fun w => w * (1 - fraction))). rewrite nth_repeat. rewrite (nth_indep (repeat w _) 0 w) by (rewrite repeat_length; exact Hi). rewrite nth_repeat. lra.
Qed.
