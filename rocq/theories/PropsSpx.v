(* C55: projection of the phase fractions onto the Gibbs simplex. *)
From Coq Require Import List Bool Arith ZArith Reals Lra Lia.
From Verif Require Import RealLib NphSpec NphProofs SpxModel SpxSpec SpxProofs SpxProofs2 SpxProofs3.
Import ListNotations.
Local Open Scope R_scope.

(* The loops terminate and leave non-negative fractions of sum one in every cell whose fractions (those smaller than the threshold
   counted as zero) have a positive sum, for any number of phases and cells. *)
Theorem C55_simplex : forall thr n cells, (forall c, In c cells -> 0 < total n (rounded thr c)) ->
  exists ys, simplex_projection thr n cells = Some ys /\ length ys = length cells /\ forall y, In y ys -> on_simplex n y.
Proof. intros thr n cells H. apply cells_simplex. exact H. Qed.
Print Assumptions C55_simplex.

(* A cell whose fractions are already valid is not changed, wherever it lies in the array. *)
Theorem C55_identity : forall thr n before c after, on_simplex n c -> resolved thr n c ->
  (forall d, In d (before ++ c :: after) -> 0 < total n (rounded thr d)) ->
  exists ys y, simplex_projection thr n (before ++ c :: after) = Some ys /\ nth_error ys (length before) = Some y /\
    forall a, (a < n)%nat -> y a = c a.
Proof.
  intros thr n before c after Hc Hr. unfold simplex_projection. generalize (fun _ : nat => false). intros m H. revert m.
  induction before as [|d before IH]; intros m.
  - destruct (project_identity thr n m c Hc Hr) as (y & m' & E & Hy).
    destruct (cells_simplex thr n after m') as (ys & E' & _); [intros d Hd; apply H; right; exact Hd|].
    exists (y :: ys), y. cbn [app project_cells]. rewrite E. cbn [obind fst snd]. rewrite E'. split; [reflexivity|]. split; [reflexivity|exact Hy].
  - destruct (project_simplex thr n m d) as (yd & m' & E & _); [apply H; left; reflexivity|].
    destruct (IH (fun e He => H e (or_intror He)) m') as (ys & y & E' & Hn & Hy).
    exists (yd :: ys), y. cbn [app project_cells]. rewrite E. cbn [obind fst snd]. rewrite E'. split; [reflexivity|]. split; [exact Hn|exact Hy].
Qed.
Print Assumptions C55_identity.

(* Fractions of sum one are moved to the nearest point of the simplex - as long as every phase that was zero or negative in an earlier
   cell (its bit in the mask is still set) is zero in this one; in particular in the first cell.  Missing: arbitrary later cells, see
   C55_later_cells_refuted. *)
Theorem C55_nearest_partial : forall thr n m c, 0 < thr -> total n c = 1 -> resolved thr n c ->
  (forall b, (b < n)%nat -> m b = true -> c b = 0) ->
  exists y m', project_cell thr n m c = Some (y, m') /\ nearest n c y.
Proof. intros thr n m c Ht Hs Hr Hm. exact (project_nearest thr n m c Hm Hr Ht Hs). Qed.
Print Assumptions C55_nearest_partial.

Theorem C55_first_cell_partial : forall thr n c rest, 0 < thr -> total n c = 1 -> resolved thr n c ->
  (forall d, In d rest -> 0 < total n (rounded thr d)) ->
  exists y ys, simplex_projection thr n (c :: rest) = Some (y :: ys) /\ nearest n c y.
Proof.
  intros thr n c rest Ht Hs Hr H.
  destruct (project_nearest thr n (fun _ => false) c) as (y & m' & E & Hy); try assumption; [discriminate|].
  destruct (cells_simplex thr n rest m' H) as (ys & E' & _). exists y, ys. unfold simplex_projection. cbn [project_cells]. rewrite E.
  cbn [obind fst snd]. rewrite E'. split; [reflexivity|exact Hy].
Qed.
Print Assumptions C55_first_cell_partial.

(* A cell in which every phase is zero has no projection: 0/0 in every phase. *)
Theorem C55_empty_cell : forall thr n m c, 0 < thr -> (forall b, (b < n)%nat -> c b = 0) -> project_cell thr n m c = None.
Proof.
  intros thr n m c Ht H. apply project_zero. intros b Hb. rewrite (H b Hb). unfold tiny.
  destruct (Rlt_dec (- thr) 0); [|lra]. destruct (Rlt_dec 0 thr); [reflexivity|lra].
Qed.
Print Assumptions C55_empty_cell.

(* ---------- the hypotheses are met; later cells are not projected correctly ---------- *)
Example C55_hypotheses_met : 0 < ex55_thr /\ total 3 ex55_c1 = 1 /\ total 3 ex55_c2 = 1 /\ resolved ex55_thr 3 ex55_c1 /\ resolved ex55_thr 3 ex55_c2 /\
  0 < total 3 (rounded ex55_thr ex55_c1) /\ 0 < total 3 (rounded ex55_thr ex55_c2).
Proof.
  assert (R1' : resolved ex55_thr 3 ex55_c1).
  { intros a Ha. right. destruct a as [|[|[|]]]; [| | |lia]; cbn; unfold ex55_thr, Rabs; destruct (Rcase_abs _); lra. }
  assert (R2' : resolved ex55_thr 3 ex55_c2).
  { intros a Ha. right. destruct a as [|[|[|]]]; [| | |lia]; cbn; unfold ex55_thr, Rabs; destruct (Rcase_abs _); lra. }
  assert (T1 : total 3 ex55_c1 = 1) by (cbn; lra). assert (T2 : total 3 ex55_c2 = 1) by (cbn; lra).
  split; [unfold ex55_thr; lra|]. split; [exact T1|]. split; [exact T2|]. split; [exact R1'|]. split; [exact R2'|].
  split; [rewrite (total_ext 3 _ ex55_c1), T1|rewrite (total_ext 3 _ ex55_c2), T2]; try lra; intros; apply (resolved_rounded _ 3); assumption.
Qed.

(* The mask is not cleared between the cells.  Phase 0 is negative in the first cell, so it is skipped when the negative phase 1 of the
   second cell is distributed: that cell becomes (12/21, 0, 9/21) instead of the nearest point (11/20, 0, 9/20), which is what the same
   cell becomes on its own. *)
Theorem C55_later_cells_refuted :
  (exists y, simplex_projection ex55_thr 3 [ex55_c2] = Some [y] /\ nearest 3 ex55_c2 y) /\
  (exists y1 y2, simplex_projection ex55_thr 3 [ex55_c1; ex55_c2] = Some [y1; y2] /\
     y2 0%nat = 12/21 /\ y2 1%nat = 0 /\ y2 2%nat = 9/21 /\ ~ nearest 3 ex55_c2 y2).
Proof.
  destruct C55_hypotheses_met as (Ht & T1 & T2 & R1' & R2' & P1 & P2). split.
  - destruct (C55_first_cell_partial ex55_thr 3 ex55_c2 [] Ht T2 R2') as (y & ys & E & Hn); [contradiction|].
    exists y. split; [|exact Hn]. destruct (C55_simplex ex55_thr 3 [ex55_c2]) as (zs & E' & L & _); [intros c [<-|[]]; exact P2|].
    rewrite E in E'. injection E' as <-. destruct ys; [exact E|discriminate].
  - destruct ex55_first as (y1 & m & E1 & Hm). destruct (ex55_second m Hm) as (y2 & m' & E2 & V0 & V1 & V2).
    exists y1, y2. unfold simplex_projection. cbn [project_cells]. rewrite E1. cbn [obind fst snd]. rewrite E2. cbn [obind fst snd].
    split; [reflexivity|]. split; [exact V0|]. split; [exact V1|]. split; [exact V2|]. intros [_ H].
    pose proof (H (vec3 (11/20) 0 (9/20))) as K. cbv [dist2 total] in K. cbn in K. rewrite V0, V1, V2 in K.
    assert (on_simplex 3 (vec3 (11/20) 0 (9/20))) as Hs; [|specialize (K Hs); lra].
    split; [intros a Ha; destruct a as [|[|[|]]]; cbn; try lra; lia|cbn; lra].
Qed.
Print Assumptions C55_later_cells_refuted.
