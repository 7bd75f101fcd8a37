(* The compressible lid-driven cavity; channels and pipes; Neumann angles. *)
From Coq Require Import String List ZArith Bool Arith Reals Lra Lia QArith Qreals.
From Verif Require Import StencilModel StencilSpec StencilProofs StencilProofs2 AccessModel AccessProofs GridModel GridProofs StreamModel StreamSpec StreamProofs StreamProofs2 RealLib LinLib EqModel EqProofs
  CollModel CollSpec BoundModel BoundSpec BoundProofs BoundProofs2 BoundProofs4 BoundProofs8 EnergyProofs ChanModel ScnModel ScnSpec ScnProofs.
Import ListNotations.
Local Open Scope R_scope.

Lemma rsum_at {A} (eqd : forall x y : A, {x = y} + {x <> y}) (g : A -> R) (P : A -> bool) x0 l : NoDup l -> In x0 l -> (forall x, In x l -> P x = true <-> x = x0) ->
  rsum (map (fun x => if P x then g x else 0) l) = g x0.
Proof.
  induction l as [|a l IH]; intros ND Hin HP; [destruct Hin|]. cbn [map]. rewrite rsum_cons. inversion ND as [|? ? Na ND']; subst. destruct (eqd a x0) as [->|N].
  - rewrite (proj2 (HP x0 (or_introl eq_refl)) eq_refl). rewrite (rsum_ext _ (fun _ => 0)), rsum_zero; [lra|]. intros x Hx. destruct (P x) eqn:E; [|reflexivity]. apply HP in E; [|right; exact Hx]. now subst x.
  - destruct (P a) eqn:E; [apply HP in E; [contradiction|left; reflexivity]|]. rewrite IH; [lra|exact ND'| |intros x Hx; apply HP; right; exact Hx]. destruct Hin; [contradiction|assumption].
Qed.

Section Compressible.
  Context (n0 n1 : Z) (H0 : (0 < n0)%Z) (H1 : (0 < n1)%Z) (U : R) (zc : bool) (force : option (force_model * list R)) (ws : list Q).
  Notation shape := [n0; n1].
  Notation S := D2Q9_walberla.
  Notation L := (space (length [n0; n1])).
  Notation fluid := (inner_cell [n0; n1]).
  Hypothesis HW : get_weights S = Ok ws.
  Context (cells : list (cell L)) (links : list (link L)) (HG : lists_geometry S fluid cells links).
  Context (B : cell L -> nat -> brule R) (f : cell L -> list R) (Hf : forall x, length (f x) = length S).
  Hypothesis HB : forall x i, is_link S fluid (x, i) -> wall_rule S (map Q2R ws) zc true force (flag (cavity_walls shape U) (proj1_sig (shift x (dir S i) : cell L))) i = Ok (B x i).

  Lemma HS9 : symmetric_stencil 2 S.
  Proof. apply (proj1 (predefined_wf "D2Q9" "walberla" S eq_refl)). Qed.
  Lemma near9 b c : In c S -> (-1 <= nth b c 0 <= 1)%Z.
  Proof. apply (ChanProofs5.predefined_near "D2Q9" "walberla" S ws); [reflexivity|exact HW]. Qed.
  Lemma lid9 (x : cell L) i : fluid x = true -> (i < 9)%nat ->
    lid_at shape U (shift x (dir S i)) = ((nth 1 (proj1_sig x) 0 + nth 1 (dir S i) 0 =? n1 + 1) && (1 <=? nth 0 (proj1_sig x) 0 + nth 0 (dir S i) 0) && (nth 0 (proj1_sig x) 0 + nth 0 (dir S i) 0 <=? n0))%Z%bool.
  Proof.
    intros Fx Hi. assert (Hl : length (dir S i) = 2%nat) by (apply HS9, nth_In; exact Hi). pose proof (space_length (length [n0; n1]) x) as Hx.
    pose proof (space_shift (length [n0; n1]) x (dir S i) Hl) as E.
    assert (Ha : in_array shape (vadd (proj1_sig x) (dir S i))) by (rewrite <- E; exact (neighbour_in_array S shape HS9 near9 (or_introl eq_refl) x i Fx Hi)).
    unfold lid_at. match goal with |- context [flag _ ?t] => replace t with (vadd (proj1_sig x) (dir S i)) by (symmetry; exact E) end.
    rewrite (cavity_flags shape U) by first [assumption | left; reflexivity]. 
    destruct Ha as [_ Ha]. pose proof (Ha 0%nat ltac:(cbn; lia)) as A0. pose proof (Ha 1%nat ltac:(cbn; lia)) as A1. clear E Ha.
    destruct (proj1_sig x) as [|a [|b [|? ?]]]; try discriminate Hx. destruct (dir S i) as [|c [|d [|? ?]]]; try discriminate Hl. cbn -[Z.add Z.leb Z.eqb] in A0, A1 |- *.
    unfold outside, inner. cbn -[Z.add Z.leb Z.eqb]. zcases.
  Qed.
  Definition corner (a : Z) : cell L := to_space (length [n0; n1]) [a; n1] eq_refl.

  Theorem cavity_drift : total_mass cells (arriving S fluid B f) = total_mass cells f + U / 6 * (pdf_density zc (f (corner n0)) - pdf_density zc (f (corner 1))).
  Proof.
    assert (HSL' : symmetric_stencil (ldim L) S) by exact HS9.
    rewrite (mass_balance L S fluid cells links B f HSL' HG) by (intros; apply Hf). f_equal.
    set (h := fun l : link L => if lid_at shape U (shift (fst l) (dir S (snd l))) then - 6 * nth (snd l) (map Q2R ws) 0 * pdf_density zc (f (fst l)) * (U * IZR (nth 0 (dir S (snd l)) 0%Z)) else 0).
    rewrite (rsum_ext _ h). 2:{ intros [x i] Hl. apply HG in Hl. cbn [fst snd]. apply (wall_rule_value S ws shape U zc force HS9 near9 (or_introl eq_refl) H1 true x i (B x i) f Hl (Hf x) (HB x i Hl)). }
    rewrite (links_by_cell L S fluid cells links _ HG).
    rewrite (rsum_ext _ (fun x : cell L => (if (Z.eqb (nth 0 (proj1_sig x) 0%Z) n0 && Z.eqb (nth 1 (proj1_sig x) 0%Z) n1)%bool then U / 6 * pdf_density zc (f x) else 0)
                                 + (if (Z.eqb (nth 0 (proj1_sig x) 0%Z) 1 && Z.eqb (nth 1 (proj1_sig x) 0%Z) n1)%bool then - (U / 6 * pdf_density zc (f x)) else 0))).
    2:{ intros x Hx. assert (Fx : fluid x = true) by (now apply HG). rewrite rsum_filter. unfold h. cbn [fst snd].
        rewrite (rsum_ext _ (fun i => if ((nth 1 (proj1_sig x) 0 + nth 1 (dir S i) 0 =? n1 + 1) && (1 <=? nth 0 (proj1_sig x) 0 + nth 0 (dir S i) 0) && (nth 0 (proj1_sig x) 0 + nth 0 (dir S i) 0 <=? n0))%Z%bool
                               then - 6 * nth i (map Q2R ws) 0 * pdf_density zc (f x) * (U * IZR (nth 0 (dir S i) 0%Z)) else 0)).
        2:{ intros i Hi. apply in_seq in Hi. rewrite (lid9 x i Fx) by (cbn in Hi; lia). destruct (fluid (shift x (dir S i))) eqn:Ef; [|reflexivity]. cbn [negb].
            assert (Hl : length (dir S i) = 2%nat) by (apply HS9, nth_In; cbn in *; lia). unfold inner_cell in Ef. rewrite inner_spec in Ef by (apply space_length). pose proof (Ef 1%nat ltac:(cbn; lia)) as E1.
            rewrite space_shift in E1 by exact Hl. rewrite nth_vadd_space in E1 by (rewrite (space_length (length [n0; n1]) x), Hl; reflexivity). cbn [nth] in E1. destruct (Z.eqb_spec (nth 1 (proj1_sig x) 0 + nth 1 (dir S i) 0)%Z (n1 + 1)%Z); [exfalso; cbn [nth] in *; lia|reflexivity]. }
        unfold inner_cell in Fx. rewrite inner_spec in Fx by (apply space_length). pose proof (Fx 0%nat ltac:(cbn; lia)) as F0. pose proof (Fx 1%nat ltac:(cbn; lia)) as F1.
        assert (W : ws = [4 # 9; 1 # 9; 1 # 9; 1 # 9; 1 # 9; 1 # 36; 1 # 36; 1 # 36; 1 # 36]%Q) by (vm_compute in HW; now injection HW). rewrite W. clear HB h Hx.
        set (r := pdf_density zc (f x)). pose proof (space_length (length [n0; n1]) x) as Lx. destruct (proj1_sig x) as [|a [|b [|? ?]]]; try discriminate Lx. cbn [nth] in *.
        change (seq 0 (length S)) with [0; 1; 2; 3; 4; 5; 6; 7; 8]%nat. unfold rsum. cbn -[Z.add Z.leb Z.eqb Q2R]. unfold Q2R. cbn -[Z.add Z.leb Z.eqb].
        repeat match goal with
          | |- context [Z.eqb ?a ?b] => destruct (Z.eqb_spec a b)
          | |- context [Z.leb ?a ?b] => destruct (Z.leb_spec a b)
          end; cbn [andb]; try (exfalso; lia); try lra. }
    rewrite rsum_plus. assert (Hcor : forall a, (1 <= a <= n0)%Z -> In (corner a) cells).
    { intros a Ha. apply HG. unfold inner_cell. rewrite inner_spec by reflexivity. intros [|[|k]] Hk; cbn in *; lia. }
    assert (Hat : forall a, (1 <= a <= n0)%Z -> forall g, rsum (map (fun x : cell L => if (Z.eqb (nth 0 (proj1_sig x) 0%Z) a && Z.eqb (nth 1 (proj1_sig x) 0%Z) n1)%bool then g x else 0) cells) = g (corner a)).
    { intros a Ha g. apply (rsum_at (gcell_eq_dec _) g (fun x : cell L => (Z.eqb (nth 0 (proj1_sig x) 0%Z) a && Z.eqb (nth 1 (proj1_sig x) 0%Z) n1)%bool)); [apply HG|now apply Hcor|]. intros x _. rewrite andb_true_iff, !Z.eqb_eq. split.
      - intros [E0 E1]. apply gcell_eq. pose proof (space_length (length [n0; n1]) x) as Lx. destruct (proj1_sig x) as [|a' [|b' [|? ?]]]; try discriminate Lx. cbn in *. now subst.
      - intros ->. split; reflexivity. }
    rewrite (Hat n0 ltac:(lia) (fun x => U / 6 * pdf_density zc (f x))), (Hat 1%Z ltac:(lia) (fun x => - (U / 6 * pdf_density zc (f x)))). ring.
  Qed.
End Compressible.
