(* Proofs about the iterative initialisation. *)
From Coq Require Import List ZArith Bool Arith Reals Lra Lia.
From Verif Require Import StencilModel RealLib LinLib IniModel IniSpec.
Import ListNotations.
Local Open Scope R_scope.

Lemma applied_shift {A} (f : A -> A) k x : applied f k (f x) = f (applied f k x).
Proof. induction k as [|k IH]; cbn; congruence. Qed.
Lemma applied_add {A} (f : A -> A) j k x : applied f j (applied f k x) = applied f (j + k) x.
Proof. induction j as [|j IH]; cbn; congruence. Qed.
Lemma sweeps_applied {P V} (sweep : R -> V -> P -> P) rate v : forall k p, sweeps sweep k rate v p = applied (sweep rate v) k p.
Proof. induction k as [|k IH]; intros p; [reflexivity|]. cbn [sweeps applied]. now rewrite IH, applied_shift. Qed.
Lemma stops_spec th r : (stops th r = true -> ~ undecided th r) /\ (stops th r = false -> undecided th r).
Proof.
  unfold stops, undecided. destruct r as [x|]; [destruct (Rlt_dec x th)|]; split; try discriminate.
  - intros _ (y & E & H). injection E as ->. lra.
  - intros _. exists x. split; [reflexivity|lra].
  - intros _ (y & E & H). discriminate.
Qed.

Section Driver.
  Context {P V : Type} (sweep : R -> V -> P -> P) (getter : P -> V) (residuum : V -> V -> option R).
  Definition after (st : lb_state P V) (rate : R) (k : nat) : lb_state P V :=
    let p := applied (sweep rate (backup st)) k (pdfs st) in
    {| pdfs := p; velocity := getter p; backup := backup st; kernel_rate := kernel_rate st |}.
  Definition checks (st : lb_state P V) (rate : R) (c k : nat) : option R :=
    residuum (backup st) (getter (applied (sweep rate (backup st)) (k * c) (pdfs st))).

  Lemma outer_spec c rate th : forall n st steps last st' steps' last',
    outer sweep getter residuum n c rate th st steps last = (st', steps', last') ->
    (exists k, first_decided th (checks st rate c) n k /\ st' = after st rate (k * c) /\ steps' = (steps + k * c)%nat /\ last' = Some (checks st rate c k)) \/
    ((forall k, (1 <= k <= n)%nat -> undecided th (checks st rate c k)) /\
     ((n = 0%nat /\ st' = st /\ steps' = steps /\ last' = last) \/
      ((0 < n)%nat /\ st' = after st rate (n * c) /\ steps' = (steps + n * c)%nat /\ last' = Some (checks st rate c n)))).
  Proof.
    induction n as [|n IH]; intros st steps last st' steps' last' E.
    - cbn in E. injection E as <- <- <-. right. split; [intros k Hk; lia|]. left. auto.
    - cbn [outer] in E. rewrite !sweeps_applied in E.
      assert (E1 : residuum (backup st) (getter (applied (sweep rate (backup st)) c (pdfs st))) = checks st rate c 1) by (unfold checks; now rewrite Nat.mul_1_l).
      rewrite E1 in E. destruct (stops_spec th (checks st rate c 1)) as [S1 S2]. destruct (stops th (checks st rate c 1)) eqn:Es.
      + injection E as <- <- <-. left. exists 1%nat. split; [split; [lia|]; split; [intros j Hj; lia|now apply S1]|].
        rewrite Nat.mul_1_l. auto.
      + set (st1 := {| pdfs := _ |}) in E.
        assert (Ck : forall k, checks st1 rate c k = checks st rate c (Datatypes.S k)).
        { intros k. unfold checks, st1. cbn [backup pdfs]. rewrite applied_add. replace (k * c + c)%nat with (Datatypes.S k * c)%nat by lia. reflexivity. }
        assert (Ca : forall k, after st1 rate (k * c) = after st rate (Datatypes.S k * c)).
        { intros k. unfold after, st1. cbn [backup pdfs kernel_rate]. rewrite applied_add. replace (k * c + c)%nat with (Datatypes.S k * c)%nat by lia. reflexivity. }
        assert (C1 : checks st1 rate c 0 = checks st rate c 1) by apply Ck. specialize (S2 eq_refl).
        apply IH in E as [(k & (K1 & K2 & K3) & -> & -> & ->)|(K & [(-> & -> & -> & ->)|(N & -> & -> & ->)])].
        * left. exists (Datatypes.S k). rewrite Ca, Ck. rewrite Ck in K3. split; [|split; [reflexivity|split; [lia|reflexivity]]].
          split; [lia|]. split; [|exact K3]. intros j Hj. destruct j as [|[|j]]; [lia|exact S2|]. rewrite <- Ck. apply K2. lia.
        * right. split; [intros k Hk; replace k with 1%nat by lia; exact S2|]. right. split; [lia|]. rewrite Nat.mul_1_l. split; [reflexivity|]. auto.
        * right. split; [intros [|[|k]] Hk; [lia|exact S2|rewrite <- Ck; apply K; lia]|]. right. rewrite Ca, Ck. split; [lia|]. split; [reflexivity|]. split; [lia|reflexivity].
  Qed.
End Driver.
