(* Model of src/lbmpy/flow_statistics.py (welford_assignments) as executed by the generated kernel in one
   cell, and of the entropic relaxation rate of src/lbmpy/methods/momentbased/entropic.py. *)
From Coq Require Import List Arith Reals.
From Verif Require Import StencilModel RealLib.
Import ListNotations.
Local Open Scope R_scope.

(* assignment to one component of a field (or to one of the symbols delta_i) *)
Definition upd (m : nat -> R) (i : nat) (v : R) : nat -> R := fun k => if Nat.eqb k i then v else m k.

(* the cell contents: mean, sum of squares, sum of cubes (flat component index) *)
Record wstate := { w_mean : nat -> R; w_sq : nat -> R; w_cb : nat -> R }.

(* flow_statistics.py:86-90: per component, delta first, then the mean in place *)
Definition w_loop1 (dim : nat) (counter : R) (x mean : nat -> R) : (nat -> R) * (nat -> R) :=
  fold_left (fun dm i => let d := x i - snd dm i in (upd (fst dm) i d, upd (snd dm) i (snd dm i + d / counter)))
            (seq 0 dim) (fun _ => 0, mean).
(* flow_statistics.py:93-96: with the updated mean *)
Definition w_loop2 (dim : nat) (x mean : nat -> R) : nat -> R :=
  fold_left (fun d i => upd d i (x i - mean i)) (seq 0 dim) (fun _ => 0).
(* flow_statistics.py:97-102 *)
Definition w_loop3 (dim : nat) (delta delta2 sq : nat -> R) : nat -> R :=
  fold_left (fun m i => fold_left (fun m j => let idx := (i * dim + j)%nat in upd m idx (m idx + delta i * delta2 j))
                                  (seq 0 dim) m) (seq 0 dim) sq.
(* flow_statistics.py:104-116: with the updated sum of squares *)
Definition w_loop4 (dim : nat) (counter : R) (delta delta2 sq cb : nat -> R) : nat -> R :=
  fold_left (fun m i => fold_left (fun m j => fold_left (fun m k =>
      let idx := ((i * dim + j) * dim + k)%nat in
      upd m idx (m idx - delta k / counter * sq (i * dim + j)%nat
                       - delta j / counter * sq (k * dim + i)%nat
                       - delta i / counter * sq (j * dim + k)%nat
                       + delta2 i * (2 * delta j - delta2 j) * delta k))
    (seq 0 dim) m) (seq 0 dim) m) (seq 0 dim) cb.

(* flow_statistics.py:31-118.  [sq], [cb]: number of components of the optional fields; Err for the
   asserts in lines 61, 74, 80.  [counter] is the kernel argument (>= 1, the callers count samples). *)
Definition welford_layout (n : option nat) (expected : nat) : res unit :=
  match n with Some n => if Nat.eqb n expected then Ok tt else Err AssertionError | None => Ok tt end.
Definition welford_step (dim : nat) (sq cb : option nat) (counter : R) (x : nat -> R) (st : wstate) : res wstate :=
  rbind (welford_layout sq (dim ^ 2)) (fun _ =>
  rbind (welford_layout cb (dim ^ 3)) (fun _ =>
  match cb, sq with
  | Some _, None => Err AssertionError
  | _, _ =>
    let dm := w_loop1 dim counter x (w_mean st) in
    let delta := fst dm in let mean := snd dm in
    match sq with
    | None => Ok {| w_mean := mean; w_sq := w_sq st; w_cb := w_cb st |}
    | Some _ =>
      let delta2 := w_loop2 dim x mean in
      let sq' := w_loop3 dim delta delta2 (w_sq st) in
      match cb with
      | None => Ok {| w_mean := mean; w_sq := sq'; w_cb := w_cb st |}
      | Some _ => Ok {| w_mean := mean; w_sq := sq'; w_cb := w_loop4 dim counter delta delta2 sq' (w_cb st) |}
      end
    end
  end)).

(* the kernel called once per sample, counter = 1, 2, 3, ... *)
Fixpoint welford_run (dim : nat) (sq cb : option nat) (k : nat) (xs : list (nat -> R)) (st : wstate) : res wstate :=
  match xs with
  | [] => Ok st
  | x :: xs => rbind (welford_step dim sq cb (INR (k + 1)) x st) (fun st' => welford_run dim sq cb (k + 1) xs st')
  end.

(* ---- entropic.py ---- *)

(* entropic.py:213-216; zip over the populations *)
Definition entropy_maximizing_omega (omega_s : R) (feq ds dh : list R) : option R :=
  let ds_dh := rsum (map (fun t => fst (fst t) * snd (fst t) / snd t) (combine (combine ds dh) feq)) in
  let dh_dh := rsum (map (fun t => fst t * fst t / snd t) (combine dh feq)) in
  obind (rdiv ((omega_s - 1) * ds_dh) dh_dh) (fun q => Some (1 - q)).
(* entropic.py:199-210 *)
Definition discrete_approx_entropy (func reference : list R) : R :=
  - rsum (map (fun fr => fst fr * (fst fr / snd fr - 1)) (combine func reference)).
(* entropic.py:55-57 *)
Definition entropic_feq (f ds dh : list R) : list R :=
  map (fun t => fst (fst t) + snd (fst t) + snd t) (combine (combine f ds) dh).
(* entropic.py:66-70: the new update equations for given rates *)
Definition entropic_update (const ds dh : list R) (omega_s omega_h : R) : list R :=
  map (fun t => fst (fst t) + omega_s * snd (fst t) + omega_h * snd t) (combine (combine const ds) dh).
(* entropic.py:26-71: [zero_centered], the constant parts, the factors of omega_s and of omega_h *)
Definition add_entropy_condition (zero_centered : bool) (f const ds dh : list R) (omega_s : R)
  : res (option (R * list R)) :=
  if zero_centered then Err NotImplementedError
  else Ok (obind (entropy_maximizing_omega omega_s (entropic_feq f ds dh) ds dh) (fun w =>
           Some (w, entropic_update const ds dh omega_s w))).

(* entropic.py:113-165 for update rules linear in the free rate (all moment-based methods):
   f'_i(w) = off_i + w * fac_i.  Coefficients of dS/dw: *)
Definition newton_coeff0 (off fac feq : list R) : R :=
  - rsum (map (fun t => snd (fst t) * (2 * fst (fst t) / snd t - 1)) (combine (combine off fac) feq)).
Definition newton_coeff1 (fac feq : list R) : R :=
  - rsum (map (fun t => 2 * (fst t * fst t) / snd t) (combine fac feq)).
(* entropic.py:148-157: one Newton step *)
Definition newton_step (off fac feq : list R) (w : R) : option R :=
  obind (rdiv (newton_coeff0 off fac feq + newton_coeff1 fac feq * w) (newton_coeff1 fac feq)) (fun q => Some (w - q)).
(* entropic.py:145-157 *)
Fixpoint newton_iterations (n : nat) (off fac feq : list R) (w : R) : option R :=
  match n with O => Some w | S n => obind (newton_step off fac feq w) (newton_iterations n off fac feq) end.
