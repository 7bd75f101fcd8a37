(* Model: the coupled phase-field simulations, one time step of
     phasefield/phasefieldstep_direct.py (PhaseFieldStepDirect), phasefield/phasefieldstep.py (PhaseFieldStep) and phasefield/nphase_nestler.py.
   Periodic domain: the ghost layers are synchronised before each kernel that reads neighbours, so a kernel reads the neighbour on the lattice.
   Simplifications: the chemical potential kernel, the hydrodynamic collision and velocity and the simplex projection are parameters (they are modelled in
   PtModel, CollModel and SpxModel); Neumann flags and boundaries are not modelled.  Real arithmetic. *)
From Coq Require Import List ZArith Bool Arith QArith Reals Qreals.
From Verif Require Import StencilModel RealLib LinLib EqModel CollModel StreamModel ChModel.
Import ListNotations.
Local Open Scope R_scope.

(* the arrays of one cell: phasefieldstep_direct.py:47-70 *)
Record ph_cell := { c_phi : list R; c_mu : list R; c_vel : list R; c_force : list R; c_ch : list (list R); c_hyd : list R }.

(* a number for all phases or a list (phasefieldstep_direct.py:29-33); a list that is too short raises IndexError *)
Inductive per_phase := One (r : R) | Each (l : list R).
Definition of_phase (p : per_phase) (i : nat) : res R :=
  match p with One r => Ok r | Each l => match nth_error l i with Some r => Ok r | None => Err IndexError end end.
Definition entry {A} (l : list A) (i : nat) : res A := match nth_error l i with Some r => Ok r | None => Err IndexError end.

(* cahn_hilliard_lbm.py with density_input (nphase_nestler.py:118-126, creationfunctions.py:660-690): the equilibrium takes the given density *)
Definition ch_collision_given (S : stencil) (M Minv : mat) (omega gamma mu rho : R) (v f : list R) : res (list R) :=
  rbind (ch_equilibrium S mu gamma rho v) (fun feq => Ok (radd f (mv Minv (rmul (repeat omega (sizeQ S)) (rsub (mv M feq) (mv M f)))))).

Section Coupled.
  Context {L : lattice}.
  Variables (S : stencil) (M Minv : mat) (K : nat).   (* K order parameters *)
  (* streaming by pulling: population q comes from the neighbour against direction q *)
  Definition pulled (f : cell L -> res (list R)) (x : cell L) : res (list R) :=
    mapM (fun q => rbind (f (shift x (vneg (nth q S [])))) (fun g => entry g q)) (seq 0 (sizeQ S)).

  (* chemical potentials from the order parameters; collision and velocity of the hydrodynamic method, first argument the force of the cell *)
  Variables (mu_kernel : (cell L -> list R) -> cell L -> list R) (hydro : list R -> list R -> res (list R)) (velocity : list R -> list R -> list R).

  (* analytical.py:243-248 discretised with a first-derivative stencil: -sum_i phi_i d_a mu_i (phasefieldstep_direct.py:78-82, nphase_nestler.py:109-113);
     [fd a]: offsets and weights of the derivative along axis a *)
  Definition derivative (fd : nat -> list (vec * R)) (a : nat) (g : cell L -> R) (x : cell L) : R := rsum (map (fun ow => snd ow * g (shift x (fst ow))) (fd a)).
  Definition force_mu (fd : nat -> list (vec * R)) (phi mu : cell L -> list R) (x : cell L) : list R :=
    map (fun a => rsum (map (fun i => - nth i (phi x) 0 * derivative fd a (fun y => nth i (mu y) 0) x) (seq 0 K))) (seq 0 (dimD S)).
  (* kerneleqs.py:70-82, analytical.py:369-382: the divergence of the pressure tensor with negative sign, plus the extra force of phasefieldstep.py:112-117, a constant times
     an order parameter.  [tensor phi]: the pressure tensor kernel *)
  Definition force_pressure (fd : nat -> list (vec * R)) (tensor : (cell L -> list R) -> cell L -> nat -> nat -> R) (extra : list (nat * list R)) (phi : cell L -> list R) (x : cell L) : list R :=
    map (fun b => - rsum (map (fun a => derivative fd a (fun y => tensor phi y a b) x) (seq 0 (dimD S)))
                  + rsum (map (fun e => nth b (snd e) 0 * nth (fst e) (phi x) 0) extra)) (seq 0 (dimD S)).

  (* phasefieldstep_direct.py:162-177.  Hydrodynamics: stream and collide in one kernel, its velocity output (lines 101-103) comes from the streamed populations; then one
     such kernel per order parameter, its density output goes to the order parameter (lines 84-96) *)
  Definition direct_phases (omegas gammas : per_phase) (mu vel : list R) (st : cell L -> ph_cell) (x : cell L) : res (list (R * list R)) :=
    mapM (fun i => rbind (pulled (fun y => entry (c_ch (st y)) i) x) (fun f => rbind (of_phase omegas i) (fun om => rbind (of_phase gammas i) (fun ga => rbind (entry mu i) (fun m =>
      rbind (ch_collision S M Minv om ga m vel f) (fun f' => Ok (pdf_density false f, f'))))))) (seq 0 K).
  Definition direct_step (fd : nat -> list (vec * R)) (omegas gammas : per_phase) (st : cell L -> ph_cell) (x : cell L) : res ph_cell :=
    let phi := fun y => c_phi (st y) in
    let mu := mu_kernel phi in
    let F := force_mu fd phi mu x in
    rbind (pulled (fun y => Ok (c_hyd (st y))) x) (fun h => rbind (hydro F h) (fun h' => let u := velocity F h in
    rbind (direct_phases omegas gammas (mu x) u st x) (fun l =>
    Ok {| c_phi := map fst l; c_mu := mu x; c_vel := u; c_force := F; c_ch := map snd l; c_hyd := h' |}))).

  (* phasefieldstep.py:242-256.  Hydrodynamics in the order collide, stream (lines 135-143, lbstep.py:272-276), velocity from the streamed populations; phases as above *)
  Definition tensor_step (fd : nat -> list (vec * R)) (tensor : (cell L -> list R) -> cell L -> nat -> nat -> R) (extra : list (nat * list R)) (omegas gammas : per_phase) (st : cell L -> ph_cell) (x : cell L) : res ph_cell :=
    let phi := fun y => c_phi (st y) in
    let mu := mu_kernel phi in
    let F := force_pressure fd tensor extra phi in
    rbind (pulled (fun y => hydro (F y) (c_hyd (st y))) x) (fun h => let u := velocity (F x) h in
    rbind (direct_phases omegas gammas (mu x) u st x) (fun l =>
    Ok {| c_phi := map fst l; c_mu := mu x; c_vel := u; c_force := F x; c_ch := map snd l; c_hyd := h |})).

  (* nphase_nestler.py:210-231.  Everything in the order collide, stream; the velocity comes from the streamed populations without the force (lines 170-188: the method of these kernels is not the one with the force); the phases
     collide with the given order parameter as density and rates 1 *)
  Definition nestler_hydro (fd : nat -> list (vec * R)) (st : cell L -> ph_cell) (x : cell L) : res (list R) :=
    let phi := fun y => c_phi (st y) in pulled (fun y => hydro (force_mu fd phi (mu_kernel phi) y) (c_hyd (st y))) x.
  Definition nestler_collided (fd : nat -> list (vec * R)) (st : cell L -> ph_cell) (i : nat) (y : cell L) : res (list R) :=
    rbind (nestler_hydro fd st y) (fun h => rbind (entry (c_ch (st y)) i) (fun f => rbind (entry (c_phi (st y)) i) (fun rho => rbind (entry (mu_kernel (fun y => c_phi (st y)) y) i) (fun m =>
      ch_collision_given S M Minv 1 1 m rho (velocity (repeat 0 (dimD S)) h) f)))).
  Definition nestler_step (fd : nat -> list (vec * R)) (st : cell L -> ph_cell) (x : cell L) : res ph_cell :=
    let phi := fun y => c_phi (st y) in
    rbind (nestler_hydro fd st x) (fun h =>
    rbind (mapM (fun i => pulled (nestler_collided fd st i) x) (seq 0 K)) (fun chs =>
    Ok {| c_phi := map (pdf_density false) chs; c_mu := mu_kernel phi x; c_vel := velocity (repeat 0 (dimD S)) h; c_force := force_mu fd phi (mu_kernel phi) x; c_ch := chs; c_hyd := h |})).

  (* nphase_nestler.py:232-233: the order parameters are replaced, [project] acts on the whole array *)
  Definition projected (project : (cell L -> list R) -> cell L -> list R) (st : cell L -> ph_cell) (x : cell L) : ph_cell :=
    {| c_phi := project (fun y => c_phi (st y)) x; c_mu := c_mu (st x); c_vel := c_vel (st x); c_force := c_force (st x); c_ch := c_ch (st x); c_hyd := c_hyd (st x) |}.
  (* phasefieldstep_direct.py:105-119, 129-138: reset, then the populations from the order parameters, velocity 0, chemical potential 0 and density 1 *)
  Definition coupled_init (gammas : per_phase) (rest : list R) (phi : cell L -> list R) (x : cell L) : res ph_cell :=
    rbind (mapM (fun i => rbind (of_phase gammas i) (fun ga => rbind (entry (phi x) i) (fun r => ch_equilibrium S 0 ga r (repeat 0 (dimD S))))) (seq 0 K)) (fun chs =>
    Ok {| c_phi := phi x; c_mu := repeat 0 K; c_vel := repeat 0 (dimD S); c_force := repeat 0 (dimD S); c_ch := chs; c_hyd := rest |}).
End Coupled.

(* nphase_nestler.py:51-62; [eps]: the coefficient dictionary, read with the larger index first; [lap]: discretised Laplacians of the order parameters *)
Definition interfacial_potential (n : nat) (alpha : R) (eps : nat -> nat -> R) (c lap : list R) (i : nat) : R :=
  - rsum (map (fun k => if Nat.eqb i k then 0 else alpha ^ 2 * (if (i <? k)%nat then eps k i else eps i k) ^ 2 * (nth k c 0 * nth i lap 0 - nth i c 0 * nth k lap 0)) (seq 0 n)).
