(* Model of src/lbmpy/partially_saturated_cells.py:42-115 and of create_psm_update_rule
   (src/lbmpy/creationfunctions.py:871-916), by the values computed in one cell. *)
From Coq Require Import List ZArith Bool Arith Reals.
From Verif Require Import StencilModel RealLib LinLib.
Import ListNotations.
Local Open Scope R_scope.

Section Psm.
  (* the stencil; the collision rule without solid collision, as a function of the relaxation rates and the
     pre-collision populations; the unmodified relaxation rates; the equilibrium as a function of the populations (for the
     density) and a velocity; the velocity the method computes from the populations *)
  Variables (S : stencil) (collision : list R -> list R -> res (list R)) (rates : list R)
            (equilibrium : list R -> list R -> list R) (velocity : list R -> list R).
  (* solid collision option, method.relaxation_rates[0], fraction_field.center, individual_fraction_field.center(p),
     object velocity of particle p *)
  Variables (SC : Z) (omega : R) (fraction : R) (individual : nat -> R) (object_velocity : nat -> list R).

  (* momentbasedmethod.py:179-182: every rate is multiplied by 1 - fraction (for central moment and cumulant methods
     the same happens in methods/creationfunctions.py:374-377 and 550-553) *)
  Definition scaled_rates : list R := map (fun w => w * (1 - fraction)) rates.

  (* 63-93, one direction of one particle; 65: .index of the inverse entry *)
  Definition solid_collision (f eq_fluid eq_solid : list R) (b : R) (i : nat) : res R :=
    match index_of (vneg (nth i S [])) S with
    | None => Err ValueError
    | Some inv =>
      if Z.eqb SC 1 then Ok (b * ((nth inv f 0 - nth inv eq_fluid 0) - (nth i f 0 - nth i eq_solid 0)))
      else if Z.eqb SC 2 then Ok (b * ((nth i eq_solid 0 - nth i f 0) + (1 - omega) * (nth i f 0 - nth i eq_fluid 0)))
      else if Z.eqb SC 3 then Ok (b * ((nth inv f 0 - nth inv eq_solid 0) - (nth i f 0 - nth i eq_solid 0)))
      else Err ValueError
    end.
  (* 52-62: the equilibrium with the velocity of the object *)
  Definition particle_collision (f : list R) (p : nat) : res (list R) :=
    mapM (solid_collision f (equilibrium f (velocity f)) (equilibrium f (object_velocity p)) (individual p)) (seq 0 (sizeQ S)).
  (* 94-96: forces_rhs[p*D + j] *)
  Definition particle_force (sc : list R) : list R :=
    map (fun j => - rsum (map (fun sc_c => fst sc_c * IZR (nth j (snd sc_c) 0%Z)) (combine sc S))) (seq 0 (dimD S)).
  (* 42-115: populations and forces, for n = MaxParticlesPerCell *)
  Definition add_psm (n : nat) (main f : list R) : res (list R * list R) :=
    rbind (mapM (particle_collision f) (seq 0 n)) (fun scs =>
    Ok (fold_left radd scs main, concat (map particle_force scs))).
  Definition psm_update (n : nat) (f : list R) : res (list R * list R) :=
    rbind (collision scaled_rates f) (fun main => add_psm n main f).

  (* creationfunctions.py:871-916.  [plain] is the update rule without PSM config (its force is still scaled by
     1 - fraction).  Populations are read from src and written to dst: the source is not changed.  Force entries of the
     first n particles are overwritten. *)
  Variable plain : list R -> res (list R).
  Definition write_forces (n : nat) (new old : list R) : list R := new ++ skipn (n * dimD S) old.
  Definition psm_block (f : list R) (n : nat) (st : list R * list R) : res (list R * list R) :=
    rbind (psm_update n f) (fun ff => Ok (fst ff, write_forces n (snd ff) (snd st))).
  Definition plain_block (f : list R) (st : list R * list R) : res (list R * list R) :=
    rbind (plain f) (fun g => Ok (g, snd st)).
  Definition when (c : bool) (block : list R * list R -> res (list R * list R)) (st : list R * list R) : res (list R * list R) :=
    if c then block st else Ok st.
  Definition leb (a b : R) : bool := if Rle_dec a b then true else false.
  Definition ltb (a b : R) : bool := if Rlt_dec a b then true else false.
  Fixpoint particle_blocks (f : list R) (ps : list nat) (st : list R * list R) : res (list R * list R) :=
    match ps with
    | [] => Ok st
    | p :: ps => rbind (when (ltb 0 (individual p)) (psm_block f (p + 1)) st) (particle_blocks f ps)
    end.
  (* 902-914 with individual_fraction_field; st = (dst, particle_force_field) *)
  Definition psm_kernel (max_particles : nat) (f : list R) (st : list R * list R) : res (list R * list R) :=
    rbind (when (leb fraction 0) (plain_block f) st) (particle_blocks f (seq 0 max_particles)).
  (* 890-900 without individual_fraction_field (which is then the fraction field) *)
  Definition psm_kernel_single (max_particles : nat) (f : list R) (st : list R * list R) : res (list R * list R) :=
    if negb (Nat.eqb max_particles 1) then Err AssertionError
    else rbind (when (leb fraction 0) (plain_block f) st) (when (ltb 0 fraction) (psm_block f 1)).
  (* the same conditionals for an in-place streaming pattern: every block reads what the previous one wrote *)
  Fixpoint inplace_blocks (ps : list nat) (st : list R * list R) : res (list R * list R) :=
    match ps with
    | [] => Ok st
    | p :: ps => rbind (when (ltb 0 (individual p)) (fun st => psm_block (fst st) (p + 1) st) st) (inplace_blocks ps)
    end.
  Definition psm_kernel_inplace (max_particles : nat) (st : list R * list R) : res (list R * list R) :=
    rbind (when (leb fraction 0) (fun st => plain_block (fst st) st) st) (inplace_blocks (seq 0 max_particles)).
End Psm.
