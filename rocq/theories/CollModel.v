(* Model of the collision operators: methods/momentbased/momentbasedmethod.py, methods/momentbased/centralmomentbasedmethod.py,
   methods/cumulantbased/cumulantbasedmethod.py, of the collision side of methods/conservedquantitycomputation.py and of
   forcemodels.py (all under src/lbmpy).  A collision rule is modelled by the post-collision populations it computes from
   the pre-collision ones; subexpressions are inlined.  Populations are lists of reals of length n (= stencil.Q).
   The transforms (forward, backward) are arguments: TransModel.v defines the ones of the library. *)
From Coq Require Import List ZArith Bool Arith Reals.
From Verif Require Import StencilModel RealLib LinLib MomModel TransSpec TransModel EqModel CumModel.
Import ListNotations.
Local Open Scope R_scope.

(* the exponent tuple of the a-th velocity component *)
Definition unit_tuple (D a : nat) : list nat := map (fun j => if Nat.eqb j a then 1%nat else 0%nat) (seq 0 D).
Definition zero_tuple (D : nat) : list nat := repeat 0%nat D.

(* abstract_equilibrium.py: value of a polynomial mode from the monomial ones *)
Definition poly_value (g : list nat -> R) (p : poly) : R := rsum (map (fun t => fst t * g (snd t)) p).
Definition equilibrium_values (ps : list poly) (g : list nat -> R) : list R := map (poly_value g) ps.
(* continuous_hydro_maxwellian.py:202-223 _monomial_central_moment: binomial expansion in the raw moments *)
Fixpoint binomial_product (u : list R) (c i : list nat) : R :=
  match u, c, i with
  | a :: u, m :: c, k :: i => a ^ (m - k) * chooseR m k * binomial_product u c i
  | _, _, _ => 1
  end.
Definition central_from_raw (u : list R) (raw : list nat -> R) (e : list nat) : R :=
  rsum (map (fun r => (-1) ^ (nsum e - nsum r) * binomial_product u e r * raw r) (contained_moments e 0 false)).

(* ---- conserved quantities: conservedquantitycomputation.py:218-249 (background density 1) ---- *)
(* zc: populations are stored relative to the background distribution *)
Definition pdf_density (zc : bool) (f : list R) : R := (if zc then 1 else 0) + rsum f.
Definition pdf_momentum (S : stencil) (f : list R) (a : nat) : R :=
  rsum (map (fun fc => fst fc * IZR (nth a (snd fc) 0%Z)) (combine f S)).
Definition reference_density (compr : bool) (rho : R) : R := if compr then rho else 1.
(* forcemodels.py:592-593 *)
Definition default_velocity_shift (density : R) (F : list R) : list R := map (fun x => x / (2 * density)) F.

(* forcemodels.py; Schiller is a subclass of Guo that overrides nothing but the constructor (441-450) *)
Inductive force_model : Type := Simple | CentralMoment | Luo | Guo | He | Buick | EDM | ShanChen.
(* equilibrium_velocity_shift: 161-168 (zero), overridden in 231, 315, 437, 489, 585 *)
Definition shifts_equilibrium (fm : force_model) : bool :=
  match fm with Simple | Luo | EDM => false | CentralMoment | Guo | He | Buick | ShanChen => true end.
Definition equilibrium_velocity_shift (fm : force_model) (density : R) (F : list R) : list R :=
  if shifts_equilibrium fm then default_velocity_shift density F else rzero (length F).
Definition equilibrium_velocity (D : nat) (S : stencil) (zc compr : bool) (force : option (force_model * list R)) (f : list R) : list R :=
  let ref := reference_density compr (pdf_density zc f) in
  let u := map (fun a => pdf_momentum S f a / ref) (seq 0 D) in
  match force with None => u | Some (fm, F) => radd u (equilibrium_velocity_shift fm ref F) end.

(* ---- source terms of the force models, population space ---- *)
(* forcemodels.py:188-196 *)
Definition simple_terms (S : stencil) (ws F : list R) : list R :=
  map (fun cw => snd cw / (1 / 3) * dot F (vecR (fst cw))) (combine S ws).
(* 241-256 *)
Definition luo_terms (S : stencil) (ws u F : list R) : list R :=
  map (fun cw => let c := vecR (fst cw) in
        snd cw * dot F (radd (rscal (/ (1 / 3)) (rsub c u)) (rscal (dot c u / (1 / 3) ^ 2) c))) (combine S ws).
(* 351-368; discrete_maxwellian_equilibrium with its default order 2, compressible *)
Definition he_terms (S : stencil) (u F : list R) : res (list R) :=
  rbind (discrete_maxwellian_equilibrium S 1 u 2 (1 / 3) true) (fun eqs =>
  Ok (map (fun ce => snd ce * dot (rsub (vecR (fst ce)) u) F / (1 / 3)) (combine S eqs))).
(* 370-394: monomial moments of the continuous force term.  The moments of the Maxwellian are proportional to rho and the
   result is divided by rho: after expand() no rho is left (see he_moment_density_free); the model takes rho = 1. *)
Definition tuple_add (a b : list nat) : list nat := map (fun p => (fst p + snd p)%nat) (combine a b).
Definition he_moment_with (D : nat) (rho : R) (u F : list R) (e : list nat) : R :=
  / (1 / 3 * rho) * (rsum (map (fun a => nth a F 0 * psi_moment rho u (1 / 3) (tuple_add e (unit_tuple D a))) (seq 0 D))
                     - psi_moment rho u (1 / 3) e * dot F u).
Definition he_moment (D : nat) (u F : list R) (e : list nat) : R := he_moment_with D 1 u F e.
(* 496-509; equilibrium = populations of lb_method.get_equilibrium_terms() as a function of the velocity *)
Definition edm_terms (equilibrium : list R -> res (list R)) (compr : bool) (rho : R) (u F : list R) : res (list R) :=
  rbind (equilibrium (radd u (map (fun x => x / reference_density compr rho) F))) (fun shifted =>
  rbind (equilibrium u) (fun eqs => Ok (rsub shifted eqs))).
(* 528-549 *)
Definition shan_chen_linear (S : stencil) (ws u F : list R) : list R :=
  map (fun cw => let Fq := dot (vecR (fst cw)) F in let uq := dot (vecR (fst cw)) u in
        snd cw * (Fq + 3 * uq * Fq - dot u F)) (combine S ws).
Definition shan_chen_nonlinear (S : stencil) (ws : list R) (compr : bool) (rho : R) (F : list R) : list R :=
  map (fun cw => let Fq := dot (vecR (fst cw)) F in
        snd cw / (2 * reference_density compr rho) * (3 * Fq ^ 2 - dot F F)) (combine S ws).

(* identity - 1/2 * relaxation matrix, applied to a vector *)
Definition half_relaxed (d m : list R) : list R := rmul (map (fun w => 1 - 1 / 2 * w) d) m.
Definition shan_chen_factor (d : list R) : list R := map (fun w => / (1 / 3) * (1 - 1 / 2 * w)) d.

(* [T] maps the moment vector of the method to the space the collision works in: the identity for raw moments, the shift
   matrix for central moments.  Raw: 198-199, 258-259, 293-298, 420-424, 473-478, 511-513, 556-566;
   central: 201-203, 261-263, 300-307, 400-406 & 426-430, 480-487, 515-518, 568-583.
   CentralMoment has no such method: the caller does not use it for these spaces (has_moment_space_forcing is False) and
   falls back to __call__, which raises a ValueError (219-220). *)
Definition space_forcing (fm : force_model) (D : nat) (S : stencil) (ps : list poly) (M : mat) (T : list R -> list R)
  (ws d : list R) (equilibrium : list R -> res (list R)) (compr : bool) (rho : R) (u F : list R) : res (list R) :=
  match fm with
  | Simple => if Nat.eqb (length F) D then Ok (T (mv M (simple_terms S ws F))) else Err AssertionError
  | Luo => Ok (T (mv M (luo_terms S ws u F)))
  | Guo => Ok (half_relaxed d (T (mv M (luo_terms S ws u F))))
  | He => Ok (half_relaxed d (T (equilibrium_values ps (he_moment D u F))))
  | Buick => if Nat.eqb (length F) D then Ok (half_relaxed d (T (mv M (simple_terms S ws F)))) else Err AssertionError
  | EDM => rbind (edm_terms equilibrium compr rho u F) (fun t => Ok (T (mv M t)))
  | ShanChen => let c := shan_chen_factor d in
      Ok (radd (rmul c (T (mv M (shan_chen_linear S ws u F)))) (rmul (rmul c c) (T (mv M (shan_chen_nonlinear S ws compr rho F)))))
  | CentralMoment => Err ValueError
  end.
(* __call__: 188-196, 241-256, 281-291, 408-418, 461-471, 496-509, 551-554, 219-220.
   srt = (len(set(relaxation_rates)) == 1) *)
Definition population_forcing (fm : force_model) (srt : bool) (D : nat) (S : stencil) (ps : list poly) (M Minv : mat)
  (ws d : list R) (equilibrium : list R -> res (list R)) (compr : bool) (rho : R) (u F : list R) : res (list R) :=
  let via_moments := rbind (space_forcing fm D S ps M (fun m => m) ws d equilibrium compr rho u F) (fun m => Ok (mv Minv m)) in
  let corrected t := Ok (rscal (1 - nth 0 d 0 / 2) t) in
  match fm with
  | Simple => if Nat.eqb (length F) D then Ok (simple_terms S ws F) else Err AssertionError
  | Luo => Ok (luo_terms S ws u F)
  | Guo => if srt then corrected (luo_terms S ws u F) else via_moments
  | He => if srt then rbind (he_terms S u F) corrected else via_moments
  | Buick => if srt then (if Nat.eqb (length F) D then corrected (simple_terms S ws F) else Err AssertionError) else via_moments
  | EDM => edm_terms equilibrium compr rho u F
  | ShanChen => via_moments
  | CentralMoment => Err ValueError
  end.
(* symmetric forcing around a cumulant collision: 205-210, 222-229, 265-270, 309-313, 432-435; exps = monomial central moments.
   T: raw monomial moments -> central (He, 400-406). Buick, EDM and ShanChen have no such method: AttributeError. *)
Definition symmetric_forcing (fm : force_model) (D : nat) (S : stencil) (exps : list (list nat)) (T : list R -> list R)
  (ws u F : list R) : res (list R * list R) :=
  let n := length S in
  match fm with
  | Simple => if Nat.eqb (length F) D then Ok (rzero n, mv (monomial_matrix exps S u) (simple_terms S ws F)) else Err AssertionError
  | Luo => Ok (rzero n, mv (monomial_matrix exps S u) (luo_terms S ws u F))
  | Guo => let g := rscal (1 / 2) (mv (monomial_matrix exps S u) (luo_terms S ws u F)) in Ok (g, g)
  | He => let g := rscal (1 / 2) (T (map (he_moment D u F) exps)) in Ok (g, g)
  | CentralMoment => if Nat.ltb (length F) n then let g := 0 :: map (fun x => 1 / 2 * x) F ++ rzero (n - 1 - length F) in Ok (g, g) else Err IndexError
  | Buick | EDM | ShanChen => Err AttributeError
  end.

(* ---- collision operators ---- *)
(* momentbasedmethod.py:374, centralmomentbasedmethod.py:16-25 (relax_central_moments), cumulantbasedmethod.py:377 *)
Definition relax (d eqs m : list R) : list R := radd m (rmul d (rsub eqs m)).
(* forward transform, relaxation plus force term, backward transform *)
Definition collide (fwd bwd : list R -> res (list R)) (d eqs force f : list R) : res (list R) :=
  rbind (fwd f) (fun m => bwd (radd (relax d eqs m) force)).

Section Method.
  Variables (D : nat) (S : stencil) (ps : list poly).
  Variables (zc dev compr : bool).          (* zero_centered, equilibrium.deviation_only, compressible *)
  Variable eqm : R -> list R -> list nat -> R. (* raw moments of the equilibrium distribution *)
  Variable eqc : R -> list R -> list nat -> R. (* its central moments in the frame moving with the velocity *)
  Variable ws : list R.                     (* lb_method.weights *)
  Variables (M Minv : mat).                 (* moment matrix and its inverse *)
  Let n := length S.

  (* momentbasedmethod.py:320-416 with a moment transform; include_force_terms is [force <> None].  A model without
     moment-space forcing (CentralMoment) is called for population-space terms (404-405), which raises. *)
  Definition raw_equilibrium_populations (bwd : list R -> res (list R)) (rho : R) (u : list R) : res (list R) :=
    bwd (equilibrium_values ps (eqm rho u)).
  Definition moment_collision (fwd bwd : list R -> res (list R)) (d : list R) (force : option (force_model * list R)) (f : list R) : res (list R) :=
    let rho := pdf_density zc f in
    let u := equilibrium_velocity D S zc compr force f in
    rbind (match force with
           | None => Ok (rzero n)
           | Some (fm, F) => space_forcing fm D S ps M (fun m => m) ws d (raw_equilibrium_populations bwd rho) compr rho u F
           end) (fun g =>
    collide fwd bwd d (equilibrium_values ps (eqm rho u)) g f).

  (* momentbasedmethod.py:388-398 and 404-412 *)
  Definition population_collision (srt : bool) (d : list R) (force : option (force_model * list R)) (f : list R) : res (list R) :=
    if zc && negb dev then Err PlainException else
    let rho := pdf_density zc f in
    let u := equilibrium_velocity D S zc compr force f in
    rbind (match force with
           | None => Ok (rzero n)
           | Some (fm, F) => population_forcing fm srt D S ps M Minv ws d (raw_equilibrium_populations (fun m => Ok (mv Minv m)) rho) compr rho u F
           end) (fun g =>
    Ok (radd (radd f (mv Minv (rmul d (rsub (equilibrium_values ps (eqm rho u)) (mv M f))))) g)).

  (* centralmomentbasedmethod.py:305-394; the transforms depend on the velocity *)
  Definition central_equilibrium_populations (bwd : list R -> list R -> res (list R)) (rho : R) (u : list R) : res (list R) :=
    bwd u (equilibrium_values ps (eqc rho u)).
  Definition central_collision (fwd bwd : list R -> list R -> res (list R)) (d : list R) (force : option (force_model * list R)) (f : list R) : res (list R) :=
    let rho := pdf_density zc f in
    let u := equilibrium_velocity D S zc compr force f in
    rbind (match force with
           | None => Ok (rzero n)
           | Some (fm, F) => space_forcing fm D S ps M (mv (shift_matrix n (moment_matrix ps S u) Minv)) ws d
                               (central_equilibrium_populations bwd rho) compr rho u F
           end) (fun g =>
    collide (fwd u) (bwd u) d (equilibrium_values ps (eqc rho u)) g f).

  (* cumulantbasedmethod.py:296-402.  cexps are the monomials of the polynomial cumulants ps with polynomialisation matrix P,
     cms the required central moments; fwd and bwd work on monomial central moments (return_monomials, start_from_monomials).
     [post] computes the post-collision polynomial cumulants from density, velocity, pre-collision monomial cumulants and
     pre-collision polynomial cumulants.  The AssertionError of 335 is the first test. *)
  Definition cumulant_collision_with (post : R -> list R -> (list nat -> R) -> list R -> res (list R))
    (cexps cms : list (list nat)) (P Pinv Mmono_inv : mat)
    (fwd bwd : list R -> list R -> res (list R)) (force : option (force_model * list R)) (f : list R) : res (list R) :=
    if zc && dev then Err AssertionError else
    let rho := pdf_density zc f in
    let u := equilibrium_velocity D S zc compr force f in
    rbind (match force with
           | None => Ok (rzero n, rzero n)
           | Some (fm, F) => symmetric_forcing fm D S cms (mv (shift_matrix n (monomial_matrix cms S u) Mmono_inv)) ws u F
           end) (fun g =>
    rbind (fwd u f) (fun kappa =>
    let kap := lookup cms (radd kappa (fst g)) in
    let C := cumulant_forward D u rho cexps P kap in
    rbind (post rho u (cumulant_from_central_moments D u rho kap) C) (fun C_post =>
    let kappa_post := cumulant_backward D u rho cexps Pinv C_post cms in
    bwd u (radd kappa_post (snd g))))).
  (* 374-379: relaxation; eqC = cumulants of the equilibrium times the density *)
  Definition cumulant_collision (cexps cms : list (list nat)) (P Pinv Mmono_inv : mat) (eqC : R -> list R -> list nat -> R)
    (fwd bwd : list R -> list R -> res (list R)) (d : list R) (force : option (force_model * list R)) (f : list R) : res (list R) :=
    cumulant_collision_with (fun rho u _ C => Ok (relax d (equilibrium_values ps (eqC rho u)) C)) cexps cms P Pinv Mmono_inv fwd bwd force f.
End Method.
