(* Model of src/lbmpy/fluctuatinglb.py and of AbstractLbMethod.is_weighted_orthogonal
   (src/lbmpy/methods/momentbased/momentbasedmethod.py:236-241).
   Simplifications: moments are expanded polynomials with rational coefficients, so "m in conserved_moments" is equality of
   expanded polynomials (sympy compares expressions, which differs only for moments the user wrote unexpanded); the matrix
   inverse is passed in; symbols (temperature, density, rates, random numbers) are modelled by their values. *)
From Coq Require Import List ZArith QArith Qreals Bool Arith Reals.
From Verif Require Import StencilModel RealLib LinLib LinQ MomModel ModeModel.
Import ListNotations.
Local Open Scope R_scope.

(* what the functions below read of collision_rule.method *)
Record fmethod := FMethod {
  f_stencil : stencil;
  f_moments : list qpoly;          (* method.moments *)
  f_weights : list Q;              (* method.weights *)
  f_rates : list R;                (* method.relaxation_rates *)
  f_density : R                    (* the value of method._cqc.density_symbol *)
}.
Definition f_matrix (m : fmethod) : list (list Q) := qmoment_matrix (f_moments m) (f_stencil m).

(* momentbasedmethod.py:236-241: (M o W) M^T is diagonal *)
Definition is_weighted_orthogonal (m : fmethod) : bool :=
  let rows := f_matrix m in
  forallb (fun i => forallb (fun j => Nat.eqb i j || Qeq_bool (qdot3 (f_weights m) (nth i rows []) (nth j rows [])) 0)
    (seq 0 (length rows))) (seq 0 (length rows)).

(* fluctuatinglb.py:43-44 *)
Definition normalization_factors (m : fmethod) : list R :=
  map (fun r => Q2R (qdot3 (f_weights m) r r)) (f_matrix m).
(* 41-49 fluctuation_amplitude_from_temperature; None: the root of a negative number or a division by c_s_sq = 0 *)
Definition fluctuation_amplitude_from_temperature (m : fmethod) (temperature c_s_sq : R) : list (option R) :=
  let mu := rdiv (temperature * f_density m) c_s_sq in
  map (fun p => obind mu (fun mu => rsqrt (mu * fst p * (1 - (1 - snd p) ^ 2)))) (combine (normalization_factors m) (f_rates m)).

(* 54, 57: conserved_moments = {1, x, y, z} *)
Definition conserved_moments : list qpoly := [(1%Q, [0; 0; 0]%nat)] :: map (fun a => [(1%Q, unit_tuple a)]) [0; 1; 2]%nat.
Definition qpoly_eqb (p q : qpoly) : bool :=
  Nat.eqb (length p) (length q) &&
  forallb (fun tt => Qeq_bool (fst (fst tt)) (fst (snd tt)) && tuple_eqb (snd (fst tt)) (snd (snd tt))) (combine p q).
Definition in_conserved (p : qpoly) : bool := existsb (qpoly_eqb p) conserved_moments.
(* 57-58: next(rng_generator) is only evaluated for the other moments; k counts the numbers drawn so far *)
Fixpoint random_matrix (ms : list qpoly) (rng : nat -> R) (k : nat) : list R :=
  match ms with
  | [] => []
  | p :: ms => if in_conserved p then 0 :: random_matrix ms rng k
               else (rng k - / 2) * sqrt 12 :: random_matrix ms rng (S k)
  end.
(* 59-62: the diagonal matrix times the vector of random numbers; 0 times an amplitude is 0, whatever the amplitude *)
Fixpoint opt_list {A} (l : list (option A)) : option (list A) :=
  match l with
  | [] => Some []
  | None :: _ => None
  | Some a :: l => match opt_list l with Some l => Some (a :: l) | None => None end
  end.
Definition fluctuating_part (ms : list qpoly) (amplitudes : list (option R)) (random : list R) : list (option R) :=
  map (fun t => match t with (p, a, r) => if in_conserved p then Some 0 else obind a (fun a => Some (a * r)) end)
      (combine (combine ms amplitudes) random).
(* 51-62 fluctuation_correction; with fewer amplitudes than moments the shapes do not match (ShapeError is a ValueError).
   None: a correction that is not a real number *)
Definition fluctuation_correction (m : fmethod) (Minv : mat) (rng : nat -> R) (amplitudes : list (option R)) : res (option (list R)) :=
  let amplitudes := firstn (length (f_moments m)) amplitudes in
  if Nat.ltb (length amplitudes) (length (f_moments m)) then Err ValueError
  else Ok (match opt_list (fluctuating_part (f_moments m) amplitudes (random_matrix (f_moments m) rng 0)) with
           | Some phi => Some (mv Minv phi)
           | None => None
           end).
(* 36-38: the i-th correction is added to the i-th main assignment, whatever it is *)
Definition add_corrections (mains corr : list R) : res (list R) :=
  if Nat.ltb (length mains) (length corr) then Err IndexError
  else Ok (radd (firstn (length corr) mains) corr ++ skipn (length corr) mains).

(* 16-38 add_fluctuations_to_collision_rule: the values of the main assignments afterwards.  truthy is bool(temperature);
   symbols are truthy whatever value they take. *)
Definition add_fluctuations (truthy : bool) (temperature : R) (amplitudes : list R) (c_s_sq : R) (m : fmethod) (Minv : mat)
    (rng : nat -> R) (mains : list R) : res (option (list R)) :=
  let amps_given := negb (Nat.eqb (length amplitudes) 0) in
  if negb (truthy && negb amps_given) || (truthy && amps_given) then Err ValueError
  else
    let amps := if amps_given then map Some amplitudes else fluctuation_amplitude_from_temperature m temperature c_s_sq in
    if negb (is_weighted_orthogonal m) then Err ValueError
    else rbind (fluctuation_correction m Minv rng amps) (fun corr =>
         match corr with
         | None => Ok None
         | Some corr => rbind (add_corrections mains corr) (fun out => Ok (Some out))
         end).
