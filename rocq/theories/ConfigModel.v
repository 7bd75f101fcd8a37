(* Model of LBMConfig.__post_init__ (src/lbmpy/creationfunctions.py:345-484), CollisionSpace.compatible
   (src/lbmpy/enums.py:162-175), dataclasses.replace as used in update_with_default_parameters (957-986),
   the choice of the accessor in create_lb_update_rule (612-636) and the dispatch in create_lb_method (773-867). *)
From Coq Require Import String Ascii List ZArith Bool Arith.
From Verif Require Import StencilModel AccessModel TransModel CollModel.
Import ListNotations.

(* enums.py:44-118 *)
Inductive lb_method_name : Type := SRT | TRT | MRT_RAW | MRT | CENTRAL_MOMENT | TRT_KBC_N1 | TRT_KBC_N2 | TRT_KBC_N3 | TRT_KBC_N4 | CUMULANT | MONOMIAL_CUMULANT.
Definition method_eqb (a b : lb_method_name) : bool :=
  match a, b with
  | SRT, SRT | TRT, TRT | MRT_RAW, MRT_RAW | MRT, MRT | CENTRAL_MOMENT, CENTRAL_MOMENT | TRT_KBC_N1, TRT_KBC_N1 | TRT_KBC_N2, TRT_KBC_N2
  | TRT_KBC_N3, TRT_KBC_N3 | TRT_KBC_N4, TRT_KBC_N4 | CUMULANT, CUMULANT | MONOMIAL_CUMULANT, MONOMIAL_CUMULANT => true
  | _, _ => false
  end.
Definition method_in (m : lb_method_name) (l : list lb_method_name) : bool := existsb (method_eqb m) l.
(* 121-147 *)
Inductive space : Type := POPULATIONS | RAW_MOMENTS | CENTRAL_MOMENTS | CUMULANTS.
Definition space_eqb (a b : space) : bool :=
  match a, b with POPULATIONS, POPULATIONS | RAW_MOMENTS, RAW_MOMENTS | CENTRAL_MOMENTS, CENTRAL_MOMENTS | CUMULANTS, CUMULANTS => true | _, _ => false end.
(* 162-175 *)
Definition compatible (s : space) (m : lb_method_name) : bool :=
  match s with
  | POPULATIONS => method_in m [SRT; TRT; MRT_RAW; MRT; TRT_KBC_N1; TRT_KBC_N2; TRT_KBC_N3; TRT_KBC_N4]
  | RAW_MOMENTS => method_in m [SRT; TRT; MRT_RAW; MRT]
  | CENTRAL_MOMENTS => method_in m [CENTRAL_MOMENT]
  | CUMULANTS => method_in m [MONOMIAL_CUMULANT; CUMULANT]
  end.
(* 178-221, the members of ForceModel by name *)
Definition force_model_names : list string :=
  ["SIMPLE"; "LUO"; "GUO"; "BUICK"; "SILVA"; "EDM"; "KUPERSHTOKH"; "HE"; "SHANCHEN"; "CENTRALMOMENT"]%string.
Definition method_names : list (string * lb_method_name) :=
  [("SRT", SRT); ("TRT", TRT); ("MRT_RAW", MRT_RAW); ("MRT", MRT); ("CENTRAL_MOMENT", CENTRAL_MOMENT); ("TRT_KBC_N1", TRT_KBC_N1);
   ("TRT_KBC_N2", TRT_KBC_N2); ("TRT_KBC_N3", TRT_KBC_N3); ("TRT_KBC_N4", TRT_KBC_N4); ("CUMULANT", CUMULANT);
   ("MONOMIAL_CUMULANT", MONOMIAL_CUMULANT)]%string.
(* str.upper / str.lower on ASCII letters (simplification: other characters are unchanged) *)
Definition upper_char (a : ascii) : ascii :=
  let n := nat_of_ascii a in if (97 <=? n) && (n <=? 122) then ascii_of_nat (n - 32) else a.
Definition lower_char (a : ascii) : ascii :=
  let n := nat_of_ascii a in if (65 <=? n) && (n <=? 90) then ascii_of_nat (n + 32) else a.
Fixpoint smap (f : ascii -> ascii) (s : string) : string :=
  match s with EmptyString => EmptyString | String a s => String (f a) (smap f s) end.
Definition upper := smap upper_char.
Definition lower := smap lower_char.
Definition sget {A} (k : string) (d : list (string * A)) : option A :=
  match find (fun p => String.eqb (fst p) k) d with Some p => Some (snd p) | None => None end.
(* creationfunctions.py:456-468 *)
Definition force_model_dict : list (string * force_model) :=
  [("simple", Simple); ("luo", Luo); ("guo", Guo); ("schiller", Guo); ("buick", Buick); ("silva", Buick); ("edm", EDM);
   ("kupershtokh", EDM); ("he", He); ("shanchen", ShanChen); ("centralmoment", CentralMoment)]%string.
(* 424-431 *)
Definition kernel_type_to_streaming_pattern : list (string * (string * timestep)) :=
  [("stream_pull_collide", ("pull", BOTH)); ("collide_stream_push", ("push", BOTH)); ("aa_even", ("aa", EVEN)); ("aa_odd", ("aa", ODD));
   ("esotwist_even", ("esotwist", EVEN)); ("esotwist_odd", ("esotwist", ODD))]%string.

Section Config.
  (* expressions (numbers or sympy expressions) for rates and forces *)
  Variables (E : Type) (omega : E) (magic : E -> E) (nonzero : E -> bool).
  Variable scale : E -> E.            (* multiplication by 1 - fraction_field.center *)
  Variable other : Type.              (* all fields which __post_init__ does not mention *)

  Inductive method_arg := MEnum (m : lb_method_name) | MStr (s : string).
  Inductive force_arg := FTuple (F : list E) | FField (center : nat -> E).
  Inductive fmodel_arg := FMStr (s : string) | FMEnum (name : string) | FMInst (c : force_model) (F : list E).
  (* simplification: of a CollisionSpaceInfo only the collision space is kept, its transform classes are [other] *)
  Inductive space_arg := CSEnum (s : space) | CSInfo (s : space).
  Inductive kernel_arg := KStr (s : string) | KAccessor.
  (* dataclass, 101-322 *)
  Record config := mkC {
    dim : nat;                         (* stencil.D; conversion of the stencil argument is C07 *)
    method : method_arg;
    relaxation_rates : option (list E);
    relaxation_rate : option E;
    compressible : bool;
    zero_centered : bool;
    delta_equilibrium : option bool;
    continuous_equilibrium : bool;
    maxwellian_moments : option bool;
    fmodel : option fmodel_arg;
    force : force_arg;
    collision_space_info : option space_arg;
    entropic : bool;
    fluctuating : bool;
    psm_fraction : bool;               (* psm_config is not None and psm_config.fraction_field is not None *)
    velocity_input : bool;             (* is given *)
    density_input : bool;
    conserved_moments : bool;
    kernel_type : kernel_arg;
    streaming_pattern : string;
    step : timestep;
    rest : other }.

  (* 346-349 *)
  Definition resolve_method (a : method_arg) : res lb_method_name :=
    match a with
    | MEnum m => Ok m
    | MStr s => match sget (upper s) method_names with Some m => Ok m | None => Err KeyError end
    end.
  (* 359-371: new relaxation_rate and relaxation_rates *)
  Definition resolve_rates (m : lb_method_name) (rs : option (list E)) (r : option E) : option (list E) * option E :=
    let r := match rs, r with None, None => Some omega | _, _ => r end in
    match r with
    | Some w => (Some (if method_in m [TRT; TRT_KBC_N1; TRT_KBC_N2; TRT_KBC_N3; TRT_KBC_N4] then [w; magic w] else [w]), r)
    | None => (rs, r)
    end.
  (* 381-397 *)
  Definition resolve_delta (m : lb_method_name) (zc : bool) (d : option bool) : res bool :=
    match d with
    | Some true => if negb zc then Err ValueError
                   else if method_in m [MONOMIAL_CUMULANT; CUMULANT] then Err ValueError else Ok true
    | Some false => Ok false
    | None => if zc then if method_in m [CENTRAL_MOMENT; MONOMIAL_CUMULANT; CUMULANT] then Ok false else Ok true else Ok false
    end.
  (* 399-422 *)
  Definition resolve_space (m : lb_method_name) (ent fluc : bool) (s : option space_arg) : res space :=
    match s with
    | Some (CSEnum s) | Some (CSInfo s) =>
      if (ent || fluc) && negb (space_eqb s POPULATIONS) then Err ValueError
      else if negb (compatible s m) then Err ValueError else Ok s
    | None =>
      if method_in m [SRT; TRT; TRT_KBC_N1; TRT_KBC_N2; TRT_KBC_N3; TRT_KBC_N4] then Ok POPULATIONS
      else if ent || fluc then Ok POPULATIONS
      else if method_in m [MRT_RAW; MRT] then Ok RAW_MOMENTS
      else if method_in m [CENTRAL_MOMENT] then Ok CENTRAL_MOMENTS
      else if method_in m [MONOMIAL_CUMULANT; CUMULANT] then Ok CUMULANTS
      else Err PlainException
    end.
  (* 433-435 *)
  Definition resolve_kernel (k : kernel_arg) (p : string) (t : timestep) : kernel_arg * string * timestep :=
    match k with
    | KStr s => match sget s kernel_type_to_streaming_pattern with
                | Some (p', t') => (KStr "default_stream_collide", p', t')
                | None => (k, p, t)
                end
    | KAccessor => (k, p, t)
    end.
  (* 437-438 *)
  Definition force_tuple (D : nat) (F : force_arg) : list E :=
    match F with FTuple F => F | FField g => map g (seq 0 D) end.
  (* 440-449 *)
  Definition default_model (D : nat) (m : lb_method_name) (fm : option fmodel_arg) (F : list E) : option fmodel_arg :=
    match fm with
    | None => if existsb nonzero F
              then Some (FMInst (if method_eqb m CUMULANT then CentralMoment else Guo) (firstn D F))
              else None
    | _ => fm
    end.
  (* 470-471 *)
  Definition psm_force (psm : bool) (F : list E) : list E := if psm then map scale F else F.
  (* 473-481; ForceModel[...] and the dictionary raise KeyError *)
  Definition instantiate (D : nat) (fm : option fmodel_arg) (F : list E) : res (option fmodel_arg) :=
    let by_name name := match sget (lower name) force_model_dict with
                        | Some c => Ok (Some (FMInst c (firstn D F)))
                        | None => Err KeyError
                        end in
    match fm with
    | Some (FMStr s) => if existsb (String.eqb (upper s)) force_model_names then by_name (upper s) else Err KeyError
    | Some (FMEnum name) => by_name name
    | _ => Ok fm
    end.
  (* 345-484 *)
  Definition post_init (c : config) : res config :=
    rbind (resolve_method (method c)) (fun m =>
    let cont := match maxwellian_moments c with Some b => b | None => continuous_equilibrium c end in
    let rr := resolve_rates m (relaxation_rates c) (relaxation_rate c) in
    if negb (compressible c) && method_in m [MONOMIAL_CUMULANT; CUMULANT] then Err ValueError
    else if zero_centered c && entropic c then Err ValueError
    else
    rbind (resolve_delta m (zero_centered c) (delta_equilibrium c)) (fun delta =>
    rbind (resolve_space m (entropic c) (fluctuating c) (collision_space_info c)) (fun s =>
    let '(k, p, t) := resolve_kernel (kernel_type c) (streaming_pattern c) (step c) in
    let F := force_tuple (dim c) (force c) in
    let fm := default_model (dim c) m (fmodel c) F in
    let F' := psm_force (psm_fraction c) F in
    rbind (instantiate (dim c) fm F') (fun fm' =>
    Ok {| dim := dim c; method := MEnum m; relaxation_rates := fst rr; relaxation_rate := snd rr; compressible := compressible c;
          zero_centered := zero_centered c; delta_equilibrium := Some delta; continuous_equilibrium := cont;
          maxwellian_moments := maxwellian_moments c; fmodel := fm'; force := FTuple F'; collision_space_info := Some (CSInfo s);
          entropic := entropic c; fluctuating := fluctuating c; psm_fraction := psm_fraction c; velocity_input := velocity_input c;
          density_input := density_input c; conserved_moments := conserved_moments c && negb (density_input c || velocity_input c);
          kernel_type := k; streaming_pattern := p; step := t; rest := rest c |})))).

  (* dataclasses.replace: a new object from the current fields with some of them changed, then __post_init__ *)
  Definition replace (upd : config -> config) (c : config) : res config := post_init (upd c).

  (* ---- create_lb_method (773-867): which creation function is called with which rates ---- *)
  Inductive creation :=
  | CreateSRT (w : E) | CreateTRT (even odd : E) | CreateMRT (rs : list E) (conserved : bool) | CreateCentralMoment (rs : list E) (conserved : bool)
  | CreateMRTRaw (rs : list E) (conserved : bool) | CreateKBC (D : nat) (shear higher : E) (nr : nat)
  | CreateCumulant (rs : list E) (conserved : bool) | CreateDefaultCumulants (rs : list E) (conserved : bool) | CreateMonomialCumulants (rs : list E) (conserved : bool).
  (* nested : nested_moments is given; Q : number of velocities; fourth : fourth_order_correction is not False;
     fourth_symbols : FOURTH_ORDER_RELAXATION_RATE_SYMBOLS.  All methods passed here come from [post_init].
     conserved_moments = True is the default of create_with_default_polynomial_cumulants (not passed at 852). *)
  Definition create_lb_method (Q : nat) (nested fourth : bool) (fourth_symbols : list E) (c : config) : res creation :=
    match method c, relaxation_rates c with
    | MStr _, _ => Err ValueError
    | _, None => Err TypeError
    | MEnum m, Some rs =>
      let kbc nr :=
        if (dim c =? 2) && (Q =? 9) || (dim c =? 3) && (Q =? 27)
        then match rs with w0 :: w1 :: _ => Ok (CreateKBC (dim c) w0 w1 nr) | _ => Err IndexError end
        else Err NotImplementedError in
      match m with
      | SRT => match rs with w :: _ => Ok (CreateSRT w) | _ => Err AssertionError end
      | TRT => match rs with w0 :: w1 :: _ => Ok (CreateTRT w0 w1) | _ => Err AssertionError end
      | MRT => Ok (CreateMRT rs (conserved_moments c))
      | CENTRAL_MOMENT => Ok (CreateCentralMoment rs (conserved_moments c))
      | MRT_RAW => Ok (CreateMRTRaw rs (conserved_moments c))
      | TRT_KBC_N1 => kbc 1 | TRT_KBC_N2 => kbc 2 | TRT_KBC_N3 => kbc 3 | TRT_KBC_N4 => kbc 4
      | CUMULANT =>
        if fourth && (negb (dim c =? 3) && negb (Q =? 27)) then Err ValueError
        else if fourth && negb (length rs <=? 2) then Err AssertionError
        else let rs := if fourth then fourth_symbols else rs in
             if nested then Ok (CreateCumulant rs (conserved_moments c)) else Ok (CreateDefaultCumulants rs true)
      | MONOMIAL_CUMULANT => Ok (CreateMonomialCumulants rs (conserved_moments c))
      end
    end.

  (* ---- create_lb_update_rule (612-636): the field access of the kernel ---- *)
  Inductive access_choice := StreamPullOnly | PeriodicPull | Pattern (p : string) (t : timestep) | CollideOnly | UserAccessor.
  Definition choose_access (periodicity : list bool) (c : config) : res access_choice :=
    match kernel_type c with
    | KStr s =>
      if String.eqb s "stream_pull_only" then Ok StreamPullOnly
      else if String.eqb s "default_stream_collide" then
        if String.eqb (streaming_pattern c) "pull" && existsb (fun b => b) periodicity then Ok PeriodicPull
        else Ok (Pattern (streaming_pattern c) (step c))
      else if String.eqb s "collide_only" then Ok CollideOnly
      else Err ValueError
    | KAccessor => Ok UserAccessor
    end.
End Config.
