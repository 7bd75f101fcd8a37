(* Model of src/lbmpy/boundaries/boundaryconditions.py, of the tables in src/lbmpy/custom_code_nodes.py and of the force
   evaluation in src/lbmpy/boundaries/boundaryhandling.py.
   A boundary object called for a link (fluid cell x, direction i) gives a [brule] (StreamModel.v): the populations it reads
   through the proxies f_out and f_in and the value assigned to f_in(inv_dir[dir]).  Boundaries with a second assignment
   or with data updated in the index array have their own kernel below.
   In the generated code dir is the index read from the index array: the arrays neighbour_offset, inv_dir, weights and
   mirrored directions are indexed with it. *)
From Coq Require Import String List ZArith Bool Arith Reals.
From Verif Require Import StencilModel AccessModel StreamModel RealLib LinLib TransSpec EqModel CollModel MacroModel.
Import ListNotations.
Local Open Scope R_scope.

(* ---------- tables ---------- *)
(* advanced_streaming/indexing.py:62-66 and boundaryconditions.py:281: [stencil.index(inverse_direction(d)) for d in stencil] *)
Definition inverse_dirs (S : stencil) : res (list nat) := mapM (st_inverse_index S) S.
(* custom_code_nodes.py:10-16: neighbour_offset(dir) *)
Definition offset_of (S : stencil) (i : nat) : vec := nth i S [].
(* custom_code_nodes.py:37-43: the assertion lets axis = len(direction) pass, then the list access raises *)
Definition negate_at (a : nat) (d : vec) : vec :=
  map (fun p => if Nat.eqb (fst p) a then (- snd p)%Z else snd p) (enum d).
Definition mirror_stencil (d : vec) (axis : nat) : res vec :=
  if (length d <? axis)%nat then Err AssertionError
  else if (axis <? length d)%nat then Ok (negate_at axis d) else Err IndexError.
(* custom_code_nodes.py:50-56 *)
Definition mirrored_dirs (S : stencil) (axis : nat) : res (list nat) :=
  mapM (fun d => rbind (mirror_stencil d axis) (st_index S)) S.

Notation tget t i := (nth i t 0%nat).
(* offset of the cell itself *)
Definition here (S : stencil) : vec := vzero (dimD S).
(* [f_out(i) for i in range(Q)] *)
Definition all_out (S : stencil) : list pacc := map (FOut (here S)) (seq 0 (sizeQ S)).

(* ---------- NoSlip: 104-139 ---------- *)
Definition no_slip (S : stencil) (i : nat) : brule R :=
  {| b_reads := [FOut (here S) i]; b_fun := fun l => nth 0 l 0 |}.
(* 128-133: component a of the force vector entry of the link *)
Definition no_slip_force (S : stencil) (i a : nat) (f_i : R) : R := 2 * f_i * IZR (nth a (offset_of S i) 0%Z).

(* ---------- NoSlipLinearBouzidi: 142-220 ---------- *)
(* 181-184: wall distance without a callback *)
Definition bouzidi_default_q : R := -1.
(* 202-210 *)
Definition bouzidi_value (q f_xf f_xf_inv d_x2f : R) : R :=
  if Rle_dec (1 / 2) q then (1 / 2 * (f_xf + f_xf_inv * (2 * q - 1))) / q
  else if Rlt_dec 0 q then 2 * q * f_xf + (1 - 2 * q) * d_x2f
  else f_xf.
Definition bouzidi (S : stencil) (inv : list nat) (q : R) (i : nat) : brule R :=
  {| b_reads := [FOut (here S) i; FOut (here S) (tget inv i); FIn (here S) i];
     b_fun := fun l => bouzidi_value q (nth 0 l 0) (nth 1 l 0) (nth 2 l 0) |}.
(* 212-217, 344-349: force entry of the interpolating boundaries *)
Definition link_force (S : stencil) (i a : nat) (f_i result : R) : R := (f_i + result) * IZR (nth a (offset_of S i) 0%Z).

(* ---------- QuadraticBounceBack: 224-356 ---------- *)
Definition quadratic_default_q : R := 1 / 2.
(* 287-298; the rest state of background density 1 is subtracted for zero-centred storage *)
Definition quadratic_equilibrium (zc compr : bool) (v : vec) (u : list R) (rho w : R) : R :=
  let result := discrete_equilibrium v u rho w 2 (1 / 3) compr in
  if zc then result - discrete_equilibrium v (rzero (length u)) 1 w 0 (1 / 3) false else result.
(* 336-342 *)
Definition quadratic_value (q omega f_xf f_xf_inv feq : R) : R :=
  let t1 := f_xf - f_xf_inv + (f_xf + f_xf_inv - feq * omega) / (1 - omega) in
  let t2 := q * (f_xf + f_xf_inv) / (1 + q) in
  (1 - q) / (1 + q) * t1 * (1 / 2) + t2.
(* 300-342; [f]: the populations of the fluid cell *)
Definition quadratic (S : stencil) (inv : list nat) (ws : list R) (zc compr : bool) (force : option (force_model * list R))
  (omega q : R) (i : nat) : brule R :=
  {| b_reads := all_out S;
     b_fun := fun f =>
       let rho := pdf_density zc f in
       let u := equilibrium_velocity (dimD S) S zc compr force f in
       let k := tget inv i in
       let feq := quadratic_equilibrium zc compr (offset_of S i) u rho (nth i ws 0)
                  + quadratic_equilibrium zc compr (offset_of S k) u rho (nth k ws 0) in
       quadratic_value q omega (nth i f 0) (nth k f 0) feq |}.

(* ---------- FreeSlip: 360-483 ---------- *)
Definition nonzero_entries (n : vec) : vec := filter (fun z => negb (Z.eqb z 0)) n.
(* 379-391: checks and mirror axis (position of the first entry equal to the nonzero one) *)
Definition free_slip_axis (n : vec) : res nat :=
  match nonzero_entries n with
  | [z] => if (Z.eqb z 1 || Z.eqb z (-1))%bool then
             match index_of [z] (map (fun e => [e]) n) with Some a => Ok a | None => Err ValueError end
           else Err AssertionError
  | _ => Err ValueError
  end.
(* 467-471, 483: fixed normal; f_in.center is the cell itself *)
Definition free_slip (S : stencil) (inv mirrored : list nat) (normal : vec) (i : nat) : brule R :=
  {| b_reads := [FOut (vadd (offset_of S i) normal) (tget inv (tget mirrored i))]; b_fun := fun l => nth 0 l 0 |}.
(* 472-483: normal and reflected direction from the index array *)
Definition free_slip_data (S : stencil) (data : vec * nat) (i : nat) : brule R :=
  {| b_reads := [FOut (vadd (offset_of S i) (fst data)) (snd data)]; b_fun := fun l => nth 0 l 0 |}.
Section FreeSlipInit.
  Context (L : lattice) (S : stencil).
  (* 411-416: the set of boundary cells, here a list *)
  Definition boundary_cells (index_array : list (link L)) : list (cell L) :=
    map (fun l => shift (fst l) (offset_of S (snd l))) index_array.
  Definition is_boundary_cell (index_array : list (link L)) (x : cell L) : bool :=
    existsb (fun y => if cell_eq_dec x y then true else false) (boundary_cells index_array).
  (* 425-431: one axis; state = (normal direction, reflected direction) *)
  Definition only_component (d : vec) (a : nat) : vec :=
    map (fun p => if Nat.eqb (fst p) a then snd p else 0%Z) (enum d).
  Definition keep_components (axes : list nat) (d : vec) : vec :=
    map (fun p => if existsb (Nat.eqb (fst p)) axes then snd p else 0%Z) (enum d).
  (* the axes whose test cell is a boundary cell *)
  Definition normal_axes (index_array : list (link L)) (x : cell L) (d : vec) : list nat :=
    filter (fun a => is_boundary_cell index_array (shift x (only_component d a))) (seq 0 (length d)).
  (* 418-443: normal (wall to fluid) and reflected direction of one link *)
  Definition free_slip_init (index_array : list (link L)) (l : link L) : res (vec * nat) :=
    let d := offset_of S (snd l) in
    let axes := normal_axes index_array (fst l) d in
    let normal := keep_components axes d in
    let ref := fold_left (fun r a => negate_at a r) axes d in
    let (normal, ref) := if forallb (Z.eqb 0) normal then (d, ref) else (normal, vneg ref) in
    rbind (st_index S ref) (fun k => Ok (vneg normal, k)).
End FreeSlipInit.

(* ---------- UBB: 724-840 ---------- *)
(* 787-797: constant, access into a field at the boundary cell, or values of the index array *)
Inductive velocity_source (L : lattice) := VConst (v : list R) | VField (v : cell L -> list R) | VData (v : cell L -> nat -> list R).
Arguments VConst {L} _. Arguments VField {L} _. Arguments VData {L} _.
Definition ubb_velocity {L : lattice} (S : stencil) (src : velocity_source L) (x : cell L) (i : nat) : list R :=
  match src with VConst v => v | VField v => v (shift x (offset_of S i)) | VData v => v x i end.
(* 821-824: "if self._density" is false for None and for 0 *)
Definition ubb_density (zc : bool) (density : option R) (f : list R) : R :=
  match density with
  | Some d => if Req_EM_T d 0 then pdf_density zc f else d
  | None => pdf_density zc f
  end.
Definition ubb (S : stencil) (ws : list R) (zc compr : bool) (force : option (force_model * list R))
  (density : option R) (adapt : bool) (vel : list R) (i : nat) : res (brule R) :=
  if negb (Nat.eqb (length vel) (dimD S)) then Err AssertionError else
  Ok {| b_reads := all_out S;
        b_fun := fun f =>
          let rho := ubb_density zc density f in
          (* 799-803 *)
          let v := if adapt then init_velocity (dimD S) compr rho vel force else vel in
          (* 808-809 *)
          let vel_term := 2 / (1 / 3) * e_times_u (offset_of S i) v * nth i ws 0 in
          nth i f 0 - (if compr then vel_term * rho else vel_term) |}.

(* ---------- SimpleExtrapolationOutflow: 844-890 ---------- *)
Definition tangential (S : stencil) (normal : vec) (i : nat) : vec := vadd (offset_of S i) (vneg normal).
Definition simple_outflow (S : stencil) (inv : list nat) (normal : vec) (i : nat) : brule R :=
  {| b_reads := [FOut (tangential S normal i) (tget inv i)]; b_fun := fun l => nth 0 l 0 |}.

(* ---------- ExtrapolationOutflow: 894-1040 ---------- *)
(* 945, 1020-1027; dt and dx nonzero is the caller's obligation *)
Definition outflow_weight (dt dx : R) : R := sqrt (1 / 3) * (dx / dt) * (dt / dx).
Record outflow_data := { o_pdf : R; o_pdf_nd : R }.
Definition outflow_value (dt dx : R) (d : outflow_data) : R :=
  o_pdf d * outflow_weight dt dx + (1 - outflow_weight dt dx) * o_pdf_nd d.
(* 1029-1036; [v]: the population f_out[tangential_offset](inv_dir[dir]) *)
Definition outflow_update (dt dx : R) (d : outflow_data) (v : R) : outflow_data :=
  {| o_pdf := v; o_pdf_nd := outflow_value dt dx d |}.
(* 971-994: initial entries; [v] as above at setup, [eq]: equilibrium population if initial density and velocity are given *)
Definition outflow_init (eq : option R) (v : R) : outflow_data :=
  {| o_pdf := v; o_pdf_nd := match eq with Some e => e | None => v end |}.
(* the entry and the assigned value after the values v_0, ..., v_(n-1) were read in n steps *)
Fixpoint outflow_run (dt dx : R) (d : outflow_data) (vs : nat -> R) (n : nat) : outflow_data :=
  match n with O => d | Datatypes.S n => outflow_update dt dx (outflow_run dt dx d vs n) (vs n) end.

(* ---------- FixedDensity: 1044-1099 ---------- *)
(* velocity the equilibrium is evaluated with: equations from the pdfs with the density symbol replaced by the prescribed
   density (1084-1085) *)
Definition fixed_density_velocity (D : nat) (S : stencil) (compr : bool) (force : option (force_model * list R))
  (density : R) (f : list R) : list R :=
  let ref := reference_density compr density in
  let u := map (fun a => pdf_momentum S f a / ref) (seq 0 D) in
  match force with None => u | Some (fm, F) => radd u (equilibrium_velocity_shift fm ref F) end.
(* pystencils get_symmetric_part: (expr + expr[u -> -u]) / 2.  [E]: get_equilibrium() of the method *)
Definition symmetric_equilibrium (E : R -> list R -> list R) (rho : R) (u : list R) (i : nat) : R :=
  (nth i (E rho u) 0 + nth i (E rho (map Ropp u)) 0) / 2.
Definition fixed_density (S : stencil) (E : R -> list R -> list R) (compr : bool) (force : option (force_model * list R))
  (density : R) (i : nat) : brule R :=
  {| b_reads := all_out S;
     b_fun := fun f =>
       2 * symmetric_equilibrium E density (fixed_density_velocity (dimD S) S compr force density f) i - nth i f 0 |}.

(* ---------- DiffusionDirichlet: 1104-1181 ---------- *)
(* 1167-1176: cs is set to 1/3 and used as c_s *)
Definition diffusion_equilibrium (c : vec) (velocity : option (list R)) : R :=
  match velocity with
  | None => 1
  | Some u => 1 + e_times_u c u ^ 2 / (2 * (1 / 3) ^ 4) - u_times_u u / (2 * (1 / 3) ^ 2)
  end.
Definition diffusion_dirichlet (S : stencil) (ws : list R) (zc : bool) (concentration : R) (velocity : option (list R))
  (i : nat) : res (brule R) :=
  if zc then Err AssertionError else
  Ok {| b_reads := [FOut (here S) i];
        b_fun := fun l => 2 * nth i ws 0 * concentration * diffusion_equilibrium (offset_of S i) velocity - nth 0 l 0 |}.

(* ---------- boundaries with two assignments: NeumannByCopy 1187-1206, StreamInConstant 1211-1238 ---------- *)
Notation assignment := (pacc * brule R)%type.
Definition neumann_by_copy (S : stencil) (inv : list nat) (i : nat) : list assignment :=
  [(FIn (here S) (tget inv i), {| b_reads := [FOut (here S) (tget inv i)]; b_fun := fun l => nth 0 l 0 |});
   (FOut (offset_of S i) i, {| b_reads := [FOut (here S) i]; b_fun := fun l => nth 0 l 0 |})].
Definition stream_in_constant (S : stencil) (inv : list nat) (c : R) (i : nat) : list assignment :=
  [(FIn (here S) (tget inv i), {| b_reads := []; b_fun := fun _ => c |});
   (FOut (offset_of S i) i, {| b_reads := []; b_fun := fun _ => c |})].
Section Multi.
  Context (L : lattice).
  (* one assignment, executed in program order *)
  Definition exec_assignment (outs ins : list access) (x : cell L) (m : mem L R) (a : assignment) : res (mem L R) :=
    rbind (mapM (resolve outs ins) (b_reads (snd a))) (fun rs =>
    rbind (resolve outs ins (fst a)) (fun w =>
      Ok (upd L R m (shift x (off w)) (idx w) (b_fun (snd a) (load L R m x rs))))).
  Definition multi_link (outs ins : list access) (rule : cell L -> nat -> list assignment) (m : mem L R) (l : link L) : res (mem L R) :=
    foldM (exec_assignment outs ins (fst l)) (rule (fst l) (snd l)) m.
  Definition multi_boundary (p : pattern) (prev : timestep) (S : stencil) (rule : cell L -> nat -> list assignment)
    (links : list (link L)) (s : state L R) : res (state L R) :=
    rbind (between_timesteps p prev S) (fun oi =>
    rbind (foldM (multi_link (fst oi) (snd oi) rule) links (src s)) (fun m => Ok {| src := m; tmp := tmp s |})).

  (* ---------- boundaryhandling.py:96-154 ---------- *)
  (* utility.py:115-136: populations of the index list.  A negative or too large index does not occur. *)
  Definition collect (accs : list access) (m : mem L R) (l : list (link L)) : res (list R) :=
    mapM (fun xi => match nth_error accs (snd xi) with
                    | Some a => Ok (m (shift (fst xi) (off a)) (idx a)) | None => Err IndexError end) l.
  Definition sum_forces (S : stencil) (a : nat) (links : list (link L)) (values : list R) : R :=
    rsum (map (fun lv => IZR (nth a (offset_of S (snd (fst lv))) 0%Z) * snd lv) (combine links values)).
  (* 105-124: component a *)
  Definition force_on_no_slip (p : pattern) (prev : timestep) (S : stencil) (a : nat) (links : list (link L)) (m : mem L R) : res R :=
    rbind (get_accessor p prev) (fun acc => rbind (acc_write acc S) (fun ws =>
    rbind (collect ws m links) (fun v => Ok (sum_forces S a links (map (Rmult 2) v))))).
  (* 126-154; inner_or_boundary is True for every boundary of the library *)
  Definition force_on_other (p : pattern) (prev : timestep) (S : stencil) (a : nat) (links : list (link L)) (m : mem L R) : res R :=
    rbind (inverse_dirs S) (fun inv =>
    rbind (get_accessor p prev) (fun acc => rbind (acc_write acc S) (fun ws =>
    rbind (get_accessor p (ts_next prev)) (fun acc' => rbind (acc_read acc' S) (fun rs =>
    rbind (collect ws m links) (fun fluid_values =>
    rbind (collect rs m (map (fun l => (fst l, tget inv (snd l))) links)) (fun boundary_values =>
      Ok (sum_forces S a links (map (fun p => fst p + snd p) (combine fluid_values boundary_values)))))))))).
  (* 98-103: runs the boundary kernel, then evaluates; is_no_slip: isinstance(boundary_obj, NoSlip) *)
  Definition force_on_boundary (is_no_slip : bool) (p : pattern) (prev : timestep) (S : stencil) (a : nat)
    (rule : cell L -> nat -> brule R) (links : list (link L)) (s : state L R) : res (state L R * R) :=
    rbind (boundary L R p prev S rule links s) (fun s' =>
    rbind (if is_no_slip then force_on_no_slip p prev S a links (src s') else force_on_other p prev S a links (src s')) (fun F =>
      Ok (s', F))).
End Multi.
