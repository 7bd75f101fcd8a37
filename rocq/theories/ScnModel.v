(* Model of src/lbmpy/scenarios.py and src/lbmpy/geometry.py: which boundary is set on which cell of the ready-made set-ups, and their velocity
   profiles; of src/lbmpy/phasefield/post_processing.py the Neumann angles.  A cell is given by its array indices with the ghost layer: along axis k
   the indices 0 and shape_k + 1 are ghost cells.  Flag fields, masks and slices belong to pystencils; here set_boundary with replace=True is an
   assignment of the boundary to a set of cells.  Data handling is created by the functions themselves (data_handling=None). *)
From Coq Require Import List ZArith Bool Arith Reals.
From Verif Require Import StencilModel AccessModel RealLib LinLib StreamModel CollModel BoundModel.
Import ListNotations.
Local Open Scope R_scope.

Inductive side := West | East | South | North | Bottom | Top.
Definition side_axis (s : side) : nat := match s with West | East => 0%nat | South | North => 1%nat | Bottom | Top => 2%nat end.
Definition side_high (s : side) : bool := match s with East | North | Top => true | _ => false end.
(* pystencils slice_from_direction without offsets: index 0 or -1 along the axis of the side, all indices along the others *)
Definition on_side (shape : list Z) (s : side) (x : list Z) : bool :=
  Z.eqb (nth (side_axis s) x 0%Z) (if side_high s then nth (side_axis s) shape 0%Z + 1 else 0)%Z.
(* calls of set_boundary, in order: a later call overwrites an earlier one.  None: fluid *)
Definition flag {W : Type} (calls : list (W * (list Z -> bool))) (x : list Z) : option W := fold_left (fun o c => if (snd c : list Z -> bool) x then Some (fst c) else o) calls (None : option W).

(* geometry.py:8-26 add_box_boundary *)
Definition box_sides (dim : nat) : list side := [North; South; East; West] ++ (if Nat.eqb dim 3 then [Top; Bottom] else []).
Definition add_box_boundary {W : Type} (shape : list Z) (w : W) : list (W * (list Z -> bool)) := map (fun s => (w, on_side shape s)) (box_sides (length shape)).

(* scenarios.py:97-100 create_lid_driven_cavity, after the creation of the step *)
Inductive wall := Lid (velocity : list R) | Resting.
Definition cavity_walls (shape : list Z) (lid_velocity : R) : list (wall * (list Z -> bool)) :=
  (Lid (firstn (length shape) [lid_velocity; 0; 0]), on_side shape North)
  :: map (fun s => (Resting, on_side shape s)) (if Nat.eqb (length shape) 2 then [West; East; South] else [West; East; South; Top; Bottom]).
(* rule of the link in direction i of cell x: that of the wall at its end; UBB(velocity): boundaryconditions.py, no density, velocity not adapted *)
Definition wall_rule (S : stencil) (ws : list R) (zc compr : bool) (force : option (force_model * list R)) (w : option wall) (i : nat) : res (brule R) :=
  match w with
  | Some (Lid u) => ubb S ws zc compr force None false u i
  | Some Resting => Ok (no_slip S i)
  | None => Err KeyError
  end.

(* Python's round: to the nearest integer, halves to the even one *)
Definition py_round (x : R) : Z :=
  let k := Int_part x in
  let r := x - IZR k in
  if Rlt_dec r (1 / 2) then k else if Rlt_dec (1 / 2) r then (k + 1)%Z else if Z.even k then k else (k + 1)%Z.
(* cell midpoints handed to mask callbacks, by the index with ghost layer *)
Definition midpoint (z : Z) : R := IZR z - 1 / 2.
Definition square_distance (centre x : list R) : R := rsum (map (fun cx => (snd cx - fst cx) ^ 2) (combine centre x)).

(* geometry.py:88-121 add_pipe_walls: the callback, for flow along x; [diameter] by the x coordinate (a constant is a constant function) *)
Definition pipe_wall (shape : list Z) (diameter : R -> R) (x : list Z) : bool :=
  let radius_sq := (diameter (midpoint (nth 0 x 0%Z)) / 2) ^ 2 in
  let mid := map (fun n => IZR (n / 2)) (tl shape) in
  if Rlt_dec radius_sq (square_distance mid (map midpoint (tl x))) then true else false.
(* geometry.py:29-33 add_sphere: the callback takes two coordinates *)
Definition in_sphere (midpoint_ : list R) (radius : R) (x : list Z) : res bool :=
  match x with
  | [x0; x1] => Ok (if Rlt_dec ((midpoint x0 - nth 0 midpoint_ 0) ^ 2 + (midpoint x1 - nth 1 midpoint_ 0) ^ 2) (radius ^ 2) then true else false)
  | _ => Err TypeError
  end.

(* the elements but the k-th one *)
Definition without {T : Type} (k : nat) (l : list T) : list T := firstn k l ++ skipn (Datatypes.S k) l.
Definition minimum (l : list Z) : Z := match l with [] => 0%Z | x :: l => fold_left Z.min l x end.
(* geometry.py:62-65 and 145-148 *)
Definition pipe_radius (shape : list Z) (flow : nat) (diameter : option R) : Z :=
  py_round (match diameter with None => IZR (minimum (without flow shape)) | Some d => d end / 2).
Definition pipe_centre (shape : list Z) (flow : nat) : list R := map (fun n => IZR (py_round (IZR n / 2))) (without flow shape).
Definition pipe_profile (u_max dist_sq radius : R) : option R := obind (rdiv (sqrt dist_sq) radius) (fun q => Some (u_max * (1 - q ^ 2))).
(* geometry.py:124-163 get_pipe_velocity_field: flow component in the cell with index x (without ghost layer); the others are zero; None: radius 0 *)
Definition pipe_velocity (shape : list Z) (u_max : R) (flow : nat) (diameter : option R) (x : list Z) : option R :=
  pipe_profile u_max (square_distance (pipe_centre shape flow) (map (fun z => IZR z + 1 / 2) (without flow x))) (IZR (pipe_radius shape flow diameter)).
(* geometry.py:36-85 add_pipe_inflow_boundary: flow component of the velocity at link position y *)
Definition inflow_velocity (shape : list Z) (u_max : R) (flow : nat) (diameter : option R) (y : list R) : res (option R) :=
  let radius := IZR (pipe_radius shape flow diameter) in
  match length shape with
  | 3%nat => Ok (pipe_profile u_max (square_distance (pipe_centre shape flow) (without flow y)) radius)
  | 2%nat => Ok (pipe_profile u_max (square_distance [radius] (without flow y)) radius)
  | _ => Err ValueError
  end.
(* geometry.py:166-190 get_shear_flow_velocity_field: x component in the cell with index x (without ghost layer); the others are random numbers *)
Definition shear_layer (shape : list Z) (u_max : R) (x : list Z) : R :=
  let height := if Nat.eqb (length shape) 3 then nth 2 shape 0%Z else nth 1 shape 0%Z in
  let z := last x 0%Z in
  if ((height / 3 <=? z) && (z <? height / 3 * 2))%Z%bool then - u_max else u_max.

(* scenarios.py:105-172 create_channel: periodicity, force and the calls of set_boundary.  The wall boundary is the one passed in.
   [callback]: diameter by the x coordinate.  Truth value of a number: nonzero *)
Inductive opening := ChannelWall | Density (rho : R) | Inflow (u_max diameter : R).
Record channel := { ch_periodic : list bool; ch_force : option (list R); ch_calls : list (opening * (list Z -> bool)) }.
Definition truth (p : option R) : bool := match p with Some x => if Req_EM_T x 0 then false else true | None => false end.
Definition create_channel (domain_size : list Z) (force pressure_difference u_max : option R) (callback : option (R -> R)) (duct : bool) : res channel :=
  let dim := length domain_size in
  if negb (Nat.eqb (length (filter truth [force; pressure_difference; u_max])) 1) then Err ValueError
  else if negb (Nat.eqb dim 2 || Nat.eqb dim 3) then Err AssertionError
  else
    let num p := match p with Some x => x | None => 0 end in
    rbind (if truth force then Ok (Some (firstn dim [num force; 0; 0]), [])
           else if truth pressure_difference then Ok (None, [(Density (1 + num pressure_difference), on_side domain_size West); (Density 1, on_side domain_size East)])
           else if duct then Err NotImplementedError
           else Ok (None, [(Inflow (num u_max) (match callback with Some d => d 0 | None => IZR (minimum (tl domain_size)) end), on_side domain_size West); (Density 1, on_side domain_size East)]))
    (fun driven =>
      let walls := map (fun s => (ChannelWall, on_side domain_size s)) (if Nat.eqb dim 3 then [North; South; Top; Bottom] else [North; South]) in
      if duct then
        match callback with
        | Some _ => Err ValueError
        | None => Ok {| ch_periodic := firstn dim [truth force; false; false]; ch_force := fst driven; ch_calls := snd driven ++ walls |}
        end
      else
        let diameter := match callback with Some d => d | None => fun _ => IZR (minimum (tl domain_size)) end in
        Ok {| ch_periodic := firstn dim [truth force; false; false]; ch_force := fst driven; ch_calls := snd driven ++ walls ++ [(ChannelWall, pipe_wall domain_size diameter)] |}).

(* phasefield/post_processing.py:135-149 analytic_neumann_angles, in degrees *)
Definition neumann_angles (kappas : list R) : list R :=
  let g i j := nth i kappas 0 + nth j kappas 0 in
  [ acos (- ((g 0%nat 1%nat) ^ 2 + (g 0%nat 2%nat) ^ 2 - (g 1%nat 2%nat) ^ 2) / 2 / g 0%nat 1%nat / g 0%nat 2%nat) * 180 / PI;
    acos (- ((g 0%nat 1%nat) ^ 2 + (g 1%nat 2%nat) ^ 2 - (g 0%nat 2%nat) ^ 2) / 2 / g 0%nat 1%nat / g 1%nat 2%nat) * 180 / PI;
    acos (- ((g 1%nat 2%nat) ^ 2 + (g 0%nat 2%nat) ^ 2 - (g 0%nat 1%nat) ^ 2) / 2 / g 1%nat 2%nat / g 0%nat 2%nat) * 180 / PI ].
