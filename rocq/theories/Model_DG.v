(** Model of the residual of the discontinuous Galerkin schemes.
    Sources: include/mini/spatial/dg/general.hpp and include/mini/spatial/fem.hpp.
    A cell is what the residual needs of it: its number, its quadrature points, the values and gradients
    of its basis and of its solution, and the matrix of the flux at its quadrature points; a face has quadrature
    points and a Riemann solver, i.e. seven flux functions, at each of them.  All of those are arbitrary
    functions.  Ghost cells are cells whose values have been received from their owners. *)
From Coq Require Import Reals List Arith String.
From Verif Require Import Vec3 Arrays RSum Model_Dofs.
Import ListNotations.
Open Scope R_scope.

Definition value := nat -> R.

Record cell := Cell {
  c_id : nat;                            (* [id()] *)
  c_points : nat;                        (* [gauss().CountPoints()] *)
  c_coord : nat -> vec;                  (* [gauss().GetGlobalCoord(q)] *)
  c_weight : nat -> R;                   (* [gauss().GetGlobalWeight(q)] *)
  c_basis : vec -> nat -> R;             (* [GlobalToBasisValues(xyz)] *)
  c_gradients : vec -> nat -> vec;       (* columns of [projection().GlobalToBasisGradients(xyz)] *)
  c_value : vec -> value;                (* [GlobalToValue(xyz)] *)
  c_flux : nat -> nat -> vec             (* rows of [cell_to_flux(cell, q)] *)
}.

(** include/mini/riemann/concept.hpp and the classes of include/mini/riemann/rotated: the flux functions *)
Record riemann := Riemann {
  GetFluxUpwind : value -> value -> value;
  GetFluxOnSolidWall : value -> value;
  GetFluxOnSupersonicOutlet : value -> value;
  GetFluxOnSupersonicInlet : value -> value;
  GetFluxOnSubsonicInlet : value -> value -> value;
  GetFluxOnSubsonicOutlet : value -> value -> value;
  GetFluxOnSmartBoundary : value -> value -> value
}.

(** part.hpp:102-180 *)
Record face := Face {
  holder : cell;
  sharer : cell;                         (* not used by faces on a boundary *)
  f_points : nat;
  f_coord : nat -> vec;
  f_weight : nat -> R;
  f_riemann : nat -> riemann
}.

(** what the schemes use of a part *)
Record part := Part {
  local_cells : list cell;               (* [GetLocalCells()] *)
  local_faces : list face;
  ghost_faces : list face;
  boundary_faces : string -> list face   (* [GetBoundaryFaces(name)] *)
}.

(** a boundary condition given by a function of the position and of the time: fem.hpp:56 *)
Definition func := vec -> R -> value.

(** fem.hpp:55-61: the boundary conditions that have been set, and the current time *)
Record fem := Fem {
  solid_wall : list string;
  supersonic_outlet : list string;
  supersonic_inlet : list (string * func);
  subsonic_inlet : list (string * func);
  subsonic_outlet : list (string * func);
  smart_boundary : list (string * func);
  t_curr : R
}.

(** fem.hpp:142-144 *)
Definition SetSolidWall (s : fem) (name : string) : fem :=
  Fem (solid_wall s ++ [name]) (supersonic_outlet s) (supersonic_inlet s)
      (subsonic_inlet s) (subsonic_outlet s) (smart_boundary s) (t_curr s).
(** fem.hpp:145-147 *)
Definition SetSupersonicOutlet (s : fem) (name : string) : fem :=
  Fem (solid_wall s) (supersonic_outlet s ++ [name]) (supersonic_inlet s)
      (subsonic_inlet s) (subsonic_outlet s) (smart_boundary s) (t_curr s).
(** [std::unordered_map::operator[]] followed by an assignment; the order of the entries is unspecified in C++ *)
Fixpoint map_set (m : list (string * func)) (name : string) (f : func) : list (string * func) :=
  match m with
  | [] => [(name, f)]
  | (n, g) :: t => if String.eqb n name then (n, f) :: t else (n, g) :: map_set t name f
  end.
(** fem.hpp:130-133 *)
Definition SetSupersonicInlet (s : fem) (name : string) (f : func) : fem :=
  Fem (solid_wall s) (supersonic_outlet s) (map_set (supersonic_inlet s) name f)
      (subsonic_inlet s) (subsonic_outlet s) (smart_boundary s) (t_curr s).
(** fem.hpp:134-137 *)
Definition SetSubsonicInlet (s : fem) (name : string) (f : func) : fem :=
  Fem (solid_wall s) (supersonic_outlet s) (supersonic_inlet s)
      (map_set (subsonic_inlet s) name f) (subsonic_outlet s) (smart_boundary s) (t_curr s).
(** fem.hpp:138-141 *)
Definition SetSubsonicOutlet (s : fem) (name : string) (f : func) : fem :=
  Fem (solid_wall s) (supersonic_outlet s) (supersonic_inlet s)
      (subsonic_inlet s) (map_set (subsonic_outlet s) name f) (smart_boundary s) (t_curr s).
(** fem.hpp:126-129 *)
Definition SetSmartBoundary (s : fem) (name : string) (f : func) : fem :=
  Fem (solid_wall s) (supersonic_outlet s) (supersonic_inlet s)
      (subsonic_inlet s) (subsonic_outlet s) (map_set (smart_boundary s) name f) (t_curr s).

Section DG.
  Variables K N kDegrees : nat.

  (** [Coeff prod = flux * basis_values], a column times a row *)
  Definition outer (flux : value) (basis : nat -> R) : coeff := fun r c => flux r * basis c.
  (** [flux *= weight] *)
  Definition scale (w : R) (flux : value) : value := fun r => flux r * w.
  (** [for (int q = 0; q < n; ++q)] *)
  Definition for_q {S : Type} (n : nat) (body : S -> nat -> S) (s : S) : S := fold_left body (seq 0 n) s.

  (** general.hpp:50-61 *)
  Definition AddFluxDivergence_cell (c : cell) (data : nat) (m : nat -> R) : nat -> R :=
    for_q (c_points c) (fun m q =>
      let xyz := c_coord c q in
      let flux := fun r => vscale (c_weight c q) (c_flux c q r) in
      let grad := c_gradients c xyz in
      let prod := fun r j => dot (flux r) (grad j) in
      AddCoeffTo K N prod data m) m.

  (** the number of cells of a part *)
  Definition n_cells (p : part) : nat := List.length (local_cells p).
  Definition with_mem (col : column) (m : nat -> R) : column := Col (size col) m.

  (** fem.hpp:247-253 *)
  Definition AddFluxDivergence_base (p : part) (residual : column) : option column :=
    foldM (fun residual c =>
      do data <- AddCellDataOffset K N (n_cells p) residual (c_id c);
      Some (with_mem residual (AddFluxDivergence_cell c data (at_ residual)))) (local_cells p) residual.
  (** general.hpp:62-68 *)
  Definition AddFluxDivergence (p : part) (residual : column) : option column :=
    if (0 <? kDegrees)%nat then AddFluxDivergence_base p residual else Some residual.

  (** general.hpp:69-88 *)
  Definition AddFluxOnLocalFace (p : part) (residual : column) (f : face) : option column :=
    do holder_data <- AddCellDataOffset K N (n_cells p) residual (c_id (holder f));
    do sharer_data <- AddCellDataOffset K N (n_cells p) residual (c_id (sharer f));
    Some (with_mem residual (for_q (f_points f) (fun m q =>
      let coord := f_coord f q in
      let u_holder := c_value (holder f) coord in
      let u_sharer := c_value (sharer f) coord in
      let flux := scale (f_weight f q) (GetFluxUpwind (f_riemann f q) u_holder u_sharer) in
      let m := MinusCoeff K N (outer flux (c_basis (holder f) coord)) holder_data m in
      AddCoeffTo K N (outer flux (c_basis (sharer f) coord)) sharer_data m) (at_ residual))).
  Definition AddFluxOnLocalFaces (p : part) (residual : column) : option column :=
    foldM (AddFluxOnLocalFace p) (local_faces p) residual.

  (** the common shape of the loops of general.hpp:89-105 and 108-212: subtract a flux from the holder *)
  Definition minus_on_face (p : part) (flux_at : face -> nat -> value) (residual : column) (f : face) : option column :=
    do holder_data <- AddCellDataOffset K N (n_cells p) residual (c_id (holder f));
    Some (with_mem residual (for_q (f_points f) (fun m q =>
      let coord := f_coord f q in
      let flux := scale (f_weight f q) (flux_at f q) in
      MinusCoeff K N (outer flux (c_basis (holder f) coord)) holder_data m) (at_ residual))).

  Definition upwind_at (f : face) (q : nat) : value :=
    GetFluxUpwind (f_riemann f q) (c_value (holder f) (f_coord f q)) (c_value (sharer f) (f_coord f q)).
  (** general.hpp:89-105 *)
  Definition AddFluxOnGhostFaces (p : part) (residual : column) : option column :=
    foldM (minus_on_face p upwind_at) (ghost_faces p) residual.

  (** the fluxes of general.hpp:117, 134, 151, 169, 187 and 205 *)
  Definition wall_at (f : face) (q : nat) : value :=
    GetFluxOnSolidWall (f_riemann f q) (c_value (holder f) (f_coord f q)).
  Definition sup_out_at (f : face) (q : nat) : value :=
    GetFluxOnSupersonicOutlet (f_riemann f q) (c_value (holder f) (f_coord f q)).
  Definition sup_in_at (t : R) (given : func) (f : face) (q : nat) : value :=
    GetFluxOnSupersonicInlet (f_riemann f q) (given (f_coord f q) t).
  Definition sub_in_at (t : R) (given : func) (f : face) (q : nat) : value :=
    GetFluxOnSubsonicInlet (f_riemann f q) (c_value (holder f) (f_coord f q)) (given (f_coord f q) t).
  Definition sub_out_at (t : R) (given : func) (f : face) (q : nat) : value :=
    GetFluxOnSubsonicOutlet (f_riemann f q) (c_value (holder f) (f_coord f q)) (given (f_coord f q) t).
  Definition smart_at (t : R) (given : func) (f : face) (q : nat) : value :=
    GetFluxOnSmartBoundary (f_riemann f q) (c_value (holder f) (f_coord f q)) (given (f_coord f q) t).

  (** the loops over names of general.hpp:109-110, 126-127 *)
  Definition on_names (p : part) (flux_at : face -> nat -> value) (names : list string) (residual : column) : option column :=
    foldM (fun residual name => foldM (minus_on_face p flux_at) (boundary_faces p name) residual) names residual.
  (** the loops over pairs of general.hpp:143-144, 160-161, 178-179, 196-197 *)
  Definition on_pairs (p : part) (flux_at : func -> face -> nat -> value) (l : list (string * func)) (residual : column) : option column :=
    foldM (fun residual '(name, given) => foldM (minus_on_face p (flux_at given)) (boundary_faces p name) residual) l residual.

  (** fem.hpp:185-226, in the order of the calls *)
  Definition AddFluxOnBoundaries (s : fem) (p : part) (residual : column) : option column :=
    do residual <- on_names p wall_at (solid_wall s) residual;
    do residual <- on_pairs p (sup_in_at (t_curr s)) (supersonic_inlet s) residual;
    do residual <- on_names p sup_out_at (supersonic_outlet s) residual;
    do residual <- on_pairs p (sub_in_at (t_curr s)) (subsonic_inlet s) residual;
    do residual <- on_pairs p (sub_out_at (t_curr s)) (subsonic_outlet s) residual;
    on_pairs p (smart_at (t_curr s)) (smart_boundary s) residual.

  (** fem.hpp:173-183; the exchange of ghost values is part of the cells' values here *)
  Definition GetResidualColumn (s : fem) (p : part) : option column :=
    do sz <- GetCellDataSize K N (n_cells p);
    let residual := Col sz (fun _ => 0) in
    do residual <- AddFluxDivergence p residual;
    do residual <- AddFluxOnLocalFaces p residual;
    do residual <- AddFluxOnBoundaries s p residual;
    AddFluxOnGhostFaces p residual.
End DG.
