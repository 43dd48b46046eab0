(** Model of the elements of the Python package for flux reconstruction with Lagrange expansions: element.py, lines
    169-440.  As in Model_PyElement there is one expansion per component.  [None]: an exception, or a division by zero.
    [LegendreFR] (element.py 467-520) is not modelled. *)
From Coq Require Import Reals List Arith Bool.
From Verif Require Import Arrays RSum Model_PyEuler Model_PyPoly Model_PyIntegrator Model_PyExpansion Model_PyNodal Model_PyElement.
From Verif Require Model_PyRiemann.
Import ListNotations.
Open Scope R_scope.

(** a [Polynomial] used as correction function (concept.py 8-31): [degree], [local_to_value], [local_to_gradient] *)
Record Correction := mkCorrection { g_degree : nat; g_at : R -> R * R; g_slope : R -> R * R }.
(** the classes of polynomial.py (21-51, 144-186, 63-117) *)
Definition radau_correction (degree : nat) : Correction := mkCorrection degree (Radau_value degree) (Radau_gradient degree).
Definition vincent_correction (v : Vincent) : Correction := mkCorrection (Vincent_degree v) (Vincent_value v) (Vincent_gradient v).
Definition huynh_correction (degree : nat) (c : nat -> R) : Correction := mkCorrection degree (Huynh_value degree c) (Huynh_gradient degree c).
(** the assertion of [FluxReconstruction.add_correction_function] (element.py 182-184) *)
Definition add_correction_function (e : Lagrange) (g : Correction) : option Correction :=
  if (g_degree g =? (g_n e - 1) + 1)%nat then Some g else None.
(** [get_correction_gradients] (element.py 186-194); [LagrangeFR] keeps the values at the sample points (element.py
    217-226), they are computed again here *)
Definition correction_gradients (e : Lagrange) (g : Correction) (x : R) : option (R * R) :=
  do xi <- global_to_local (g_coordinate e) x;
  let (left, right) := g_slope g xi in
  let jacobian := local_to_jacobian (g_coordinate e) xi in
  do left <- div left jacobian; do right <- div right jacobian; Some (left, right).
(** [LagrangeFR.get_fr_flux] (element.py 237-246) *)
Definition fr_flux (q : Equation) (es : nat -> Lagrange) (g : Correction) (m : nat) (left_flux right_flux : R) (x : R) : option R :=
  let flux := nodal_flux q es x m in
  let c := g_coordinate (es m) in
  do xi <- global_to_local c x;
  let (left, right) := g_at g xi in
  let flux := flux + left * (left_flux - nodal_flux q es (x_left c) m) in
  Some (flux + right * (right_flux - nodal_flux q es (x_right c) m)).
(** [LagrangeFR.get_dg_flux_gradient] (element.py 248-262) *)
Definition dg_flux_gradient (q : Equation) (es : nat -> Lagrange) (m : nat) (x : R) : R :=
  rsum (g_n (es m)) (fun i => node_flux q es i m * g_basis_gradients (es m) x i).
(** [LagrangeFR.get_fr_flux_gradient] (element.py 274-284) *)
Definition fr_flux_gradient (q : Equation) (es : nat -> Lagrange) (g : Correction) (m : nat) (left_flux right_flux : R) (x : R) : option R :=
  let c := g_coordinate (es m) in
  let left_gap := left_flux - nodal_flux q es (x_left c) m in
  let right_gap := right_flux - nodal_flux q es (x_right c) m in
  let gradient := dg_flux_gradient q es m x in
  do s <- correction_gradients (es m) g x;
  let gradient := gradient + fst s * left_gap in
  Some (gradient + snd s * right_gap).
(** [get_interior_residual] of [LagrangeFR] (element.py 264-272) and [FRonGaussPoints] (element.py 397-413) *)
Definition fr_interior (kind : Kind) (q : Equation) (es : nat -> Lagrange) (m i : nat) : R :=
  match kind with
  | UniformRoots => - dg_flux_gradient q es m (g_points (es m) i)
  | _ => - dot (g_n (es m)) (fun j => node_flux q es j m) (g_node_basis (es m) i 1)
  end.
(** the discontinuous flux at an end in [add_interface_residual] of [LagrangeFR] (element.py 288-291) and
    [FRonGaussPoints] (element.py 418-423) *)
Definition end_flux (kind : Kind) (q : Equation) (es : nat -> Lagrange) (m : nat) (left : bool) : R :=
  let c := g_coordinate (es m) in
  let x := if left then x_left c else x_right c in
  match kind with
  | UniformRoots => nodal_flux q es x m
  | _ => dg_flux q x (fun k => g_boundary kind (es k) 0 left) (fun k => g_boundary kind (es k) 1 left) m
  end.
(** an array of [n] entries computed one after the other *)
Fixpoint gather (n : nat) (f : nat -> option R) : option (nat -> R) :=
  match n with
  | O => Some (fun _ => 0)
  | S n => do a <- gather n f; do v <- f n; Some (fun k => if (k =? n)%nat then v else a k)
  end.
(** the residual of the component [m]: [get_interior_residual], then [add_interface_residual] (element.py 286-297,
    415-428); [add_interface_correction] does nothing (concept.py 747-749, element.py 430-432) and neither does
    [divide_mass_matrix] (element.py 234-235) *)
Definition fr_residual (kind : Kind) (q : Equation) (es : nat -> Lagrange) (g : Correction) (m : nat) (left_flux right_flux : R) : option (nat -> R) :=
  let left_gap := left_flux - end_flux kind q es m true in
  let right_gap := right_flux - end_flux kind q es m false in
  gather (g_n (es m)) (fun i =>
    do s <- correction_gradients (es m) g (g_points (es m) i);
    Some (fr_interior kind q es m i - fst s * left_gap - snd s * right_gap)).

(** ** [get_dissipation_matrices] (element.py 299-371) *)
Record Dissipation := mkDissipation { mat_b : nat -> nat -> R; mat_c : nat -> nat -> R; mat_d : nat -> nat -> R; mat_e : nat -> nat -> R; mat_f : nat -> nat -> R }.
(** [get_interface_gradient] of arrays (riemann.py 54-60) *)
Definition interface_gradients (h_left h_right : R) (u_jump du_mean ddu_jump : nat -> R) (l : nat) : R :=
  Model_PyRiemann.get_interface_gradient h_left h_right (u_jump l) (du_mean l) (ddu_jump l).
Definition g_length (e : Lagrange) : R := length_of (g_coordinate e).
Definition dissipation_matrices (kind : Kind) (curr : Lagrange) (left right : option Lagrange) (g : Correction) : option Dissipation :=
  let n := g_n curr in
  let a i := g_node_basis curr i 1 in
  let b k l := rsum n (fun i => a k i * a i l) in
  let curr_left := g_boundary_basis kind curr 0 true in
  let curr_right := g_boundary_basis kind curr 0 false in
  do gl <- gather n (fun i => do s <- correction_gradients curr g (g_points curr i); Some (fst s));
  do gr <- gather n (fun i => do s <- correction_gradients curr g (g_points curr i); Some (snd s));
  let c k l := rsum n (fun i => (gr k * curr_right i + gl k * curr_left i) * a i l) in
  let d_minus_left := match left with None => fun _ => 0 | Some e =>
    interface_gradients (g_length e) (g_length curr) (fun l => curr_left l)
      (fun l => / 2 * g_boundary_basis kind curr 1 true l) (fun l => g_boundary_basis kind curr 2 true l) end in
  let d_minus_right := match right with None => fun _ => 0 | Some e =>
    interface_gradients (g_length curr) (g_length e) (fun l => - curr_right l)
      (fun l => / 2 * g_boundary_basis kind curr 1 false l) (fun l => - g_boundary_basis kind curr 2 false l) end in
  let d k l := gr k * d_minus_right l + gl k * d_minus_left l in
  let d_plus_left := match left with None => fun _ => 0 | Some e =>
    interface_gradients (g_length e) (g_length curr) (fun l => - g_boundary_basis kind e 0 false l)
      (fun l => / 2 * g_boundary_basis kind e 1 false l) (fun l => - g_boundary_basis kind e 2 false l) end in
  let d_plus_right := match right with None => fun _ => 0 | Some e =>
    interface_gradients (g_length curr) (g_length e) (fun l => g_boundary_basis kind e 0 true l)
      (fun l => / 2 * g_boundary_basis kind e 1 true l) (fun l => g_boundary_basis kind e 2 true l) end in
  Some (mkDissipation b c d (fun k l => gl k * d_plus_left l) (fun k l => gr k * d_plus_right l)).
