(** Model of the elements of the Python package for discontinuous Galerkin schemes: element.py, lines 15-166, with
    concept.py, lines 630-664 and 733-749.  An element has one expansion per component of the equations; the arrays
    over components of the code are functions of the component; the [np.tensordot]s with 0 axes are products of the
    entries.  [np.linalg.solve] is a parameter.  [None]: an exception, or a division by zero. *)
From Coq Require Import Reals List Arith Bool.
From Verif Require Import Arrays RSum Model_PyEuler Model_PyPoly Model_PyIntegrator Model_PyExpansion Model_PyNodal.
Import ListNotations.
Open Scope R_scope.

(** the equations: [get_convective_flux], and [get_diffusive_flux] with the extra viscosity at a point if there is one
    or if the equations are not inviscid (concept.py 658-660, 634-644) *)
Record Equation := mkEquation { convective : (nat -> R) -> nat -> R; diffusive : option (R -> (nat -> R) -> (nat -> R) -> nat -> R) }.
(** [Element.get_dg_flux] (concept.py 646-661) with given values and gradients *)
Definition dg_flux (q : Equation) (x : R) (u du : nat -> R) (m : nat) : R :=
  match diffusive q with None => convective q u m | Some d => convective q u m - d x u du m end.
(** ... and with those of the expansions *)
Definition legendre_flux (q : Equation) (es : nat -> Legendre) (x : R) (m : nat) : R :=
  dg_flux q x (fun k => l_value (es k) x) (fun k => l_gradient (es k) x) m.
Definition nodal_flux (q : Equation) (es : nat -> Lagrange) (x : R) (m : nat) : R :=
  dg_flux q x (fun k => g_value (es k) x) (fun k => g_gradient (es k) x) m.
(** [f] at the [j]-th sample point (element.py 111-118, 259-263, 407-412) *)
Definition node_flux (q : Equation) (es : nat -> Lagrange) (j m : nat) : R :=
  dg_flux q (g_points (es m) j) (fun k => g_node_value (es k) j 0) (fun k => g_node_value (es k) j 1) m.

(** [Integrator.integrate] with [index=True] (concept.py 132-135) *)
Definition integrate_index (i : Integrator) (f : nat -> R) : R :=
  let w k := nth k (global_weights i) 0 in
  fold_left (fun value k => value + w k * f k) (seq 1 (length (global_points i) - 1)) (w 0%nat * f 0%nat).
(** [DiscontinuousGalerkin.get_interior_residual] (element.py 31-39) *)
Definition legendre_interior (q : Equation) (es : nat -> Legendre) (m k : nat) : R :=
  integrate (l_integrator (es m)) (fun x => l_basis_gradients (es m) x k * legendre_flux q es x m).
Definition nodal_interior (q : Equation) (es : nat -> Lagrange) (m k : nat) : R :=
  integrate (g_integrator (es m)) (fun x => g_basis_gradients (es m) x k * nodal_flux q es x m).
(** [DGonGaussPoints.get_interior_residual] (element.py 105-119) *)
Definition gauss_interior (q : Equation) (es : nat -> Lagrange) (m k : nat) : R :=
  integrate_index (g_integrator (es m)) (fun j => g_node_basis (es m) j 1 k * node_flux q es j m).
(** [DiscontinuousGalerkin.add_interface_residual] (element.py 41-46) *)
Definition add_interface (left_basis right_basis : nat -> R) (left_flux right_flux : R) (residual : nat -> R) (k : nat) : R :=
  residual k + left_basis k * left_flux - right_basis k * right_flux.
(** [get_interface_correction] (concept.py 733-745) and [add_interface_correction] (element.py 48-50) *)
Definition add_correction (left_basis right_basis : nat -> R) (left_jump right_jump : R) (residual : nat -> R) (k : nat) : R :=
  residual k - (left_basis k * left_jump + right_basis k * right_jump).
(** [divide_mass_matrix] of [DGonGaussPoints] (element.py 100-103) and [LegendreDG] (element.py 163-166) *)
Definition divide_weights (n : nat) (weight column : nat -> R) : option (nat -> R) :=
  if forallb (fun k => if Req_EM_T (weight k) 0 then false else true) (seq 0 n) then Some (fun k => column k / weight k) else None.

(** fluxes and half jumps at the two ends *)
Record Faces := mkFaces { left_flux : R; right_flux : R; left_jump : R; right_jump : R }.
(** the residual of the component [m]: the round of the loop over elements of [get_residual_column]
    (spatial.py 148-160) for [LegendreDG] ... *)
Definition legendre_residual (q : Equation) (es : nat -> Legendre) (m : nat) (f : Faces) : option (nat -> R) :=
  let e := es m in
  let residual := legendre_interior q es m in
  let residual := add_interface (l_boundary_basis e 0 true) (l_boundary_basis e 0 false) (left_flux f) (right_flux f) residual in
  let residual := add_correction (l_boundary_basis e 1 true) (l_boundary_basis e 1 false) (left_jump f) (right_jump f) residual in
  divide_weights (l_n e) (l_weight e) residual.
(** ... and for the elements with Lagrange expansions: [DGonUniformRoots], whose mass matrix (concept.py 630-632) is
    divided by [np.linalg.solve] (element.py 57-65), and [DGonLegendreRoots], [DGonLobattoRoots] *)
Definition nodal_residual (solve : nat -> (nat -> nat -> R) -> (nat -> R) -> option (nat -> R)) (kind : Kind)
    (q : Equation) (es : nat -> Lagrange) (m : nat) (f : Faces) : option (nat -> R) :=
  let e := es m in
  let residual := match kind with UniformRoots => nodal_interior q es m | _ => gauss_interior q es m end in
  let residual := add_interface (g_boundary_basis kind e 0 true) (g_boundary_basis kind e 0 false) (left_flux f) (right_flux f) residual in
  let residual := add_correction (g_boundary_basis kind e 1 true) (g_boundary_basis kind e 1 false) (left_jump f) (right_jump f) residual in
  match kind with
  | UniformRoots => do mass <- g_innerproducts e; solve (g_n e) mass residual
  | _ => divide_weights (g_n e) (g_weight e) residual
  end.
