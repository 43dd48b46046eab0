(** Model of the Lagrange expansions of the Python package: expansion.py, lines 270-530.  Values are real numbers
    (for systems these are the components); arrays of [n] entries are functions of the index; [None]: an exception.
    [np.linalg.inv] and the roots of Legendre polynomials are parameters. *)
From Coq Require Import Reals List Arith Bool.
From Verif Require Import Arrays RSum Model_PyEuler Model_PyPoly Model_PyIntegrator Model_PyExpansion.
Import ListNotations.
Open Scope R_scope.

(** a [Lagrange] object: number of terms, integrator, whether it is a [LagrangeOnGaussPoints], roots of
    [_basis], [_sample_points], [_lagrange_to_taylor], [_basis_derivatives], [_sample_values], [_taylor_coeff],
    [_cached_average] *)
Record Lagrange := mkLagrange { g_n : nat; g_integrator : Integrator; g_gauss : bool; g_roots : list R;
  g_points : nat -> R; g_inverse : nat -> nat -> R; g_cached : nat -> nat -> nat -> R;
  g_values : nat -> R; g_taylor : nat -> R; g_average : option R }.
Definition g_coordinate (e : Lagrange) : Coordinate := i_coordinate (g_integrator e).
Definition g_center (e : Lagrange) : R := x_center (g_coordinate e).
(** [base_rows] (expansion.py 288-292) *)
Definition base_rows (c : R) (points : nat -> R) (k i : nat) : R := taylor_values c (points k) i.
(** [get_basis_derivatives] (expansion.py 392-394) in terms of the matrix *)
Definition basis_derivatives (n : nat) (c : R) (a : nat -> nat -> R) (x : R) (k : nat) : nat -> R :=
  row_dot n (taylor_derivatives c x k) a.
(** [Lagrange.__init__] (expansion.py 274-310) with the assertion of [Taylor.__init__] (expansion.py 107).  Both
    branches of lines 284-287 give the images of the roots.  The values are not initialized, here zero. *)
Definition Lagrange_init (inv : nat -> (nat -> nat -> R) -> option (nat -> nat -> R))
    (gauss : bool) (degree : nat) (i : Integrator) (roots : list R) : option Lagrange :=
  if negb (degree <? 100)%nat then None else
  let n := (degree + 1)%nat in
  if negb (length roots =? n)%nat then None else
  let points k := local_to_global (i_coordinate i) (nth k roots 0) in
  let c := x_center (i_coordinate i) in
  do m <- inv n (base_rows c points);
  Some (mkLagrange n i gauss roots points m (fun i_point k => basis_derivatives n c m (points i_point) k)
    (fun _ => 0) (fun _ => 0) None).
(** [LagrangeOnUniformRoots._get_local_roots] (expansion.py 416-421): [np.linspace] starts with its first argument
    and adds multiples of the difference of its ends divided by one less than the number of points *)
Definition uniform_roots (n : nat) : list R :=
  let delta := 2 / INR n / 2 in
  map (fun i => (delta - 1) + INR i * (((1 - delta) - (delta - 1)) / INR (n - 1))) (seq 0 n).
(** [LagrangeOnUniformRoots.__init__] (expansion.py 423-428) with [get_integrator] (expansion.py 100-103) *)
Definition UniformRoots_init (roots : nat -> list R * list R) inv (degree : nat) (c : Coordinate) : option Lagrange :=
  let n := (degree + 1)%nat in
  do i <- Integrator_init c (fst (roots n)) (snd (roots n)); Lagrange_init inv false degree i (uniform_roots n).
(** [LagrangeOnLegendreRoots.__init__] (expansion.py 473-484) with [LagrangeOnGaussPoints.__init__] (expansion.py
    441-448) *)
Definition LegendreRoots_init (roots : nat -> list R * list R) inv (degree : nat) (c : Coordinate) : option Lagrange :=
  let n := (degree + 1)%nat in
  do i <- Integrator_init c (fst (roots n)) (snd (roots n)); Lagrange_init inv true degree i (fst (roots n)).
(** [LagrangeOnLobattoRoots.__init__] (expansion.py 505-508) with the same *)
Definition LobattoRoots_init inv (degree : nat) (c : Coordinate) : option Lagrange :=
  let n := (degree + 1)%nat in
  do ps <- GaussLobatto_points n; do ws <- GaussLobatto_weights n;
  do i <- Integrator_init c ps ws; Lagrange_init inv true degree i ps.

(** [get_basis_values] (expansion.py 373-376) *)
Definition g_basis_values (e : Lagrange) (x : R) : option (list R) :=
  do xi <- global_to_local (g_coordinate e) x; LagrangeBasis_value (g_roots e) xi.
(** [get_basis_gradients], [get_basis_hessians], [get_basis_derivatives] (expansion.py 378-394) *)
Definition g_basis_gradients (e : Lagrange) (x : R) : nat -> R := row_dot (g_n e) (taylor_gradients (g_center e) x) (g_inverse e).
Definition g_basis_hessians (e : Lagrange) (x : R) : nat -> R := row_dot (g_n e) (taylor_hessians (g_center e) x) (g_inverse e).
Definition g_basis_derivatives (e : Lagrange) (x : R) (k : nat) : nat -> R :=
  basis_derivatives (g_n e) (g_center e) (g_inverse e) x k.
(** inherited from [Taylor] *)
Definition g_value (e : Lagrange) (x : R) : R := global_to_value (g_n e) (g_center e) (g_taylor e) x.
Definition g_gradient (e : Lagrange) (x : R) : R := global_to_gradient (g_n e) (g_center e) (g_taylor e) x.
Definition g_derivatives (e : Lagrange) (x : R) (k : nat) : option R := global_to_derivatives (g_n e) (g_center e) (g_taylor e) x k.
(** [get_sample_weight] (expansion.py 456-459) *)
Definition g_weight (e : Lagrange) (k : nat) : R := nth k (global_weights (g_integrator e)) 0.
(** [_update_cached_average] (expansion.py 312-313, 461-466) *)
Definition g_update_average (e : Lagrange) : Lagrange :=
  mkLagrange (g_n e) (g_integrator e) (g_gauss e) (g_roots e) (g_points e) (g_inverse e) (g_cached e) (g_values e) (g_taylor e)
    (if g_gauss e
     then div (fold_left (fun value i => value + g_values e i * g_weight e i) (seq 1 (g_n e - 1)) (g_values e 0 * g_weight e 0))
              (length_of (g_coordinate e))
     else taylor_average (g_n e) (g_integrator e) (g_taylor e)).
(** new values and Taylor coefficients, then [_update_cached_average] *)
Definition g_update (e : Lagrange) (values taylor : nat -> R) : Lagrange :=
  g_update_average (mkLagrange (g_n e) (g_integrator e) (g_gauss e) (g_roots e) (g_points e) (g_inverse e) (g_cached e) values taylor (g_average e)).
(** [_set_taylor_coeff] (expansion.py 332-337) after the values have been set *)
Definition g_set_values (e : Lagrange) (values : nat -> R) : Lagrange :=
  g_update e values (mat_dot (g_n e) (g_inverse e) values).
(** [set_coeff] (expansion.py 346-355); [length] is that of the argument *)
Definition g_set_coeff (e : Lagrange) (length : nat) (values : nat -> R) : option Lagrange :=
  if (length =? g_n e)%nat then Some (g_set_values e values) else None.
(** [set_taylor_coeff] (expansion.py 339-344) *)
Definition g_set_taylor_coeff (e : Lagrange) (coeff : nat -> R) : Lagrange :=
  g_update e (mat_dot (g_n e) (base_rows (g_center e) (g_points e)) coeff) coeff.
(** [approximate] (expansion.py 360-364) *)
Definition g_approximate (e : Lagrange) (f : R -> R) : Lagrange := g_set_values e (fun i => f (g_points e i)).
(** [LagrangeOnLobattoRoots.approximate] (expansion.py 523-529) *)
Definition lobatto_approximate (e : Lagrange) (f : R -> R) : Lagrange :=
  g_set_values e (fun i =>
    if (i =? g_n e - 1)%nat then f (g_points e i - 1 / 10 ^ 10)
    else if (i =? 0)%nat then f (g_points e i + 1 / 10 ^ 10) else f (g_points e i)).
(** [get_derivatives_at_node] (expansion.py 396-409) *)
Definition g_node_basis (e : Lagrange) (j k : nat) : nat -> R :=
  if (k =? 0)%nat then g_cached e j k else if (g_n e - 1 <? k)%nat then fun _ => 0 else g_cached e j k.
Definition g_node_value (e : Lagrange) (j k : nat) : R :=
  if (k =? 0)%nat then g_values e j else dot (g_n e) (g_values e) (g_node_basis e j k).
(** [get_boundary_derivatives]: in general (concept.py 307-326), on Legendre roots (expansion.py 492-498), where the
    arrays computed in the constructor are used, and on Lobatto roots (expansion.py 516-521) *)
Inductive Kind := UniformRoots | LegendreRoots | LobattoRoots.
Definition g_boundary_basis (kind : Kind) (e : Lagrange) (k : nat) (left : bool) : nat -> R :=
  let at_end := g_basis_derivatives e (if left then x_left (g_coordinate e) else x_right (g_coordinate e)) k in
  match kind with
  | UniformRoots => at_end
  | LegendreRoots => if (g_n e - 1 <? k)%nat then fun _ => 0 else at_end
  | LobattoRoots => g_node_basis e (if left then 0 else g_n e - 1)%nat k
  end.
Definition g_boundary (kind : Kind) (e : Lagrange) (k : nat) (left : bool) : R :=
  match kind with
  | LobattoRoots => g_node_value e (if left then 0 else g_n e - 1)%nat k
  | _ => dot (g_n e) (g_values e) (g_boundary_basis kind e k left)
  end.
(** [Taylor.get_basis_innerproducts] (expansion.py 206-213) with the basis of this object *)
Definition g_innerproducts (e : Lagrange) : option (nat -> nat -> R) :=
  do _ <- g_basis_values e (g_center e);
  Some (basis_innerproducts (g_integrator e) (fun x j => match g_basis_values e x with Some v => nth j v 0 | None => 0 end)).
(** the three classes *)
Definition Nodal_init (kind : Kind) (roots : nat -> list R * list R) inv (degree : nat) (c : Coordinate) : option Lagrange :=
  match kind with
  | UniformRoots => UniformRoots_init roots inv degree c
  | LegendreRoots => LegendreRoots_init roots inv degree c
  | LobattoRoots => LobattoRoots_init inv degree c
  end.
Definition g_approximate_by (kind : Kind) (e : Lagrange) (f : R -> R) : Lagrange :=
  match kind with LobattoRoots => lobatto_approximate e f | _ => g_approximate e f end.
