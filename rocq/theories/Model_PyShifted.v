(** Model of [expansion.Shifted] (expansion.py, lines 13-87), the wrapper that moves an expansion along the axis, around Legendre expansions.  [None]: an exception. *)
From Coq Require Import Reals List Arith.
From Verif Require Import Arrays RSum Model_PyEuler Model_PyPoly Model_PyIntegrator Model_PyExpansion.
Import ListNotations.
Open Scope R_scope.

(** the attributes (concept.py 189-191; expansion.py 17-24) *)
Record ShiftedLegendre := mkShifted { sh_integrator : Integrator; sh_expansion : Legendre; sh_shift : R }.
(** [__init__] (expansion.py 17-24); [roots] gives the points and weights of the type of integrator, and [n_point] is that of the given one *)
Definition Shifted_init (roots : nat -> list R * list R) (e : Legendre) (x_shift : R) : option ShiftedLegendre :=
  let shifted_coordinate := Shifted (l_coordinate e) x_shift in
  let n_point := length (global_points (l_integrator e)) in
  do i <- Integrator_init shifted_coordinate (fst (roots n_point)) (snd (roots n_point));
  Some (mkShifted i e x_shift).
(** [coordinate], [x_left], [x_right] and [x_center] (concept.py 203-220) *)
Definition sh_coordinate (w : ShiftedLegendre) : Coordinate := i_coordinate (sh_integrator w).
(** [n_term] and [degree] (expansion.py 32-36; those of Taylor 96-100) *)
Definition sh_n (w : ShiftedLegendre) : nat := l_n (sh_expansion w).
(** [global_to_value], [global_to_gradient], [global_to_derivatives] (expansion.py 38-48) *)
Definition sh_value (w : ShiftedLegendre) (x_global : R) : R := let x_unshifted := x_global - sh_shift w in l_value (sh_expansion w) x_unshifted.
Definition sh_gradient (w : ShiftedLegendre) (x_global : R) : R := let x_unshifted := x_global - sh_shift w in l_gradient (sh_expansion w) x_unshifted.
Definition sh_derivatives (w : ShiftedLegendre) (x_global : R) (k : nat) : option R := let x_unshifted := x_global - sh_shift w in l_derivatives (sh_expansion w) x_unshifted k.
(** [get_basis_values], [get_basis_gradients], [get_basis_hessians], [get_basis_derivatives] (expansion.py 50-64) *)
Definition sh_basis_values (w : ShiftedLegendre) (x_global : R) : option (nat -> R) := let x_unshifted := x_global - sh_shift w in l_basis_values (sh_expansion w) x_unshifted.
Definition sh_basis_gradients (w : ShiftedLegendre) (x_global : R) : nat -> R := let x_unshifted := x_global - sh_shift w in l_basis_gradients (sh_expansion w) x_unshifted.
Definition sh_basis_hessians (w : ShiftedLegendre) (x_global : R) : nat -> R := let x_unshifted := x_global - sh_shift w in l_basis_hessians (sh_expansion w) x_unshifted.
Definition sh_basis_derivatives (w : ShiftedLegendre) (x_global : R) (k : nat) : nat -> R := let x_unshifted := x_global - sh_shift w in l_basis_derivatives (sh_expansion w) x_unshifted k.
(** [get_boundary_basis_derivatives] (expansion.py 66-67) *)
Definition sh_boundary_basis (w : ShiftedLegendre) (k : nat) (left : bool) : nat -> R := l_boundary_basis (sh_expansion w) k left.
(** [get_coeff_ref] and [average] (expansion.py 69-73) *)
Definition sh_coeff (w : ShiftedLegendre) : nat -> R := l_modes (sh_expansion w).
Definition sh_average (w : ShiftedLegendre) : R := l_average (sh_expansion w).
(** [approximate] and [set_coeff] fail (expansion.py 80-87) *)
Definition sh_approximate (w : ShiftedLegendre) (f : R -> R) : option ShiftedLegendre := None.
Definition sh_set_coeff (w : ShiftedLegendre) (n : nat) (a : nat -> R) : option ShiftedLegendre := None.
