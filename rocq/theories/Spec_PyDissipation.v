(** The heat equation u_t = u_xx on an element and its two neighbors. *)
From Coq Require Import Reals List.
From Verif Require Import Arrays RSum Model_PyExpansion Model_PyNodal Model_PyElement Model_PyFR.
From Verif Require Model_PyRiemann.
Open Scope R_scope.

(** no convection, and diffusion with coefficient one *)
Definition heat : Model_PyRiemann.Equation := Model_PyRiemann.LinearAdvectionDiffusion_init 0 1.
Definition heat_equation : Equation :=
  mkEquation (fun u m => Model_PyRiemann.get_convective_flux heat (u m)) (Some (fun _ u du m => Model_PyRiemann.get_diffusive_flux heat (u m) (du m) 0)).
(** an element as seen from its left or right face *)
Definition side_of (kind : Kind) (e : Lagrange) (left : bool) : Model_PyRiemann.Side R R :=
  Model_PyRiemann.mkSide (g_n e - 1) (g_length e) (g_boundary kind e 0 left) (g_boundary kind e 1 left) (g_boundary kind e 2 left) 0.
(** the flux through the face of two elements by the Riemann solver; without a neighbor there is no flux *)
Definition flux_between (kind : Kind) (left right : option Lagrange) (flux : R) : Prop :=
  match left, right with
  | Some l, Some r => exists s j, Model_PyRiemann.get_interface_flux_and_bjump (Model_PyRiemann.Solver_init heat) (side_of kind l false) (side_of kind r true) = Some (s, flux, j)
  | _, _ => flux = 0
  end.
(** product of a row with the sample values of an element, if there is one *)
Definition applied (n : nat) (row : nat -> R) (e : option Lagrange) : R :=
  match e with Some e => rsum n (fun l => row l * g_values e l) | None => 0 end.
