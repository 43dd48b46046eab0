(** Gradients and Hessians of functions of a point in space. *)
From Coq Require Import Reals List.
From Verif Require Import Vec3 RSum Model_Basis Model_Geometry Model_Nodal Spec_Shapes Proof_Shapes.
Open Scope R_scope.

Definition length3 (v : vec) : R := sqrt (dot v v).
(** [f] is differentiable at [p] with the gradient [g] *)
Definition has_gradient (f : vec -> R) (p g : vec) : Prop :=
  forall eps, 0 < eps -> exists delta, 0 < delta /\
  forall d, length3 d < delta -> Rabs (f (vadd p d) - f p - dot g d) <= eps * length3 d.
(** the points near [l] *)
Definition near (r : R) (l l' : vec) : Prop :=
  Rabs (vx l' - vx l) < r /\ Rabs (vy l' - vy l) < r /\ Rabs (vz l' - vz l) < r.
(** near the point with the local coordinates [l], the function [f] of the global coordinates has the values [u]
    that are given at the local coordinates *)
Definition represented (to_global : vec -> vec) (u : vec -> R) (f : vec -> R) (l : vec) : Prop :=
  exists r, 0 < r /\ forall l', near r l l' -> f (to_global l') = u l'.
(** [g] is the gradient of [f] near [to_global l], and [hx], [hy], [hz] are the gradients of its components there:
    the rows of the Hessian matrix *)
Definition has_hessian (to_global : vec -> vec) (f : vec -> R) (l hx hy hz : vec) : Prop :=
  exists g r, 0 < r /\ (forall l', near r l l' -> has_gradient f (to_global l') (g (to_global l'))) /\
  has_gradient (fun q => vx (g q)) (to_global l) hx /\
  has_gradient (fun q => vy (g q)) (to_global l) hy /\
  has_gradient (fun q => vz (g q)) (to_global l) hz.

(** [M] is the inverse of line 76 of lagrange.hpp *)
Definition inverse_of (nodes : list R) (M : nat -> nat -> R) : Prop :=
  forall i j, (i < length nodes)%nat -> (j < length nodes)%nat ->
  rsum (length nodes) (fun k => taylor_to_lagrange nodes i k * M k j) = if Nat.eqb i j then 1 else 0.
(** a hexahedron with its nodes, three lists of distinct points and the matrices of lagrange.hpp line 76 *)
Definition well_built (p : Nodal) : Prop :=
  In (n_cell p) hexas /\ built (h_element (n_cell p)) (n_nodes p) /\
  NoDup (b_x (n_basis p)) /\ NoDup (b_y (n_basis p)) /\ NoDup (b_z (n_basis p)) /\
  inverse_of (b_x (n_basis p)) (b_mx (n_basis p)) /\ inverse_of (b_y (n_basis p)) (b_my (n_basis p)) /\
  inverse_of (b_z (n_basis p)) (b_mz (n_basis p)).
