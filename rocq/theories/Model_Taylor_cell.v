(** Cells with an orthonormal Taylor basis (include/mini/basis/linear.hpp, include/mini/polynomial/projection.hpp)
    and the WENO limiters (include/mini/limiter/weno.hpp), as Model_Simulation uses them. *)
From Coq Require Import Reals List Arith.
From Verif Require Import Vec3 RSum Model_Basis Model_Projection Model_Dofs Model_DG Model_Reconstruct Model_Simulation.
Import ListNotations.
Open Scope R_scope.

(** a cell with the number [id] and the basis [b] of the degree [k]: the quadrature points are those of the basis
    (projection.hpp:131-133 [gauss()]), the values are projection.hpp:100-102 [GlobalToBasisValues] and the gradients
    projection.hpp:146-148 [GlobalToBasisGradients] *)
Definition taylor_cell (k id : nat) (b : OrthoNormal) : gcell :=
  GCell id (List.length (o_gauss b)) (fun q => snd (nth q (o_gauss b) (0, v0))) (fun q => fst (nth q (o_gauss b) (0, v0)))
    (fun x j => nth j (OrthoNormal_at (Taylor3_N k) (taylor3 k) b x) 0)
    (fun x j =>
       let local := vsub x (o_center b) in
       let g := Taylor3_GetGradValue k (vx local) (vy local) (vz local) (o_coeff b j) in
       V (nth 0 g 0) (nth 1 g 0) (nth 2 g 0)).

(** weno.hpp:61-67 [Lazy::operator()] on the coefficients of a memory; [basis c] is the basis of cell [c] *)
Definition lazy_limit (k : nat) (w0 eps : R) (basis : nat -> OrthoNormal) (adj : nat -> list nat)
    (m : memory coeff) (c : nat) : coeff :=
  p_coeff (Lazy_call k w0 eps (mkProjection (m c) (basis c)) (map (fun n => mkProjection (m n) (basis n)) (adj c))).

(** weno.hpp:181-186 [Eigen::operator()] on the coefficients of a memory; a division by zero (C54) leaves the
    coefficients here, which the theorems exclude *)
Definition eigen_limit (k K : nat) (w0 eps : R) (basis : nat -> OrthoNormal) (adj : nat -> list nat)
    (faces : nat -> list FaceData) (m : memory coeff) (c : nat) : coeff :=
  match Eigen_call k K w0 eps (mkProjection (m c) (basis c)) (map (fun n => mkProjection (m n) (basis n)) (adj c)) (faces c) with
  | Some p => p_coeff p
  | None => m c
  end.
