(** What damping matrices should be: independent of the way they are built. *)
From Coq Require Import Reals List Arith.
From Verif Require Import Vec3 RSum Model_Geometry Model_Basis Model_Nodal Model_Dofs Model_DG Model_Diffusive Model_Schemes Model_Damping.
Import ListNotations.
Open Scope R_scope.

Section Damping.
  Variables K N : nat.

  (** [m] is what the scheme adds to zeros for the flux [- gradient u] in the cell *)
  Definition diffusive_residual (c : dcell) (u : coeff) (m : mem) : Prop :=
    exists flux : nat -> flux_matrix,
      (forall q, (q < d_points c)%nat -> exists g, d_gradient c u q = Some g /\ forall r, flux q r = vneg (g r))
      /\ d_divergence c flux (fun _ => 0) = Some m.

  (** [D] gives that residual from the coefficients, for every component *)
  Definition damps (c : dcell) (D : nat -> nat -> R) : Prop :=
    forall u, exists m, diffusive_residual c u m
      /\ forall r j, (r < K)%nat -> (j < N)%nat -> m (K * j + r)%nat = rsum N (fun i => D j i * u r i).

  (** the cells of the schemes: gradients need at least two points on every line *)
  Definition two_points (p : Nodal) : Prop :=
    (2 <= length (b_x (n_basis p)) /\ 2 <= length (b_y (n_basis p)) /\ 2 <= length (b_z (n_basis p)))%nat
    /\ b_N (n_basis p) = N.
  Definition scheme_cell (d : dcell) : Prop :=
    (exists ptr adj c, d = dg_cell K N ptr adj c)
    \/ (exists kLocal ptr adj id w p, d = lobatto_cell K N kLocal ptr adj id w p /\ two_points p)
    \/ (exists ptr adj id w p, d = fr_cell K N ptr adj id w p /\ two_points p).

  (** the numbers of local cells, part.hpp:822-833 *)
  Definition cells_ok (cells : list dcell) : Prop :=
    (forall c, In c cells -> scheme_cell c) /\ map d_id cells = seq 0 (List.length cells).

  (** the square of the norm of the gradient of [u], for the component [r], summed with weights *)
  Definition energy (points : nat) (weight : nat -> R) (gradient : nat -> vec) : R :=
    rsum points (fun q => weight q * dot (gradient q) (gradient q)).
  Definition quadratic (D : nat -> nat -> R) (x : nat -> R) : R := rsum N (fun j => x j * rsum N (fun i => D j i * x i)).
End Damping.
