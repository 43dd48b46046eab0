(** Specification of the discontinuous Galerkin residual: the weak form, and conservation. *)
From Coq Require Import Reals List Arith String.
From Verif Require Import Vec3 RSum Model_Dofs Model_DG.
Import ListNotations.
Open Scope R_scope.

(** the sum of [f] over a list *)
Fixpoint lsum {A : Type} (l : list A) (f : A -> R) : R :=
  match l with [] => 0 | x :: t => f x + lsum t f end.

Section Spec.
  Variables K N kDegrees : nat.

  (** where component [k] of the coefficient of basis function [j] of a cell is stored *)
  Definition address (id j k : nat) : nat := (K * N * id + (j * K + k))%nat.

  (** the integral over a face of component [k] of a flux times a basis function of a cell *)
  Definition face_term (flux_at : face -> nat -> value) (c : cell) (j k : nat) (f : face) : R :=
    rsum (f_points f) (fun q => f_weight f q * flux_at f q k * c_basis c (f_coord f q) j).
  (** the integral over a cell of a flux times the gradient of a basis function *)
  Definition volume_term (c : cell) (j k : nat) : R :=
    rsum (c_points c) (fun q => c_weight c q * dot (c_flux c q k) (c_gradients c (c_coord c q) j)).
  Definition if_id (i j : nat) (x : R) : R := if (i =? j)%nat then x else 0.

  (** all conditions that apply to faces of the boundary: the faces and their fluxes *)
  Definition conditions (s : fem) (p : part) : list (list face * (face -> nat -> value)) :=
    map (fun name => (boundary_faces p name, wall_at)) (solid_wall s)
    ++ map (fun '(name, g) => (boundary_faces p name, sup_in_at (t_curr s) g)) (supersonic_inlet s)
    ++ map (fun name => (boundary_faces p name, sup_out_at)) (supersonic_outlet s)
    ++ map (fun '(name, g) => (boundary_faces p name, sub_in_at (t_curr s) g)) (subsonic_inlet s)
    ++ map (fun '(name, g) => (boundary_faces p name, sub_out_at (t_curr s) g)) (subsonic_outlet s)
    ++ map (fun '(name, g) => (boundary_faces p name, smart_at (t_curr s) g)) (smart_boundary s).

  (** the weak form tested with basis function [j] of cell [c]: the volume term, less what leaves through the
      faces of which [c] is the holder, plus what enters through those of which [c] is the sharer *)
  Definition weak_form (s : fem) (p : part) (c : cell) (j k : nat) : R :=
    (if (0 <? kDegrees)%nat then volume_term c j k else 0)
    - lsum (local_faces p) (fun f => if_id (c_id (holder f)) (c_id c) (face_term upwind_at c j k f))
    + lsum (local_faces p) (fun f => if_id (c_id (sharer f)) (c_id c) (face_term upwind_at c j k f))
    - lsum (conditions s p) (fun '(fs, flux_at) =>
        lsum fs (fun f => if_id (c_id (holder f)) (c_id c) (face_term flux_at c j k f)))
    - lsum (ghost_faces p) (fun f => if_id (c_id (holder f)) (c_id c) (face_term upwind_at c j k f)).

  (** a part is well formed: its cells have distinct numbers less than their count, and the cells of its
      faces are among them *)
  Definition part_ok (p : part) : Prop :=
    NoDup (map c_id (local_cells p))
    /\ (forall c, In c (local_cells p) -> (c_id c < List.length (local_cells p))%nat)
    /\ (forall f, In f (local_faces p) -> In (holder f) (local_cells p) /\ In (sharer f) (local_cells p))
    /\ (forall f, In f (ghost_faces p) -> In (holder f) (local_cells p))
    /\ (forall name f, In f (boundary_faces p name) -> In (holder f) (local_cells p)).

  (** the basis of a cell: the first function is a constant that is not zero, its gradient vanishes, and it is
      orthogonal to the others and of norm one *)
  Definition basis_ok (c : cell) : Prop :=
    exists phi, phi <> 0
      /\ (forall x, c_basis c x 0%nat = phi)
      /\ (forall x, c_gradients c x 0%nat = v0)
      /\ (forall j, (j < N)%nat ->
            rsum (c_points c) (fun q => c_weight c q * (c_basis c (c_coord c q) 0%nat * c_basis c (c_coord c q) j))
            = if (j =? 0)%nat then 1 else 0).

  (** the integral over a cell of component [k] of the function with the coefficients of a column *)
  Definition cell_integral (r : column) (k : nat) (c : cell) : R :=
    rsum (c_points c) (fun q => c_weight c q *
      rsum N (fun j => at_ r (address (c_id c) j k) * c_basis c (c_coord c q) j)).

  (** the integral over a face of component [k] of a flux *)
  Definition flux_through (flux_at : face -> nat -> value) (k : nat) (f : face) : R :=
    rsum (f_points f) (fun q => f_weight f q * flux_at f q k).
End Spec.
