(** Model of the finite element schemes of the Python package, spatial.py, lines 135-162 and 236-254: the residual of
    all elements in one column.  States, fluxes and jumps are functions of the component of the equations. *)
From Coq Require Import Reals List Arith ZArith.
From Verif Require Import Arrays Model_PyIntegrator Model_PyExpansion Model_PyNodal Model_PyElement Model_PyFR Model_PyColumn Model_PyGrid.
Import ListNotations.
Open Scope R_scope.

Definition Values := nat -> R.
(** the residuals of all components, as coefficients of an element *)
Fixpoint components (n : nat) (f : nat -> option (nat -> R)) : option (nat -> nat -> R) :=
  match n with
  | O => Some (fun _ _ => 0)
  | S n => do a <- components n f; do v <- f n; Some (fun r c => if (c =? n)%nat then v r else a r c)
  end.
(** what an element takes from its faces (spatial.py 152-157) *)
Definition faces_of (l r : Values * Values) (m : nat) : Faces := mkFaces (fst l m) (fst r m) (snd l m) (snd r m).
(** the three steps for the element [i] (spatial.py 149-159); [es i m] is the expansion of the component [m] *)
Definition legendre_element (y : Layout) (q : nat -> Equation) (es : nat -> nat -> Legendre) (i : nat) (l r : Values * Values) : option (nat -> nat -> R) :=
  components (n_component y) (fun m => legendre_residual (q i) (es i) m (faces_of l r m)).
Definition nodal_element solve kind (y : Layout) (q : nat -> Equation) (es : nat -> nat -> Lagrange) (i : nat) (l r : Values * Values) : option (nat -> nat -> R) :=
  components (n_component y) (fun m => nodal_residual solve kind (q i) (es i) m (faces_of l r m)).
Definition fr_element kind (y : Layout) (g : Correction) (q : nat -> Equation) (es : nat -> nat -> Lagrange) (i : nat) (l r : Values * Values) : option (nat -> nat -> R) :=
  components (n_component y) (fun m => fr_residual kind (q i) (es i) g m (fst l m) (fst r m)).
(** [FiniteElement.get_residual_column] (spatial.py 135-162) *)
Definition get_residual_column (y : Layout) (g : Grid Values) (solve : Face Values -> option (Values * Values))
    (element : nat -> Values * Values -> Values * Values -> option (nat -> nat -> R)) : option (list R) :=
  do a <- residual_loop solve _ _ element (write_to_column y) g (repeat 0 (scheme_n_dof y (n_element g)));
  let '(column, i_dof) := a in if Nat.eqb i_dof (scheme_n_dof y (n_element g)) then Some column else None.

(** [FluxReconstruction.get_flux_value] (spatial.py 239-254): [flux] is [get_fr_flux] of an element *)
Definition get_flux_value {V} (g : Grid V) (solve : Face V -> option (V * V)) (flux : nat -> R -> V -> V -> option V) (x : R) : option V :=
  let curr := get_element_index g x in
  do r <- index (n_element g) curr;
  do l <- index (n_element g) (curr - 1);
  do upwind_flux_left <- solve (Interface l r);
  do l <- index (n_element g) curr;
  do r <- index (n_element g) ((curr + 1) mod Z.of_nat (n_element g));
  do upwind_flux_right <- solve (Interface l r);
  flux l x (fst upwind_flux_left) (fst upwind_flux_right).
