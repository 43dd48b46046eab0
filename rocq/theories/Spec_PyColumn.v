(** Where the coefficients are in the column of a scheme. *)
From Coq Require Import Reals List Arith.
From Verif Require Import Model_PyColumn.

(** equations with one component, or a system *)
Definition well_formed (y : Layout) : Prop := system y = false -> n_component y = 1.
(** element after element; in each element component after component; for each component term after term *)
Definition position (y : Layout) (element term component : nat) : nat :=
  element * (n_component y * n_term y) + component * n_term y + term.
Definition valid (y : Layout) (n_element element term component : nat) : Prop :=
  element < n_element /\ term < n_term y /\ component < n_component y.
(** a column holds the coefficients *)
Definition holds (y : Layout) (n_element : nat) (column : list R) (coeffs : nat -> nat -> nat -> R) : Prop :=
  length column = n_element * (n_component y * n_term y) /\
  forall e r c, valid y n_element e r c -> nth_error column (position y e r c) = Some (coeffs e r c).
