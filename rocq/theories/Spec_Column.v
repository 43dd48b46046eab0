(** What the numbering of local cells and the packing of the solution should achieve. *)
From Coq Require Import List Arith Permutation.
From Verif Require Import Arrays Model_Column.
Import ListNotations.

(** everything but the id *)
Definition but_id {A} (c : LocalCell A) := (c_metis c, c_inner c, c_coeff c).

(** A numbering of cells: the ids are [0 .. n-1], each once. *)
Definition numbering {A} (cells : list (LocalCell A)) : Prop :=
  Permutation (map c_id cells) (map Some (seq 0 (length cells))).

(** the part of a column with [k_fields] scalars per cell that belongs to id [i] *)
Definition segment {A} (k_fields : nat) (column : list A) (i : nat) : list A :=
  firstn k_fields (skipn (i * k_fields) column).
