(** Model of [Mapping::AddCellStatus], /repo/include/mini/mesh/overset.hpp, lines 24-46. *)
From Coq Require Import List Arith.
From Verif Require Import Arrays Model_Cgns Model_Mapper.
Import ListNotations.

(** overset.hpp lines 24-26; the numbers are those of [static_cast<Real>] *)
Inductive Status := kUnknown | kFringe | kDonor | kHole.
Definition number (s : Status) : nat := match s with kUnknown => 0 | kFringe => 1 | kDonor => 2 | kHole => 3 end.

(** cgns.hpp lines 598-600 [Field::at], assigned: [data_[id-1]] is not checked, [None] is undefined behavior *)
Definition set_at {A} (data : list A) (id : nat) (x : A) : option (list A) :=
  match id with O => None | S k => upd_opt data k x end.
(** cgns.hpp lines 679-692 [AddField] and 912-923 [AddSolution]: the field found by its names, or a new one of zeros with one entry per cell of the zone *)
Definition add_field (n_cells : nat) (old : option (list nat)) : list nat :=
  match old with Some data => data | None => repeat 0 n_cells end.
(** overset.hpp lines 36-46; [fields] holds the field named OversetStatus of each zone, if it has one, and [n_cells] the numbers of cells.  The result replaces the field of the first zone. *)
Definition AddCellStatus (status : Status) (cells : list nat) (n_cells : list nat) (fields : list (option (list nat))) (mp : Mapper) : option (list (option (list nat))) :=
  do n <- at1 n_cells 1;
  do old <- at1 fields 1;
  do data <- foldM (fun field i_cell =>
      do index <- nth_error (m2c_cells mp) i_cell;
      let '(_, _, c) := index in set_at field c (number status)) cells (add_field n old);
  upd_opt fields 0 (Some data).
