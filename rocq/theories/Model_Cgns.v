(** Data model of /repo/include/mini/mesh/cgns.hpp. *)
From Coq Require Import String List Arith ZArith.
From Verif Require Import Arrays.
Import ListNotations.

(** cgns.hpp line 33 ([ElementType]); only the enumerators named in the file
    plus NODE, BAR_2 and MIXED. *)
Inductive ElementType :=
| NODE | BAR_2 | TRI_3 | TRI_6 | QUAD_4 | QUAD_8 | QUAD_9
| TETRA_4 | TETRA_10 | PYRA_5 | PYRA_13 | PYRA_14
| PENTA_6 | PENTA_15 | PENTA_18 | HEXA_8 | HEXA_20 | HEXA_27 | MIXED.

Definition type_eqb (a b : ElementType) : bool :=
  match a, b with
  | NODE, NODE | BAR_2, BAR_2 | TRI_3, TRI_3 | TRI_6, TRI_6 | QUAD_4, QUAD_4
  | QUAD_8, QUAD_8 | QUAD_9, QUAD_9 | TETRA_4, TETRA_4 | TETRA_10, TETRA_10
  | PYRA_5, PYRA_5 | PYRA_13, PYRA_13 | PYRA_14, PYRA_14 | PENTA_6, PENTA_6
  | PENTA_15, PENTA_15 | PENTA_18, PENTA_18 | HEXA_8, HEXA_8 | HEXA_20, HEXA_20
  | HEXA_27, HEXA_27 | MIXED, MIXED => true
  | _, _ => false
  end.

(** cgns.hpp lines 39-61 [CountNodesByType]; the default branch asks the CGNS
    library ([cg_npe]: NODE 1, BAR_2 2, MIXED 0). *)
Definition CountNodesByType (t : ElementType) : nat :=
  match t with
  | NODE => 1 | BAR_2 => 2 | TRI_3 => 3 | TRI_6 => 6
  | QUAD_4 => 4 | QUAD_8 => 8 | QUAD_9 => 9
  | TETRA_4 => 4 | TETRA_10 => 10 | PYRA_5 => 5 | PYRA_13 => 13 | PYRA_14 => 14
  | HEXA_8 => 8 | HEXA_20 => 20 | HEXA_27 => 27
  | PENTA_6 => 6 | PENTA_15 => 15 | PENTA_18 => 18
  | MIXED => 0
  end.

(** cgns.hpp lines 87-104 [dim]; [None] is the failed assertion of line 101. *)
Definition dim (t : ElementType) : option Z :=
  match t with
  | NODE => Some 0%Z | BAR_2 => Some 1%Z
  | TRI_3 | QUAD_4 => Some 2%Z
  | TETRA_4 | PENTA_6 | HEXA_8 => Some 3%Z
  | MIXED => Some (-1)%Z
  | _ => None
  end.

(** cgns.hpp lines 827-840 [Zone::CheckTypeDim] *)
Definition CheckTypeDim (t : ElementType) (cell_dim : Z) : bool :=
  match t with
  | TRI_3 | QUAD_4 => Z.eqb cell_dim 2
  | TETRA_4 | PENTA_6 | HEXA_8 => Z.eqb cell_dim 3
  | MIXED => true
  | _ => false
  end.

(** cgns.hpp lines 315-480 [Section]: id, name, [first_], number of cells
    ([last_ - first_ + 1], line 357), [dim_], type, [connectivity_],
    [start_offset_]. *)
Record Section := mkSection {
  s_id : nat; s_name : string; s_first : nat; s_count : nat;
  s_dim : Z; s_type : ElementType; s_conn : list nat; s_offset : list nat
}.

(** cgns.hpp lines 361-363 *)
Definition s_npe (s : Section) : nat := CountNodesByType (s_type s).

(** cgns.hpp lines 378-400 [Section::GetNodeIdList(i_cell)] followed by reading
    [npe] entries, for a homogeneous section; reading outside of
    [connectivity_] is [None]. *)
Definition cell_row (s : Section) (i_cell : nat) : option (list nat) :=
  if i_cell <? s_first s then None
  else slice (s_conn s) (s_npe s * (i_cell - s_first s)) (s_npe s).

(** cgns.hpp lines 190-310 [Coordinates], 566-610 [Field] and 703-1014 [Zone]:
    coordinates, sections, data on nodes, data on cells.  The type [A] stands
    for [Real]; its values are only moved around. *)
Record Zone (A : Type) := mkZone {
  z_x : list A; z_y : list A; z_z : list A;
  z_sections : list Section;
  z_node_fields : list (list A); z_cell_fields : list (list A)
}.
Arguments mkZone {A}.
Arguments z_x {A}. Arguments z_y {A}. Arguments z_z {A}.
Arguments z_sections {A}. Arguments z_node_fields {A}. Arguments z_cell_fields {A}.

(** cgns.hpp line 740 [Zone::CountNodes] (= x_.size(), line 215) *)
Definition CountNodes {A} (z : Zone A) : nat := length (z_x z).
