(** What the CGNS/METIS numbering must satisfy, stated through the accessors of
    the mesh and of the mapper only. *)
From Coq Require Import List Arith ZArith Permutation.
From Verif Require Import Arrays Model_Cgns Model_Mapper Spec_Shuffle.
Import ListNotations.

(** ** Well-formed input: a CGNS base as read from a file *)

(** a homogeneous section with all its rows present and valid node ids *)
Record wf_section (n_nodes : nat) (cell_dim : Z) (s : Section) : Prop := {
  ws_type : s_type s <> MIXED;
  ws_dim : dim (s_type s) = Some (s_dim s);
  ws_conn : length (s_conn s) = s_npe s * s_count s;
  ws_ids : Forall (fun id => 1 <= id <= n_nodes) (s_conn s);
  ws_count : s_dim s = cell_dim -> 1 <= s_count s
}.

(** ids run consecutively through the sections (see C14) *)
Fixpoint consecutive (first : nat) (ss : list Section) : Prop :=
  match ss with
  | [] => True
  | s :: t => s_first s = first /\ consecutive (first + s_count s) t
  end.

Record wf_zone {A} (cell_dim : Z) (zn : Zone A) : Prop := {
  wz_nodes : 1 <= CountNodes zn;
  wz_y : length (z_y zn) = CountNodes zn;
  wz_z : length (z_z zn) = CountNodes zn;
  wz_nf : Forall (fun f => length f = CountNodes zn) (z_node_fields zn);
  wz_sections : Forall (wf_section (CountNodes zn) cell_dim) (z_sections zn);
  wz_consecutive : consecutive 1 (z_sections zn);
  wz_cf : Forall (fun f => forall s, In s (z_sections zn) -> s_dim s = cell_dim ->
             s_first s - 1 + s_count s <= length f) (z_cell_fields zn)
}.

(** ** A valid mapper: two mutually inverse, total numberings *)
Record valid_mapper {A} (cell_dim : Z) (zones : list (Zone A)) (mp : Mapper) : Prop := {
  vm_nodes : forall m z i,
    nth_error (m2c_nodes mp) m = Some (z, i) <-> node_of mp z i = Some m;
  vm_nodes_dom : forall z i,
    (exists m, node_of mp z i = Some m) <->
    (exists zn, at1 zones z = Some zn /\ 1 <= i <= CountNodes zn);
  vm_cells : forall m z s c,
    nth_error (m2c_cells mp) m = Some (z, s, c) <-> cell_of mp z s c = Some m;
  vm_cells_dom : forall z s c,
    (exists m, cell_of mp z s c = Some m) <->
    (exists zn sec, at1 zones z = Some zn /\ at1 (z_sections zn) s = Some sec /\
       s_dim sec = cell_dim /\ s_first sec <= c < s_first sec + s_count sec)
}.

(** ** The mesh as seen through METIS numbers *)
Definition node_coords {A} (zones : list (Zone A)) (z i : nat) : option (A * A * A) :=
  do zn <- at1 zones z;
  do x <- at1 (z_x zn) i; do y <- at1 (z_y zn) i; do w <- at1 (z_z zn) i;
  Some (x, y, w).

Definition node_data {A} (zones : list (Zone A)) (z i : nat) : option (list A) :=
  do zn <- at1 zones z; mapM (fun f => at1 f i) (z_node_fields zn).

Definition cell_data {A} (zones : list (Zone A)) (z c : nat) : option (list A) :=
  do zn <- at1 zones z; mapM (fun f => at1 f c) (z_cell_fields zn).

(** the METIS numbers of the nodes of a cell or face, in local order *)
Definition metis_row {A} (zones : list (Zone A)) (mp : Mapper) (z s c : nat)
    : option (list nat) :=
  do zn <- at1 zones z;
  do sec <- at1 (z_sections zn) s;
  do row <- cell_row sec c;
  mapM (node_of mp z) row.

(** all rows of a section *)
Definition section_rows {A} (zones : list (Zone A)) (mp : Mapper) (z s : nat)
    : option (list (list nat)) :=
  do zn <- at1 zones z;
  do sec <- at1 (z_sections zn) s;
  mapM (metis_row zones mp z s) (seq (s_first sec) (s_count sec)).

(** row [m] of a CSR mesh *)
Definition csr_row (mesh : MetisMesh) (m : nat) : option (list nat) :=
  do head <- nth_error (mm_range mesh) m;
  do tail <- nth_error (mm_range mesh) (S m);
  if head <=? tail then slice (mm_index mesh) head (tail - head) else None.

(** sections of a zone before and after: same id, name, range, type and size *)
Definition same_section (s s' : Section) : Prop :=
  s_id s' = s_id s /\ s_name s' = s_name s /\ s_first s' = s_first s /\
  s_count s' = s_count s /\ s_dim s' = s_dim s /\ s_type s' = s_type s /\
  length (s_conn s') = length (s_conn s).

(** ** Renumbering: the same mesh under new CGNS numbers *)
Record same_mesh {A} (cell_dim : Z) (zs zs' : list (Zone A)) (mp mp' : Mapper) : Prop := {
  sm_zones : length zs' = length zs;
  sm_shape : forall z zn, at1 zs z = Some zn -> exists zn', at1 zs' z = Some zn' /\
    CountNodes zn' = CountNodes zn /\ length (z_sections zn') = length (z_sections zn) /\
    length (z_node_fields zn') = length (z_node_fields zn) /\
    length (z_cell_fields zn') = length (z_cell_fields zn);
  sm_nodes_len : length (m2c_nodes mp') = length (m2c_nodes mp);
  sm_cells_len : length (m2c_cells mp') = length (m2c_cells mp);
  (** a METIS node stays in its zone and keeps coordinates and data *)
  sm_nodes : forall m z i, nth_error (m2c_nodes mp) m = Some (z, i) ->
    exists i', nth_error (m2c_nodes mp') m = Some (z, i') /\
      (exists v, node_coords zs z i = Some v /\ node_coords zs' z i' = Some v) /\
      (exists d, node_data zs z i = Some d /\ node_data zs' z i' = Some d);
  (** a METIS cell stays in its section and keeps its METIS nodes and its data *)
  sm_cells : forall m z s c, nth_error (m2c_cells mp) m = Some (z, s, c) ->
    exists c', nth_error (m2c_cells mp') m = Some (z, s, c') /\
      (exists row, metis_row zs mp z s c = Some row /\ metis_row zs' mp' z s c' = Some row) /\
      (exists d, cell_data zs z c = Some d /\ cell_data zs' z c' = Some d);
  (** sections keep everything but their connectivity *)
  sm_sections : forall z s sec,
    (do zn <- at1 zs z; at1 (z_sections zn) s) = Some sec ->
    exists sec', (do zn <- at1 zs' z; at1 (z_sections zn) s) = Some sec' /\ same_section sec sec';
  (** the faces of a boundary section are only reordered *)
  sm_faces : forall z s sec,
    (do zn <- at1 zs z; at1 (z_sections zn) s) = Some sec ->
    exists rows rows', section_rows zs mp z s = Some rows /\
      section_rows zs' mp' z s = Some rows' /\ Permutation rows rows'
}.

(** part numbers are non-decreasing along the CGNS numbers of each zone/section *)
Record parts_sorted (cell_parts node_parts : list nat) (mp : Mapper) : Prop := {
  ps_nodes : forall z i j m n p q, i < j ->
    node_of mp z i = Some m -> node_of mp z j = Some n ->
    nth_error node_parts m = Some p -> nth_error node_parts n = Some q -> p <= q;
  ps_cells : forall z s i j m n p q, i < j ->
    cell_of mp z s i = Some m -> cell_of mp z s j = Some n ->
    nth_error cell_parts m = Some p -> nth_error cell_parts n = Some q -> p <= q
}.

(** the faces of a boundary section are reordered by their part numbers [fps] *)
Definition faces_follow {A} (cell_dim : Z) (zs zs' : list (Zone A)) (mp mp' : Mapper)
    (fps : list (list (option (list nat)))) : Prop :=
  forall z s sec, (do zn <- at1 zs z; at1 (z_sections zn) s) = Some sec ->
    s_dim sec <> cell_dim ->
    exists ps rows rows' n2o o2n,
      (do fp <- at1 fps z; at1 fp s) = Some (Some ps) /\ length ps = s_count sec /\
      section_rows zs mp z s = Some rows /\ section_rows zs' mp' z s = Some rows' /\
      length rows = s_count sec /\ length rows' = s_count sec /\
      is_new_order ps n2o o2n /\
      forall k old, nth_error n2o k = Some old -> nth_error rows' k = nth_error rows old.
