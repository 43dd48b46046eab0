(** Model of [CgnsToMetis], /repo/include/mini/mesh/mapper.hpp. *)
From Coq Require Import List Arith ZArith.
From Verif Require Import Arrays Model_Cgns.
Import ListNotations.

(** mapper.hpp lines 52-59.  Entry 0 of each CGNS-indexed vector is a dummy in
    the C++ code; here position [k] holds the data of CGNS index [k+1]
    (see [Arrays.at1]).  A [ShiftedVector] (cgns.hpp lines 155-185) is the pair
    of its shift and its data. *)
Record Mapper := mkMapper {
  m2c_nodes : list (nat * nat);          (* (i_zone, i_node) *)
  m2c_cells : list (nat * nat * nat);    (* (i_zone, i_sect, i_cell) *)
  c2m_nodes : list (list nat);
  c2m_cells : list (list (nat * list nat))
}.

(** the METIS mesh returned by [Map]: metis.hpp lines 117-141 *)
Record MetisMesh := mkMetis {
  mm_range : list nat; mm_index : list nat; mm_nodes : nat
}.

(** mapper.hpp lines 86-89: loop over the nodes of one zone *)
Definition map_nodes (i_zone n : nat) (st : list (nat * nat) * list nat * nat)
    : list (nat * nat) * list nat * nat :=
  fold_left
    (fun '(m2c, nodes, n_nodes) i_node =>
       (m2c ++ [(i_zone, i_node)], nodes ++ [n_nodes], S n_nodes))
    (seq 1 n) st.

(** state of the loops over cells: metis_to_cgns_for_cells, cell_ptr,
    pointer_value, cell_idx *)
Record CellState := mkCS {
  cs_m2c : list (nat * nat * nat); cs_ptr : list nat; cs_val : nat; cs_idx : list nat
}.

(** mapper.hpp lines 104-109: loop over the cells of one section; the vector
    [metis_i_cells] is filled in order *)
Definition map_cells (i_zone i_sect first n npe : nat)
    (st : CellState * list nat) : CellState * list nat :=
  fold_left
    (fun '(cs, metis_i_cells) i_cell =>
       (mkCS (cs_m2c cs ++ [(i_zone, i_sect, i_cell)])
             (cs_ptr cs ++ [cs_val cs + npe]) (cs_val cs + npe) (cs_idx cs),
        metis_i_cells ++ [length (cs_m2c cs)]))
    (seq first n) st.

(** mapper.hpp lines 93-117: one section.  Node ids are 1-based, so
    [n_nodes_in_prev_zones + id - 1] is computed in [nat]. *)
Definition map_section (cell_dim : Z) (i_zone i_sect n_prev : nat) (s : Section)
    (cs : CellState) : option (CellState * (nat * list nat)) :=
  if CheckTypeDim (s_type s) cell_dim then
    let '(cs1, metis_i_cells) :=
      map_cells i_zone i_sect (s_first s) (s_count s) (s_npe s) (cs, []) in
    do i_node_list <- slice (s_conn s) 0 (s_npe s * s_count s);
    Some (mkCS (cs_m2c cs1) (cs_ptr cs1) (cs_val cs1)
            (cs_idx cs1 ++ map (fun id => n_prev + id - 1) i_node_list),
          (s_first s, metis_i_cells))
  else Some (cs, (0, [])).

Fixpoint map_sections (cell_dim : Z) (i_zone i_sect n_prev : nat) (ss : list Section)
    (cs : CellState) : option (CellState * list (nat * list nat)) :=
  match ss with
  | [] => Some (cs, [])
  | s :: t =>
    do (cs1, v) <- map_section cell_dim i_zone i_sect n_prev s cs;
    do (cs2, vs) <- map_sections cell_dim i_zone (S i_sect) n_prev t cs1;
    Some (cs2, v :: vs)
  end.

(** mapper.hpp lines 77-119: loop over zones *)
Fixpoint map_zones {A} (cell_dim : Z) (i_zone n_prev : nat) (zs : list (Zone A))
    (n_nodes : nat) (m2c : list (nat * nat)) (cs : CellState)
    : option (nat * list (nat * nat) * CellState
              * list (list nat) * list (list (nat * list nat))) :=
  match zs with
  | [] => Some (n_nodes, m2c, cs, [], [])
  | z :: t =>
    let '(m2c1, nodes, n_nodes1) := map_nodes i_zone (CountNodes z) (m2c, [], n_nodes) in
    do (cs1, v) <- map_sections cell_dim i_zone 1 n_prev (z_sections z) cs;
    do (n2, m2c2, cs2, cn, cc) <-
      map_zones cell_dim (S i_zone) (n_prev + CountNodes z) t n_nodes1 m2c1 cs1;
    Some (n2, m2c2, cs2, nodes :: cn, v :: cc)
  end.

(** mapper.hpp lines 62-123: [Map] on a fresh mapper *)
Definition Map {A} (cell_dim : Z) (zones : list (Zone A)) : option (Mapper * MetisMesh) :=
  do (n, m2c, cs, cn, cc) <- map_zones cell_dim 1 0 zones 0 [] (mkCS [] [0] 0 []);
  if Nat.eqb (length m2c) n
  then Some (mkMapper m2c (cs_m2c cs) cn cc, mkMetis (cs_ptr cs) (cs_idx cs) n)
  else None.

(** [cgns_to_metis_for_nodes.at(z).at(i)] *)
Definition node_of (mp : Mapper) (z i : nat) : option nat :=
  do nodes <- at1 (c2m_nodes mp) z; at1 nodes i.

(** [cgns_to_metis_for_cells.at(z).at(s).at(c)] *)
Definition cell_of (mp : Mapper) (z s c : nat) : option nat :=
  do sects <- at1 (c2m_cells mp) z;
  do (shift, data) <- at1 sects s;
  if c <? shift then None else nth_error data (c - shift).

(** mapper.hpp lines 125-144: [IsValid]; [None] is a thrown exception *)
Fixpoint nodes_valid (mp : Mapper) (m : nat) (l : list (nat * nat)) : option bool :=
  match l with
  | [] => Some true
  | (z, i) :: t =>
    do k <- node_of mp z i;
    if Nat.eqb k m then nodes_valid mp (S m) t else Some false
  end.

Fixpoint cells_valid (mp : Mapper) (m : nat) (l : list (nat * nat * nat)) : option bool :=
  match l with
  | [] => Some true
  | (z, s, c) :: t =>
    do k <- cell_of mp z s c;
    if Nat.eqb k m then cells_valid mp (S m) t else Some false
  end.

Definition IsValid (mp : Mapper) : option bool :=
  do b <- nodes_valid mp 0 (m2c_nodes mp);
  if b then cells_valid mp 0 (m2c_cells mp) else Some false.
