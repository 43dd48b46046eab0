(** Model of [CgnsToMetis::WriteParts] (/repo/include/mini/mesh/mapper.hpp),
    [Shuffler::WritePartitionInfo] and [Shuffler::PartitionAndShuffle]
    (/repo/include/mini/mesh/shuffler.hpp). *)
From Coq Require Import List Arith ZArith.
From Verif Require Import Arrays Model_Cgns Model_Mapper Model_Metis Model_Shuffle
  Model_Shuffler.
Import ListNotations.

(** ** Index ranges of each part *)

(** shuffler.hpp lines 350-358 (nodes), 368-376 (cells), 386-394 (faces): [curr] is
    the id of the head of [rest]; a write outside of the table (whose length
    is [n_parts_]) is [None] *)
Fixpoint slice_loop (table : list (nat * nat)) (prev_id prev_part curr : nat)
    (rest : list nat) : option (list (nat * nat)) :=
  match rest with
  | [] => upd_opt table prev_part (prev_id, curr)
  | curr_part :: t =>
    if curr_part =? prev_part then slice_loop table prev_id prev_part (S curr) t
    else
      do table' <- upd_opt table prev_part (prev_id, curr);
      slice_loop table' curr curr_part (S curr) t
  end.

(** shuffler.hpp lines 348-358 (resp. 366-376, 384-394); [first] is the id of the
    head of [parts]; reading the first part of an empty field throws.
    Entries not written keep the value [{0, 0}] of [resize] (lines 331-337). *)
Definition slice_parts (n_parts first : nat) (parts : list nat)
    : option (list (nat * nat)) :=
  match parts with
  | [] => None
  | p :: t => slice_loop (repeat (0, 0) n_parts) first p (S first) t
  end.

(** ** Part numbers as CGNS fields *)

Section Fields.
  Context {A : Type} (inj : nat -> A) (prj : A -> nat).

  (** cgns.hpp line 755 [CountCells] ([n_cells_] read from the file): the number of
      cells of the highest dimension *)
  Definition zone_cells (cell_dim : Z) (zn : Zone A) : nat :=
    fold_right (fun s n => if Z.eqb (s_dim s) cell_dim then s_count s + n else n) 0
      (z_sections zn).

  (** mapper.hpp lines 158-166 *)
  Definition write_node_fields (mp : Mapper) (node_parts : list nat) (z n_nodes : nat)
      : option (list A * list A) :=
    do ms <- mapM (node_of mp z) (seq 1 n_nodes);
    do ps <- mapM (nth_error node_parts) ms;
    Some (map inj ps, map inj ms).

  (** mapper.hpp lines 182-187: one cell *)
  Definition write_cell (mp : Mapper) (cell_parts : list nat) (z s : nat)
      (fs : list A * list A) (c : nat) : option (list A * list A) :=
    do m <- cell_of mp z s c;
    do p <- nth_error cell_parts m;
    do f <- upd_opt (fst fs) (c - 1) (inj p);
    do g <- upd_opt (snd fs) (c - 1) (inj m);
    Some (f, g).

  (** mapper.hpp lines 172-188: loop over sections *)
  Fixpoint write_cells (cell_dim : Z) (mp : Mapper) (cell_parts : list nat) (z s : nat)
      (ss : list Section) (fs : list A * list A) : option (list A * list A) :=
    match ss with
    | [] => Some fs
    | sec :: t =>
      do fs1 <- (if Z.eqb (s_dim sec) cell_dim
                 then foldM (write_cell mp cell_parts z s)
                        (seq (s_first sec) (s_count sec)) fs
                 else Some fs);
      write_cells cell_dim mp cell_parts z (S s) t fs1
    end.

  (** mapper.hpp lines 154-188: loop over zones.  The two fields PartIndex and
      MetisIndex become the first fields on nodes and on cells. *)
  Fixpoint write_parts (cell_dim : Z) (mp : Mapper) (cell_parts node_parts : list nat)
      (z : nat) (zs : list (Zone A)) : option (list (Zone A)) :=
    match zs with
    | [] => Some []
    | zn :: t =>
      do (np, nm) <- write_node_fields mp node_parts z (CountNodes zn);
      do (cp, cm) <-
        write_cells cell_dim mp cell_parts z 1 (z_sections zn)
          (repeat (inj 0) (zone_cells cell_dim zn), repeat (inj 0) (zone_cells cell_dim zn));
      do zs' <- write_parts cell_dim mp cell_parts node_parts (S z) t;
      Some (mkZone (z_x zn) (z_y zn) (z_z zn) (z_sections zn)
              (np :: nm :: z_node_fields zn) (cp :: cm :: z_cell_fields zn) :: zs')
    end.

  (** mapper.hpp lines 146-189 [WriteParts] *)
  Definition WriteParts (cell_dim : Z) (mp : Mapper) (cell_parts node_parts : list nat)
      (zs : list (Zone A)) : option (list (Zone A)) :=
    write_parts cell_dim mp cell_parts node_parts 1 zs.

  (** shuffler.hpp lines 347-358 *)
  Definition zone_node_table (n_parts : nat) (zn : Zone A) : option (list (nat * nat)) :=
    do field <- nth_error (z_node_fields zn) 0;
    do parts <- slice field 0 (CountNodes zn);
    slice_parts n_parts 1 (map prj parts).

  (** shuffler.hpp lines 359-377; [None] inside marks a section that is skipped *)
  Definition section_cell_table (cell_dim : Z) (n_parts : nat) (field : list A)
      (sec : Section) : option (option (list (nat * nat))) :=
    if Z.eqb (s_dim sec) cell_dim then
      do parts <- slice field (s_first sec - 1) (s_count sec);
      do t <- slice_parts n_parts (s_first sec) (map prj parts);
      Some (Some t)
    else Some None.

  Definition zone_cell_tables (cell_dim : Z) (n_parts : nat) (zn : Zone A)
      : option (list (option (list (nat * nat)))) :=
    do field <- nth_error (z_cell_fields zn) 0;
    mapM (section_cell_table cell_dim n_parts field) (z_sections zn).

  (** shuffler.hpp lines 338-342 ([std::sort] of the part numbers of faces) and
      378-394 *)
  Definition section_face_table (cell_dim : Z) (n_parts : nat)
      (x : Section * option (list nat)) : option (option (list (nat * nat))) :=
    let (sec, fp) := x in
    if Z.eqb (s_dim sec + 1) cell_dim then
      do parts <- fp;
      do parts_n <- slice (sort_by Nat.ltb parts) 0 (s_count sec);
      do t <- slice_parts n_parts (s_first sec) parts_n;
      Some (Some t)
    else Some None.

  Definition zone_face_tables (cell_dim : Z) (n_parts : nat)
      (x : Zone A * list (option (list nat)))
      : option (list (option (list (nat * nat)))) :=
    let (zn, fps) := x in
    if length fps =? length (z_sections zn)
    then mapM (section_face_table cell_dim n_parts) (combine (z_sections zn) fps)
    else None.
End Fields.

(** ** Adjacency of parts *)

(** Lists of length [n_parts_] indexed by part.  A [std::map<int, std::set<int>>]
    is the sorted list of its (key, element) pairs; a
    [std::map<int, std::vector<..>>] is the list of (key, element) sorted by key. *)
Record Adj := mkAdj {
  a_inner : list (list (nat * nat));          (* inner_adjs *)
  a_inter : list (list (nat * (nat * nat)));  (* part_interpart_adjs *)
  a_recv : list (list (nat * nat));           (* part_adj_nodes *)
  a_send : list (list (nat * nat))            (* sendp_recvp_nodes *)
}.

Definition pair_ltb (x y : nat * nat) : bool :=
  if fst x <? fst y then true else if fst x =? fst y then snd x <? snd y else false.

(** [map[key].emplace(value)] *)
Fixpoint set_add (x : nat * nat) (l : list (nat * nat)) : list (nat * nat) :=
  match l with
  | [] => [x]
  | y :: t =>
    if pair_ltb x y then x :: l
    else if pair_ltb y x then y :: set_add x t else l
  end.

(** [map[key].emplace_back(value)] *)
Fixpoint vec_add {V} (x : nat * V) (l : list (nat * V)) : list (nat * V) :=
  match l with
  | [] => [x]
  | y :: t => if fst x <? fst y then x :: l else y :: vec_add x t
  end.

(** [for (r = range(i); r < range(i+1); ++r) .. index(r) ..] *)
Definition csr (range idx : list nat) (i : nat) : option (list nat) :=
  do head <- nth_error range i;
  do tail <- nth_error range (S i);
  if head <? tail then slice idx head (tail - head) else Some [].

Section Adjacency.
  Variables (cell_parts node_parts : list nat) (mesh : MetisMesh) (graph : Graph).

  (** shuffler.hpp lines 408-413 and 425-430 *)
  Definition add_node (part_i : nat) (st : Adj) (i_node : nat) : option Adj :=
    do node_part <- nth_error node_parts i_node;
    if node_part =? part_i then Some st
    else
      do recv <- modify (a_recv st) part_i (set_add (node_part, i_node));
      do send <- modify (a_send st) node_part (set_add (part_i, i_node));
      Some (mkAdj (a_inner st) (a_inter st) recv send).

  (** shuffler.hpp lines 415-433 *)
  Definition add_nbr (part_i i : nat) (st : Adj) (j : nat) : option Adj :=
    do part_j <- nth_error cell_parts j;
    if part_i =? part_j then
      if i <? j then
        do inner <- modify (a_inner st) part_i (fun l => l ++ [(i, j)]);
        Some (mkAdj inner (a_inter st) (a_recv st) (a_send st))
      else Some st
    else
      do inter <- modify (a_inter st) part_i (vec_add (part_j, (i, j)));
      do nodes <- csr (mm_range mesh) (mm_index mesh) j;
      foldM (add_node part_i) nodes (mkAdj (a_inner st) inter (a_recv st) (a_send st)).

  (** shuffler.hpp lines 404-434 *)
  Definition add_cell (st : Adj) (i : nat) : option Adj :=
    do part_i <- nth_error cell_parts i;
    do nodes <- csr (mm_range mesh) (mm_index mesh) i;
    do st1 <- foldM (add_node part_i) nodes st;
    do nbrs <- csr (g_range graph) (g_index graph) i;
    foldM (add_nbr part_i i) nbrs st1.

  (** shuffler.hpp lines 397-434 *)
  Definition BuildAdjacency (n_parts : nat) : option Adj :=
    foldM add_cell (seq 0 (length (mm_range mesh) - 1))
      (mkAdj (repeat [] n_parts) (repeat [] n_parts) (repeat [] n_parts)
         (repeat [] n_parts)).
End Adjacency.

(** ** The files *)

(** the blocks of <part>.txt: shuffler.hpp lines 435-505.  The ranges are
    kept as the tables [zone -> part -> range] and
    [zone -> section -> part -> range]. *)
Record PartFile := mkFile {
  pf_nodes : list (nat * nat);                       (* per zone: head, tail *)
  pf_send : list (nat * nat);                        (* part, metis node *)
  pf_recv : list (nat * nat * nat * nat);            (* part, metis node, zone, node *)
  pf_cells : list (list (option (nat * nat)));       (* per zone and section *)
  pf_inner : list (nat * nat);
  pf_inter : list (nat * nat * nat * nat * nat);     (* part, i, j, npe_i, npe_j *)
  pf_faces : list (list (option (nat * nat)))
}.

(** shuffler.hpp lines 457-458: [metis_to_cgns_for_nodes[mid]] *)
Definition recv_line (mp : Mapper) (x : nat * nat) : option (nat * nat * nat * nat) :=
  let (p, mid) := x in
  do (z, i) <- nth_error (m2c_nodes mp) mid; Some (p, mid, z, i).

(** shuffler.hpp lines 483-488 *)
Definition cell_npe {A} (zs : list (Zone A)) (mp : Mapper) (m : nat) : option nat :=
  do (z, s, c) <- nth_error (m2c_cells mp) m;
  do zn <- at1 zs z;
  do sec <- at1 (z_sections zn) s;
  Some (s_npe sec).

(** shuffler.hpp lines 480-491 *)
Definition inter_line {A} (zs : list (Zone A)) (mp : Mapper) (x : nat * (nat * nat))
    : option (nat * nat * nat * nat * nat) :=
  let '(p, (i, j)) := x in
  do npe_i <- cell_npe zs mp i;
  do npe_j <- cell_npe zs mp j;
  Some (p, i, j, npe_i, npe_j).

Definition table_at (p : nat) (t : option (list (nat * nat)))
    : option (option (nat * nat)) :=
  match t with
  | None => Some None
  | Some l => do r <- nth_error l p; Some (Some r)
  end.

(** shuffler.hpp lines 436-504: one file *)
Definition write_file {A} (zs : list (Zone A)) (mp : Mapper)
    (nodes : list (list (nat * nat))) (cells faces : list (list (option (list (nat * nat)))))
    (adj : Adj) (p : nat) : option PartFile :=
  do nodes_p <- mapM (fun t => nth_error t p) nodes;
  do send_p <- nth_error (a_send adj) p;
  do recv_p <- nth_error (a_recv adj) p;
  do recv_lines <- mapM (recv_line mp) recv_p;
  do cells_p <- mapM (mapM (table_at p)) cells;
  do inner_p <- nth_error (a_inner adj) p;
  do inter_p <- nth_error (a_inter adj) p;
  do inter_lines <- mapM (inter_line zs mp) inter_p;
  do faces_p <- mapM (mapM (table_at p)) faces;
  Some (mkFile nodes_p send_p recv_lines cells_p inner_p inter_lines faces_p).

(** shuffler.hpp lines 316-506 [WritePartitionInfo]; [zs] and [mp] are the
    shuffled mesh and mapper, [fps] is [face_parts_] *)
Definition WritePartitionInfo {A} (prj : A -> nat) (cell_dim : Z) (n_parts : nat)
    (cell_parts node_parts : list nat) (mesh : MetisMesh) (graph : Graph)
    (fps : list (list (option (list nat)))) (zs : list (Zone A)) (mp : Mapper)
    : option (list PartFile) :=
  do nodes <- mapM (zone_node_table prj n_parts) zs;
  do cells <- mapM (zone_cell_tables prj cell_dim n_parts) zs;
  do faces <- (if length fps =? length zs
               then mapM (zone_face_tables cell_dim n_parts) (combine zs fps) else None);
  do adj <- BuildAdjacency cell_parts node_parts mesh graph n_parts;
  mapM (write_file zs mp nodes cells faces adj) (seq 0 n_parts).

(** shuffler.hpp lines 508-545 [PartitionAndShuffle].  [GetDualGraph] and
    [PartGraph] call METIS: their results [graph] and [cell_parts] are
    arguments.  [face_parts_] is filled by [FillFaceParts] inside of [Shuffle]
    (line 245) and kept for [WritePartitionInfo].  The final mapper is returned
    too. *)
Definition PartitionAndShuffle {A} (inj : nat -> A) (prj : A -> nat) (cell_dim : Z)
    (n_parts : nat) (graph : Graph) (cell_parts : list nat) (zs : list (Zone A))
    : option (list (Zone A) * Mapper * list PartFile) :=
  do (mp, mesh) <- Map cell_dim zs;
  do ok <- IsValid mp;
  if ok then
    do node_parts <- GetNodeParts mesh cell_parts n_parts;
    do zs1 <- WriteParts inj cell_dim mp cell_parts node_parts zs;
    do fps <- FillFaceParts cell_dim cell_parts mp zs1;
    do (zs2, mp2) <- Shuffle cell_dim cell_parts node_parts zs1 mp;
    do ok2 <- IsValid mp2;
    if ok2 then
      do files <- WritePartitionInfo prj cell_dim n_parts cell_parts node_parts mesh graph
                    fps zs2 mp2;
      Some (zs2, mp2, files)
    else None
  else None.
