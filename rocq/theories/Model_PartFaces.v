(** Model of the faces that [mini::mesh::part::Part] (/repo/include/mini/mesh/part.hpp) builds from the
    cells, the nodes and the partition file of a process. *)
From Coq Require Import List Arith Bool String.
From Verif Require Import Arrays Model_Cgns Model_Mapper Model_Partition Model_Part.
From Verif Require Model_Geometry.
Import ListNotations.

Section PartFaces.
  Context {A : Type}.
  (** the keys of a [std::unordered_map] into which the members of a list have been inserted, in the order
      in which a range-based loop visits them *)
  Variable hash_order : list nat -> list nat.

  (** part.hpp lines 106-141 [Face]: [id_], [holder_] and [sharer_] (metis ids; [None] is [nullptr]), the
      zone and the nodes given to [BuildGaussForFace], and their coordinates, from which [lagrange_ptr_] and
      [gauss_ptr_] are made *)
  Record PartFace := mkFace {
    f_id : nat;
    f_holder : nat;
    f_sharer : option nat;
    f_zone : nat;
    f_nodes : list nat;
    f_coords : list (@Point A)
  }.

  (** part.hpp lines 709-725 [BuildGaussForCell]: the type of a cell is chosen by its number of nodes;
      geometry/cell.hpp lines 266-289 [SortNodesOnFace] calls the method of that type *)
  Definition SortNodesOnFace (cell face : list nat) : option (list nat) :=
    match List.length cell with
    | 4 => Model_Geometry.Tetrahedron4_Sort cell face
    | 5 => Model_Geometry.Pyramid5_Sort cell face
    | 6 => Model_Geometry.Wedge6_Sort cell face
    | 8 => Model_Geometry.Hexahedron_Sort 4 cell face
    | _ => None
    end.

  (** part.hpp lines 726-760 [BuildTriangleUptr], [BuildQuadrangleUptr], [BuildGaussForFace] *)
  Definition BuildGaussForFace (st : @NodeStore A) (z : nat) (nodes : list nat)
      : option (list (@Point A)) :=
    match List.length nodes with
    | 3 | 4 => mapM (GetCoord st z) nodes
    | _ => None
    end.

  (** part.hpp lines 998-1016 and 1045-1061: the nodes that are counted twice *)
  Definition common_nodes (holder sharer : list nat) : list nat :=
    filter (fun k => count_occ Nat.eq_dec (holder ++ sharer) k =? 2) (hash_order (holder ++ sharer)).

  (** [local_cells_[z][s][c]] with [connectivities_.at(z).at(s).index[c]] *)
  Definition cell_at (cells : list LocalCell) (z s c : nat) : option LocalCell :=
    List.find (fun x => (lc_zone x =? z) && (lc_sect x =? s) && (lc_cell x =? c)) cells.

  (** part.hpp lines 994-1033: one pair; both cells are looked for in the zone of the holder *)
  Definition local_face (cells : list LocalCell) (st : @NodeStore A) (id : nat) (x : nat * nat)
      : option PartFace :=
    do h <- find_cell cells (fst x);
    do s <- find_cell cells (snd x);
    let z := lc_zone h in
    do holder <- cell_at cells z (lc_sect h) (lc_cell h);
    do sharer <- cell_at cells z (lc_sect s) (lc_cell s);
    do nodes <- SortNodesOnFace (lc_nodes holder) (common_nodes (lc_nodes holder) (lc_nodes sharer));
    do coords <- BuildGaussForFace st z nodes;
    Some (mkFace id (lc_metis holder) (Some (lc_metis sharer)) z nodes coords).

  (** part.hpp lines 1040-1078: one pair *)
  Definition ghost_face (cells : list LocalCell) (ghosts : list (nat * (nat * list nat)))
      (st : @NodeStore A) (id : nat) (x : nat * nat) : option PartFace :=
    do h <- find_cell cells (fst x);
    do (_, sharer_nodes) <- lookup (snd x) ghosts;
    let z := lc_zone h in
    do holder <- cell_at cells z (lc_sect h) (lc_cell h);
    do nodes <- SortNodesOnFace (lc_nodes holder) (common_nodes (lc_nodes holder) sharer_nodes);
    do coords <- BuildGaussForFace st z nodes;
    Some (mkFace id (lc_metis holder) (Some (snd x)) z nodes coords).

  (** repeat with consecutive ids *)
  Fixpoint number {X} (f : nat -> X -> option PartFace) (id : nat) (l : list X)
      : option (list PartFace) :=
    match l with
    | [] => Some []
    | x :: t =>
      do y <- f id x;
      do ys <- number f (S id) t;
      Some (y :: ys)
    end.

  (** part.hpp lines 992-1034 [BuildLocalFaces] *)
  Definition BuildLocalFaces (cells : list LocalCell) (st : @NodeStore A) (f : PartFile)
      : option (list PartFace) :=
    number (local_face cells st) 0 (pf_inner f).

  (** part.hpp lines 876-884: [m_cell_pairs] *)
  Definition ghost_pairs (f : PartFile) : list (nat * nat) :=
    map (fun '(_, i, j, _, _) => (i, j)) (pf_inter f).

  (** part.hpp lines 1035-1079 [BuildGhostFaces]; [n_local] is the size of [local_faces_] *)
  Definition BuildGhostFaces (cells : list LocalCell) (ghosts : list (nat * (nat * list nat)))
      (st : @NodeStore A) (f : PartFile) (n_local : nat) : option (list PartFace) :=
    number (ghost_face cells ghosts st) n_local (ghost_pairs f).

  (** part.hpp lines 1022-1023 (local faces), 1067 (ghost faces): [adj_cells_] of the cell with
      metis id [m]: each local face adds the sharer to the holder and the holder to the sharer, each
      ghost face adds the sharer to the holder *)
  Definition adj_cells (locals ghosts : list PartFace) (m : nat) : list nat :=
    flat_map (fun F =>
      (if f_holder F =? m then match f_sharer F with Some s => [s] | None => [] end else []) ++
      (match f_sharer F with Some s => if s =? m then [f_holder F] else [] | None => [] end)) locals ++
    flat_map (fun F =>
      if f_holder F =? m then match f_sharer F with Some s => [s] | None => [] end else []) ghosts.

  (** part.hpp lines 1031-1032, 1076: [adj_faces_], by face id (boundary faces are not entered: line 1523
      is a comment) *)
  Definition adj_faces (locals ghosts : list PartFace) (m : nat) : list nat :=
    flat_map (fun F =>
      (if f_holder F =? m then [f_id F] else []) ++
      (match f_sharer F with Some s => if s =? m then [f_id F] else [] | None => [] end)) locals ++
    flat_map (fun F => if f_holder F =? m then [f_id F] else []) ghosts.

  (** ** Boundary faces *)

  (** part.hpp lines 1442-1458: [z_n_to_m_cells[z][i]] *)
  Definition cells_of_node (cells : list LocalCell) (z i : nat) : list nat :=
    flat_map (fun c => if lc_zone c =? z
                       then repeat (lc_metis c) (count_occ Nat.eq_dec (lc_nodes c) i) else []) cells.

  (** part.hpp lines 1501-1515: the loop over [cell_cnt], with its assertion *)
  Fixpoint holder_loop (npe : nat) (cnt : nat -> nat) (keys : list nat) : option nat :=
    match keys with
    | [] => None
    | m :: t =>
      if npe <? cnt m then None else if cnt m =? npe then Some m else holder_loop npe cnt t
    end.

  (** part.hpp lines 1493-1524: one face.  Without a holder the pointer [holder_ptr] is not initialised:
      [None].  The assertion on the direction of the normal in lines 1521-1522 is not modelled. *)
  Definition boundary_face (cells : list LocalCell) (st : @NodeStore A) (z : nat) (id : nat)
      (row : list nat) : option PartFace :=
    let users := flat_map (cells_of_node cells z) row in
    do m <- holder_loop (List.length row) (count_occ Nat.eq_dec users) (hash_order users);
    do h <- find_cell cells m;
    do holder <- cell_at cells (lc_zone h) (lc_sect h) (lc_cell h);
    do nodes <- SortNodesOnFace (lc_nodes holder) row;
    do coords <- BuildGaussForFace st z nodes;
    Some (mkFace id (lc_metis holder) None z nodes coords).

  (** the member [bound_faces_] with the names of the sections, in the order of the lines of the file *)
  Record BoundFaces := mkBound {
    b_zone : nat;
    b_sect : nat;
    b_name : string;
    b_faces : list PartFace
  }.

  (** part.hpp lines 1464-1525: one line of the file.  An empty range reads nothing (what the CGNS library
      does with such a range is not modelled). *)
  Definition section_faces (cells : list LocalCell) (st : @NodeStore A) (z s id : nat) (sec : Section)
      (r : option (nat * nat)) : option (list BoundFaces) :=
    match r with
    | None => Some []
    | Some (h, t) =>
      do rows <- mapM (cell_row sec) (seq h (t - h));
      do fs <- number (boundary_face cells st z) id rows;
      Some [mkBound z s (s_name sec) fs]
    end.

  Definition count_faces (l : list BoundFaces) : nat :=
    list_sum (map (fun b => List.length (b_faces b)) l).

  Fixpoint zone_faces (cells : list LocalCell) (st : @NodeStore A) (z s id : nat) (ss : list Section)
      (rs : list (option (nat * nat))) : option (list BoundFaces) :=
    match ss, rs with
    | [], [] => Some []
    | sec :: ss', r :: rs' =>
      do l <- section_faces cells st z s id sec r;
      do l' <- zone_faces cells st z (S s) (id + count_faces l) ss' rs';
      Some (l ++ l')
    | _, _ => None
    end.

  Definition is_some {X} (o : option X) : bool := match o with Some _ => true | None => false end.

  (** [z_n_to_m_cells.at(i_zone)] (line 1492) throws if the zone has faces but no line of cells *)
  Fixpoint bound_faces (cells : list LocalCell) (st : @NodeStore A) (z id : nat) (zs : list (Zone A))
      (cell_lines face_lines : list (list (option (nat * nat)))) : option (list BoundFaces) :=
    match zs, cell_lines, face_lines with
    | [], [], [] => Some []
    | zn :: zs', cs :: cs', rs :: rs' =>
      if existsb is_some rs && negb (existsb is_some cs) then None else
      do l <- zone_faces cells st z 1 id (z_sections zn) rs;
      do l' <- bound_faces cells st (S z) (id + count_faces l) zs' cs' rs';
      Some (l ++ l')
    | _, _, _ => None
    end.

  (** part.hpp lines 1440-1533 [BuildBoundaryFaces]; [n_faces] is the number of local and ghost faces *)
  Definition BuildBoundaryFaces (zs : list (Zone A)) (cells : list LocalCell) (st : @NodeStore A)
      (f : PartFile) (n_faces : nat) : option (list BoundFaces) :=
    bound_faces cells st 1 n_faces zs (pf_cells f) (pf_faces f).

  (** part.hpp lines 1462-1463, 1479 and 1527-1532: [name_to_faces_]; of several sections with the same
      name the last one is kept.  Lines 1381-1387 [GetBoundaryFaces]: [at] throws for an unknown name. *)
  Definition GetBoundaryFaces (bs : list BoundFaces) (name : string) : option (list PartFace) :=
    option_map b_faces (List.find (fun b => String.eqb (b_name b) name) (rev bs)).

  (** ** The constructor of [Part], lines 488-490: the faces of one process *)
  Record Faces := mkFaces {
    fs_local : list PartFace;
    fs_ghost : list PartFace;
    fs_bound : list BoundFaces
  }.

  Definition BuildFaces (zs : list (Zone A)) (f : PartFile)
      (cells : list LocalCell * list (nat * (nat * list nat))) (st : @NodeStore A) : option Faces :=
    do locals <- BuildLocalFaces (fst cells) st f;
    do ghosts <- BuildGhostFaces (fst cells) (snd cells) st f (List.length locals);
    do bounds <- BuildBoundaryFaces zs (fst cells) st f (List.length locals + List.length ghosts);
    Some (mkFaces locals ghosts bounds).
End PartFaces.
