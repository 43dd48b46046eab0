(** Model of the parts of [mini::mesh::part::Part] (/repo/include/mini/mesh/part.hpp) that
    read the partition files and exchange nodes, cells and coefficients between
    the MPI processes.  All processes are modelled together: index [p] in a list is
    the process of rank [p]. *)
From Coq Require Import List Arith ZArith Bool.
From Verif Require Import Arrays Model_Cgns Model_Mapper Model_Partition.
Import ListNotations.

(** ** [std::map] with integer keys: list sorted by key *)

Fixpoint lookup {V} (k : nat) (m : list (nat * V)) : option V :=
  match m with
  | [] => None
  | (k', v) :: t => if k =? k' then Some v else lookup k t
  end.

(** [m[k]] created if absent, then changed by [f] *)
Fixpoint map_update {V} (k : nat) (f : option V -> V) (m : list (nat * V)) : list (nat * V) :=
  match m with
  | [] => [(k, f None)]
  | (k', v) :: t =>
    if k <? k' then (k, f None) :: m
    else if k' <? k then (k', v) :: map_update k f t
    else (k', f (Some v)) :: t
  end.

(** [m[k] = v] *)
Definition put {V} (m : list (nat * V)) (x : nat * V) : list (nat * V) :=
  map_update (fst x) (fun _ => snd x) m.

(** repeat: [m[k]] (created as [init]) is changed by [step .. v] *)
Definition group {V W} (step : W -> V -> W) (init : W) (lines : list (nat * V))
    : list (nat * W) :=
  fold_left (fun m x =>
    map_update (fst x)
      (fun o => step (match o with Some w => w | None => init end) (snd x)) m) lines [].

(** [vec.emplace_back(v)] *)
Definition push {V} (l : list V) (v : V) : list V := l ++ [v].

(** [std::is_sorted] *)
Fixpoint is_sorted (l : list nat) : bool :=
  match l with
  | x :: (y :: _) as t => (x <=? y) && is_sorted t
  | _ => true
  end.

(** ** Messages *)

(** the data that arrives in [q] for the receive [(from, length)] *)
Definition recv_one {X} (sends : list (list (nat * list X))) (q : nat) (x : nat * nat)
    : option (nat * list X) :=
  do ps <- nth_error sends (fst x);
  do buf <- lookup q ps;
  if length buf =? snd x then Some (fst x, buf) else None.

(** the message [(to, data)] of [p] is received *)
Definition received {X} (recvs : list (list (nat * nat))) (p : nat) (x : nat * list X) : bool :=
  match nth_error recvs (fst x) with
  | None => false
  | Some r => existsb (fun y => fst y =? p) r
  end.

(** One round of [MPI_Isend] (to, data), [MPI_Irecv] (from, length) and [MPI_Waitall] in
    every process.  The tag of a message is the rank of its receiver, in a round there is
    at most one message from a process to another, so a receive from [p] in [q] gets the data
    sent by [p] to [q].  A receive without a send, a send without a receive (never
    completes) and a wrong length are [None]. *)
Definition exchange {X} (sends : list (list (nat * list X))) (recvs : list (list (nat * nat)))
    : option (list (list (nat * list X))) :=
  if forallb (fun ps => forallb (received recvs (fst ps)) (snd ps))
       (combine (seq 0 (length sends)) sends)
  then mapM (fun qr : nat * list (nat * nat) => mapM (recv_one sends (fst qr)) (snd qr))
         (combine (seq 0 (length recvs)) recvs)
  else None.

(** cut a buffer into chunks of the given lengths; all of it must be used
    (the assertion in line 1301; the pointer arithmetic in lines 653-661 and 946-960 would
    otherwise leave the buffer) *)
Fixpoint chunks {X} (sizes : list nat) (buf : list X) : option (list (list X)) :=
  match sizes with
  | [] => match buf with [] => Some [] | _ => None end
  | n :: t =>
    do c <- slice buf 0 n;
    do cs <- chunks t (skipn n buf);
    Some (c :: cs)
  end.

(** zip two lists of the same length *)
Fixpoint zipM {X Y Z} (f : X -> Y -> option Z) (l : list X) (l' : list Y) : option (list Z) :=
  match l, l' with
  | [], [] => Some []
  | x :: t, y :: t' =>
    do z <- f x y;
    do zs <- zipM f t t';
    Some (z :: zs)
  | _, _ => None
  end.

Section Part.
  Context {A : Type} (prj : A -> nat).

  Definition Point : Type := A * A * A.

  (** ** Nodes *)

  (** the members [local_nodes_] (per zone: [head_] and coordinates), [m_to_node_index_] and
      [ghost_nodes_] (latest assignment first) *)
  Record NodeStore := mkNodes {
    ns_local : list (nat * list Point);
    ns_index : list (nat * (nat * nat));
    ns_ghost : list (nat * nat * Point)
  }.

  (** part.hpp lines 564-592 for one zone.  [cgp_coord_read_data] and
      [cgp_field_general_read_data] deliver the values with ids in [head, tail);
      MetisIndex is the second field written by [WriteParts].  An empty range reads
      nothing (what the CGNS library does with such a range is not modelled). *)
  Definition read_nodes (z : nat) (zn : Zone A) (r : nat * nat)
      : option (nat * list Point * list (nat * (nat * nat))) :=
    let ids := seq (fst r) (snd r - fst r) in
    do xs <- mapM (fun i => do x <- at1 (z_x zn) i; do y <- at1 (z_y zn) i;
                            do w <- at1 (z_z zn) i; Some (x, y, w)) ids;
    do f <- nth_error (z_node_fields zn) 1;
    do ms <- mapM (at1 f) ids;
    Some (fst r, xs, combine (map prj ms) (map (pair z) ids)).

  Fixpoint read_zones (z : nat) (zs : list (Zone A)) (rs : list (nat * nat))
      : option NodeStore :=
    match zs, rs with
    | [], [] => Some (mkNodes [] [] [])
    | zn :: zs', r :: rs' =>
      do (h, xs, idx) <- read_nodes z zn r;
      do st <- read_zones (S z) zs' rs';
      Some (mkNodes ((h, xs) :: ns_local st) (idx ++ ns_index st) [])
    | _, _ => None
    end.

  (** part.hpp lines 553-594 [BuildLocalNodes] *)
  Definition BuildLocalNodes (zs : list (Zone A)) (f : PartFile) : option NodeStore :=
    read_zones 1 zs (pf_nodes f).

  Definition ghost_at (st : NodeStore) (z i : nat) : option Point :=
    option_map snd
      (List.find (fun x => (fst (fst x) =? z) && (snd (fst x) =? i)) (ns_ghost st)).

  (** part.hpp lines 1535-1546 [GetCoord]; [Coordinates::has] line 97 *)
  Definition GetCoord (st : NodeStore) (z i : nat) : option Point :=
    match at1 (ns_local st) z with
    | Some (h, xs) =>
      if (h <=? i) && (i <? length xs + h) then nth_error xs (i - h) else ghost_at st z i
    | None => ghost_at st z i
    end.

  (** part.hpp lines 601-606 *)
  Definition send_nodes (f : PartFile) : list (nat * list nat) := group push [] (pf_send f).

  (** part.hpp lines 625-629 *)
  Definition recv_nodes (f : PartFile) : list (nat * list nat) :=
    group push [] (map (fun '(p, k, _, _) => (p, k)) (pf_recv f)).

  Definition point_data (x : Point) : list A := let '(a, b, c) := x in [a; b; c].

  (** part.hpp lines 609-622 *)
  Definition pack_nodes (st : NodeStore) (x : nat * list nat) : option (nat * list A) :=
    if is_sorted (snd x) then
      do pts <- mapM (fun m => do (z, i) <- lookup m (ns_index st); GetCoord st z i) (snd x);
      Some (fst x, concat (map point_data pts))
    else None.

  (** part.hpp lines 631-638 *)
  Definition recv_nodes_size (x : nat * list nat) : option (nat * nat) :=
    if is_sorted (snd x) then Some (fst x, 3 * length (snd x)) else None.

  (** part.hpp lines 655-660, one node *)
  Definition store_node (st : NodeStore) (x : nat * list A) : option NodeStore :=
    match snd x with
    | [a; b; c] =>
      do (z, i) <- lookup (fst x) (ns_index st);
      Some (mkNodes (ns_local st) (ns_index st) ((z, i, (a, b, c)) :: ns_ghost st))
    | _ => None
    end.

  (** part.hpp lines 654-661, one source *)
  Definition store_nodes (st : NodeStore) (x : list nat * list A) : option NodeStore :=
    do cs <- chunks (repeat 3 (length (fst x))) (snd x);
    foldM store_node (combine (fst x) cs) st.

  (** part.hpp lines 650-662 [BuildGhostNodes] *)
  Definition BuildGhostNodes (st : NodeStore) (f : PartFile) (bufs : list (nat * list A))
      : option NodeStore :=
    let recv := recv_nodes f in
    if length recv =? length bufs
    then foldM store_nodes (combine (map snd recv) (map snd bufs)) st else None.

  (** part.hpp lines 625-630: [m_to_node_index_.emplace] keeps the entry of a key
      that is already present *)
  Definition add_ghost_index (st : NodeStore) (f : PartFile) : NodeStore :=
    mkNodes (ns_local st)
      (ns_index st ++ map (fun '(_, k, z, i) => (k, (z, i))) (pf_recv f)) (ns_ghost st).

  (** part.hpp lines 469-473: [BuildLocalNodes], [ShareGhostNodes] (595-648) and
      [BuildGhostNodes] in all processes *)
  Definition BuildNodes (zs : list (Zone A)) (files : list PartFile)
      : option (list NodeStore) :=
    do sts <- mapM (BuildLocalNodes zs) files;
    do sends <- mapM (fun x => mapM (pack_nodes (fst x)) (send_nodes (snd x)))
                  (combine sts files);
    do recvs <- mapM (fun f => mapM recv_nodes_size (recv_nodes f)) files;
    do bufs <- exchange sends recvs;
    mapM (fun x => BuildGhostNodes (add_ghost_index (fst (fst x)) (snd (fst x)))
                     (snd (fst x)) (snd x))
      (combine (combine sts files) bufs).

  (** ** Cells *)

  (** a cell in [local_cells_] with its metis id, its place and its nodes *)
  Record LocalCell := mkCell {
    lc_metis : nat;
    lc_zone : nat;
    lc_sect : nat;
    lc_cell : nat;
    lc_nodes : list nat
  }.

  (** part.hpp lines 764-816 for one section; the range is [None] for a section of lower
      dimension, which has no line in the file *)
  Definition read_cells (z s : nat) (field : list A) (sec : Section) (r : option (nat * nat))
      : option (list LocalCell) :=
    match r with
    | None => Some []
    | Some (h, t) =>
      mapM (fun c => do m <- at1 field c; do row <- cell_row sec c;
                     Some (mkCell (prj m) z s c row)) (seq h (t - h))
    end.

  Fixpoint read_sections (z s : nat) (field : list A) (ss : list Section)
      (rs : list (option (nat * nat))) : option (list LocalCell) :=
    match ss, rs with
    | [], [] => Some []
    | sec :: ss', r :: rs' =>
      do l <- read_cells z s field sec r;
      do l' <- read_sections z (S s) field ss' rs';
      Some (l ++ l')
    | _, _ => None
    end.

  Fixpoint read_cell_zones (z : nat) (zs : list (Zone A))
      (rs : list (list (option (nat * nat)))) : option (list LocalCell) :=
    match zs, rs with
    | [], [] => Some []
    | zn :: zs', r :: rs' =>
      do field <- nth_error (z_cell_fields zn) 1;
      do l <- read_sections z 1 field (z_sections zn) r;
      do l' <- read_cell_zones (S z) zs' rs';
      Some (l ++ l')
    | _, _ => None
    end.

  (** part.hpp lines 761-817 [BuildLocalCells]: all local cells in the order of
      the loops over [local_cells_] (zone, section, cell) *)
  Definition BuildLocalCells (zs : list (Zone A)) (f : PartFile) : option (list LocalCell) :=
    read_cell_zones 1 zs (pf_cells f).

  (** part.hpp lines 876-884 ([BuildAdj]): [send_npes[p][i] = npe_i] *)
  Definition send_npes (f : PartFile) : list (nat * list (nat * nat)) :=
    group put [] (map (fun '(p, i, _, ni, _) => (p, (i, ni))) (pf_inter f)).

  Definition recv_npes (f : PartFile) : list (nat * list (nat * nat)) :=
    group put [] (map (fun '(p, _, j, _, nj) => (p, (j, nj))) (pf_inter f)).

  (** [m_to_cell_index_.at(m_cell)]: lines 782-786 *)
  Definition find_cell (cells : list LocalCell) (m : nat) : option LocalCell :=
    List.find (fun c => lc_metis c =? m) cells.

  (** part.hpp lines 896-908: one cell is sent as its zone and its nodes *)
  Definition pack_cell (cells : list LocalCell) (x : nat * nat) : option (list nat) :=
    do c <- find_cell cells (fst x);
    if length (lc_nodes c) =? snd x then Some (lc_zone c :: lc_nodes c) else None.

  Definition pack_cells (cells : list LocalCell) (x : nat * list (nat * nat))
      : option (nat * list nat) :=
    do bufs <- mapM (pack_cell cells) (snd x);
    Some (fst x, concat bufs).

  (** part.hpp lines 917-925 *)
  Definition recv_cells_size (x : nat * list (nat * nat)) : nat * nat :=
    (fst x, fold_right (fun y n => 1 + snd y + n) 0 (snd x)).

  (** part.hpp lines 950-960: one ghost cell: metis id, zone and nodes *)
  Definition ghost_cell (x : (nat * nat) * list nat) : option (nat * (nat * list nat)) :=
    match snd x with
    | z :: row => Some (fst (fst x), (z, row))
    | [] => None
    end.

  (** part.hpp lines 946-961: the cells of one source *)
  Definition ghost_cells_from (x : list (nat * nat)) (buf : nat * list nat)
      : option (list (nat * (nat * list nat))) :=
    do cs <- chunks (map (fun y => S (snd y)) x) (snd buf);
    mapM ghost_cell (combine x cs).

  (** part.hpp lines 939-963 [BuildGhostCells]: the keys and the content of [ghost_cells_]
      in order of construction *)
  Definition BuildGhostCells (f : PartFile) (bufs : list (nat * list nat))
      : option (list (nat * (nat * list nat))) :=
    do l <- zipM ghost_cells_from (map snd (recv_npes f)) bufs;
    Some (concat l).

  (** part.hpp lines 474-479: [BuildLocalCells], [BuildAdj], [ShareGhostCells] (888-935) and
      [BuildGhostCells] in all processes *)
  Definition BuildCells (zs : list (Zone A)) (files : list PartFile)
      : option (list (list LocalCell * list (nat * (nat * list nat)))) :=
    do locals <- mapM (BuildLocalCells zs) files;
    do sends <- mapM (fun x => mapM (pack_cells (fst x)) (send_npes (snd x)))
                  (combine locals files);
    do bufs <- exchange sends (map (fun f => map recv_cells_size (recv_npes f)) files);
    do ghosts <- mapM (fun x => BuildGhostCells (fst x) (snd x)) (combine files bufs);
    Some (combine locals ghosts).
End Part.

(** ** Coefficients of the solution *)

Section Coeffs.
  Context {A : Type} (kFields : nat).

  (** coefficients by metis id, of the local cells and of the ghost cells *)
  Record Coeffs := mkCoeffs {
    co_local : list (nat * list A);
    co_ghost : list (nat * list A)
  }.

  (** part.hpp lines 1262-1269: [WriteCoeffTo] of the cells in [send_cell_ptrs_], which
      [FillCellPtrs] (964-976) fills in the order of [send_npes] *)
  Definition pack_coeffs (co : Coeffs) (x : nat * list (nat * nat)) : option (nat * list A) :=
    do cs <- mapM (fun y => lookup (fst y) (co_local co)) (snd x);
    let buf := concat cs in
    if length buf =? length (snd x) * kFields then Some (fst x, buf) else None.

  (** part.hpp line 985 *)
  Definition recv_coeffs_size (x : nat * list (nat * nat)) : nat * nat :=
    (fst x, length (snd x) * kFields).

  (** [ghost_cells_.at(m)] gets new coefficients *)
  Fixpoint set_coeff (m : nat) (c : list A) (l : list (nat * list A))
      : option (list (nat * list A)) :=
    match l with
    | [] => None
    | (k, v) :: t => if m =? k then Some ((k, c) :: t) else
                     do t' <- set_coeff m c t; Some ((k, v) :: t')
    end.

  (** part.hpp lines 1294-1302: [GetCoeffFrom] of the cells in [recv_cell_ptrs_] *)
  Definition unpack_coeffs (co : Coeffs) (x : list (nat * nat) * list A) : option Coeffs :=
    do cs <- chunks (repeat kFields (length (fst x))) (snd x);
    do g <- foldM (fun g y => set_coeff (fst (fst y)) (snd y) g) (combine (fst x) cs)
              (co_ghost co);
    Some (mkCoeffs (co_local co) g).

  Definition unpack_all (f : PartFile) (co : Coeffs) (bufs : list (nat * list A))
      : option Coeffs :=
    let recv := recv_npes f in
    if length recv =? length bufs
    then foldM unpack_coeffs (combine (map snd recv) (map snd bufs)) co else None.

  (** part.hpp lines 1258-1303: [ShareGhostCellCoeffs] and [UpdateGhostCellCoeffs] in all
      processes *)
  Definition ShareCoeffs (files : list PartFile) (cos : list Coeffs) : option (list Coeffs) :=
    do sends <- mapM (fun x => mapM (pack_coeffs (snd x)) (send_npes (fst x)))
                  (combine files cos);
    do bufs <- exchange sends (map (fun f => map recv_coeffs_size (recv_npes f)) files);
    mapM (fun x => unpack_all (fst (fst x)) (snd (fst x)) (snd x))
      (combine (combine files cos) bufs).
End Coeffs.
