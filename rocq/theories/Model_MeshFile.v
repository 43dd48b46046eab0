(** Model of reading and writing whole mesh files: [File], [Base], [Zone], [Coordinates],
    [Section], [ZoneBC], [Solution] and [Field] of /repo/include/mini/mesh/cgns.hpp.

    The CGNS library is external.  A file is modelled as the tree of nodes that the library
    keeps.  Writing a child appends it and gives its position; a name that is empty, longer than
    32 characters or already taken is an error, after which the code compares an index that was
    never set ([None]).  Children are read in the order in which they were written.  Conversion
    between single and double precision is not modelled. *)
From Coq Require Import String List Arith ZArith Bool.
From Verif Require Import Arrays Model_Cgns Model_Sections.
Import ListNotations.

(** cgnslib.h: [GridLocation_t] and [DataType_t], as far as used in cgns.hpp lines 243, 592, 899 *)
Inductive Location := Vertex | CellCenter | OtherLocation.
Inductive DataType := RealSingle | RealDouble.

Definition loc_eqb (a b : Location) : bool :=
  match a, b with
  | Vertex, Vertex | CellCenter, CellCenter | OtherLocation, OtherLocation => true
  | _, _ => false
  end.

Definition type_same (a b : DataType) : bool :=
  match a, b with RealSingle, RealSingle | RealDouble, RealDouble => true | _, _ => false end.

(** ** The tree kept by the library *)

(** [Elements_t] *)
Record FSection := mkFSection {
  fs_name : string; fs_type : ElementType; fs_first : nat; fs_last : nat;
  fs_conn : list nat; fs_offset : list nat
}.
(** [BC_t]; the kinds of condition and of point set are opaque numbers *)
Record FBC := mkFBC {
  fb_name : string; fb_type : nat; fb_ptset_type : nat; fb_pnts : list nat; fb_loc : Location
}.
(** [DataArray_t] below [FlowSolution_t] *)
Record FField (A : Type) := mkFField { ff_name : string; ff_type : DataType; ff_data : list A }.
Arguments mkFField {A}. Arguments ff_name {A}. Arguments ff_type {A}. Arguments ff_data {A}.
(** [FlowSolution_t] *)
Record FSoln (A : Type) := mkFSoln { fo_name : string; fo_loc : Location; fo_fields : list (FField A) }.
Arguments mkFSoln {A}. Arguments fo_name {A}. Arguments fo_loc {A}. Arguments fo_fields {A}.
(** [Zone_t] *)
Record FZone (A : Type) := mkFZone {
  fz_name : string; fz_nodes : nat; fz_cells : nat; fz_coords : list (string * list A);
  fz_bcs : list FBC; fz_sections : list FSection; fz_solns : list (FSoln A)
}.
Arguments mkFZone {A}. Arguments fz_name {A}. Arguments fz_nodes {A}. Arguments fz_cells {A}.
Arguments fz_coords {A}. Arguments fz_bcs {A}. Arguments fz_sections {A}. Arguments fz_solns {A}.
(** [CGNSBase_t] *)
Record FBase (A : Type) := mkFBase {
  fe_name : string; fe_cell_dim : nat; fe_phys_dim : nat; fe_zones : list (FZone A)
}.
Arguments mkFBase {A}. Arguments fe_name {A}. Arguments fe_cell_dim {A}. Arguments fe_phys_dim {A}.
Arguments fe_zones {A}.

(** [cg_*_write]: one more child, and its position *)
Definition legal_name (name : string) : bool :=
  (1 <=? String.length name) && (String.length name <=? 32).
Definition cg_append {X} (name : X -> string) (l : list X) (x : X) : option (list X * nat) :=
  if legal_name (name x) && negb (existsb (fun y => String.eqb (name y) (name x)) l)
  then Some (l ++ [x], S (List.length l))%list else None.

(** What all the loops of [Write] do: make a node [mk x], append it, and compare the position
    given by the library with the id of the object. *)
Definition write_list {X Y} (name : Y -> string) (mk : X -> option Y) (ok : X -> nat -> bool)
    (l : list X) : option (list Y) :=
  foldM (fun file x =>
           do y <- mk x;
           do (file', i) <- cg_append name file y;
           if ok x i then Some file' else None) l [].

(** objects whose id is their position by construction (lines 516, 689, 884, 1103, 1202) *)
Definition by_position {X} (x : X) (i : nat) : bool := true.

(** ** The objects in memory *)

(** lines 482-492 [BC]; [bocos_[0]] is not used, so [bocos_] is modelled from 1 on *)
Record Boco := mkBoco { bo_bc : BC; bo_type : nat; bo_ptset_type : nat; bo_loc : Location }.

(** lines 565-700 [Field] and [Solution]: name and [data_] of every field *)
Record Soln (A : Type) := mkSoln { so_name : string; so_loc : Location; so_fields : list (string * list A) }.
Arguments mkSoln {A}. Arguments so_name {A}. Arguments so_loc {A}. Arguments so_fields {A}.

(** lines 702-1046 [Zone] *)
Record MZone (A : Type) := mkMZone {
  mz_name : string; mz_cells : nat; mz_x : list A; mz_y : list A; mz_z : list A;
  mz_sections : list Section; mz_bocos : list Boco; mz_solns : list (Soln A)
}.
Arguments mkMZone {A}. Arguments mz_name {A}. Arguments mz_cells {A}. Arguments mz_x {A}.
Arguments mz_y {A}. Arguments mz_z {A}. Arguments mz_sections {A}. Arguments mz_bocos {A}.
Arguments mz_solns {A}.

(** lines 1048-1161 [Base] *)
Record MBase (A : Type) := mkMBase {
  me_name : string; me_cell_dim : nat; me_phys_dim : nat; me_zones : list (MZone A)
}.
Arguments mkMBase {A}. Arguments me_name {A}. Arguments me_cell_dim {A}. Arguments me_phys_dim {A}.
Arguments me_zones {A}.

(** ** Sections *)

(** lines 319-321 [mixed] *)
Definition mixed (s : Section) : bool := type_eqb (s_type s) MIXED.

(** what the library reads from the pointers given to [cg_section_write] and
    [cg_poly_section_write] (lines 420-428), and its own check of the range *)
Definition section_node (s : Section) : option FSection :=
  if s_count s =? 0 then None
  else
    let last := s_first s + s_count s - 1 in
    if mixed s then
      do offset <- slice (s_offset s) 0 (s_count s + 1);
      do size <- nth_error offset (s_count s);
      do conn <- slice (s_conn s) 0 size;
      Some (mkFSection (s_name s) (s_type s) (s_first s) last conn offset)
    else
      do conn <- slice (s_conn s) 0 (s_npe s * s_count s);
      Some (mkFSection (s_name s) (s_type s) (s_first s) last conn []).

(** lines 418-430 [Section::Write] for the sections chosen by [Zone::Write] (lines 816-819);
    line 429 is the assertion *)
Definition chosen (min_dim max_dim : Z) (s : Section) : bool :=
  (Z.leb min_dim (s_dim s) && Z.leb (s_dim s) max_dim)%bool.
Definition write_sections (min_dim max_dim : Z) (ss : list Section) : option (list FSection) :=
  write_list fs_name section_node (fun s i => i =? s_id s) (filter (chosen min_dim max_dim) ss).

(** the arrays of a section in the file have the sizes that its range asks for *)
Definition cg_consistent (f : FSection) : bool :=
  let count := fs_last f - fs_first f + 1 in
  (1 <=? fs_first f) && (fs_first f <=? fs_last f) &&
  (if type_eqb (fs_type f) MIXED
   then (List.length (fs_offset f) =? count + 1) && (last (fs_offset f) 0 =? List.length (fs_conn f))
   else (List.length (fs_offset f) =? 0)
        && (List.length (fs_conn f) =? CountNodesByType (fs_type f) * count)).

(** lines 446-447: the dimension of the cell that starts at [i] *)
Definition cell_dim_at (f : FSection) (i : nat) : option Z :=
  do code <- nth_error (fs_conn f) i;
  do t <- code_type code;
  dim t.

(** lines 444-449: the loop over [start_offset_] *)
Definition mixed_dim (f : FSection) (d : Z) : option Z :=
  foldM (fun d i =>
           if i =? last (fs_offset f) 0 then Some d
           else do c <- cell_dim_at f i; Some (Z.max d c)) (fs_offset f) d.

(** lines 325-330 (constructor) and 435-455 [Section::Read] *)
Definition Section_Read (i_sect : nat) (f : FSection) : option Section :=
  if cg_consistent f then
    do d <- dim (fs_type f);
    do d <- (if type_eqb (fs_type f) MIXED then mixed_dim f d else Some d);
    Some (mkSection i_sect (fs_name f) (fs_first f) (fs_last f - fs_first f + 1) d (fs_type f)
            (fs_conn f) (fs_offset f))
  else None.

(** lines 855-873 [Zone::ReadAllSections] *)
Definition ReadAllSections (std_sort : list Section -> list nat) (fss : list FSection)
    : option (list Section) :=
  do ss <- mapM (fun p => Section_Read (fst p) (snd p)) (combine (seq 1 (List.length fss)) fss);
  SortSectionsByDim (std_sort ss) ss.

(** ** Boundary conditions *)

(** lines 541-556 [ZoneBC::Write] *)
Definition boco_node (b : Boco) : option FBC :=
  Some (mkFBC (bc_name (bo_bc b)) (bo_type b) (bo_ptset_type b)
          [bc_first (bo_bc b); bc_last (bo_bc b)] (bo_loc b)).

(** lines 512-531 [ZoneBC::Read]: [cg_boco_info] copies the name and the final zero into
    [char name[32]] (line 484); line 522 is the assertion *)
Definition read_boco (f : FBC) : option Boco :=
  if String.length (fb_name f) <? 32 then
    match fb_pnts f with
    | [a; b] => Some (mkBoco (mkBC (fb_name f) a b) (fb_type f) (fb_ptset_type f) (fb_loc f))
    | _ => None
    end
  else None.

(** lines 532-540 with lines 877-879: [Zone::UpdateSectionRanges] *)
Definition UpdateSectionRanges {A} (z : MZone A) : option (MZone A) :=
  do bcs <- UpdateRanges (mz_sections z) (map bo_bc (mz_bocos z));
  Some (mkMZone (mz_name z) (mz_cells z) (mz_x z) (mz_y z) (mz_z z) (mz_sections z)
          (map (fun p => mkBoco (fst p) (bo_type (snd p)) (bo_ptset_type (snd p)) (bo_loc (snd p)))
             (combine bcs (mz_bocos z))) (mz_solns z)).

Section Files.
  Context {A : Type} (zero : A).
  (** whether the template parameter [Real] is [float] or [double] *)
  Context (real : DataType).
  Context (std_sort : list Section -> list nat).

  (** ** Solutions *)

  (** the number of values of a field (lines 680, 688, 899-905), [None] is the failed assertion *)
  Definition soln_size (n_nodes n_cells : nat) (l : Location) : option nat :=
    match l with Vertex => Some n_nodes | CellCenter => Some n_cells | OtherLocation => None end.

  (** lines 589-595 [Field::Write]: the data are always declared to be [RealDouble] *)
  Definition field_node (size : nat) (f : string * list A) : option (FField A) :=
    if type_same real RealDouble
    then do data <- slice (snd f) 0 size; Some (mkFField (fst f) RealDouble data) else None.

  (** lines 665-673 [Solution::Write] *)
  Definition soln_node (n_nodes n_cells : nat) (s : Soln A) : option (FSoln A) :=
    do size <- soln_size n_nodes n_cells (so_loc s);
    do fields <- write_list ff_name (field_node size) by_position (so_fields s);
    Some (mkFSoln (so_name s) (so_loc s) fields).

  (** lines 679-692 [AddField]: an old field of that name, or a new one with zeros; then
      lines 906-908: the values read are written over it.  They arrive in the type that they
      have in the file. *)
  Definition read_field (size : nat) (fields : list (string * list A)) (f : FField A)
      : option (list (string * list A)) :=
    if type_same (ff_type f) real then
      if List.length (ff_data f) =? size then
        if existsb (fun x => String.eqb (fst x) (ff_name f)) fields
        then Some (map (fun x => if String.eqb (fst x) (ff_name f) then (fst x, ff_data f) else x) fields)
        else Some (fields ++ [(ff_name f, ff_data f)])%list
      else None
    else None.

  (** lines 880-911 [Zone::ReadSolutions] *)
  Definition read_soln (n_nodes n_cells : nat) (f : FSoln A) : option (Soln A) :=
    do size <- soln_size n_nodes n_cells (fo_loc f);
    do fields <- foldM (read_field size) (fo_fields f) [];
    Some (mkSoln (fo_name f) (fo_loc f) fields).

  (** ** Zones *)

  (** lines 241-251 [Coordinates::Write] *)
  Definition coords (z : MZone A) : option (list (string * list A)) :=
    let n := List.length (mz_x z) in
    do x <- slice (mz_x z) 0 n; do y <- slice (mz_y z) 0 n; do w <- slice (mz_z z) 0 n;
    Some [("CoordinateX"%string, x); ("CoordinateY"%string, y); ("CoordinateZ"%string, w)].

  (** lines 808-823 [Zone::Write] *)
  Definition zone_node (min_dim max_dim : Z) (z : MZone A) : option (FZone A) :=
    do cs <- coords z;
    do bcs <- write_list fb_name boco_node by_position (mz_bocos z);
    do ss <- write_sections min_dim max_dim (mz_sections z);
    do os <- write_list fo_name (soln_node (List.length (mz_x z)) (mz_cells z)) by_position (mz_solns z);
    Some (mkFZone (mz_name z) (List.length (mz_x z)) (mz_cells z) cs bcs ss os).

  (** lines 291-303 [Coordinates::Read]: the array starts with zeros (line 194); a coordinate
      that is not in the file is not read, as no return value is looked at *)
  Definition read_coord (name : string) (z : FZone A) : option (list A) :=
    match find (fun p => String.eqb (fst p) name) (fz_coords z) with
    | Some (_, l) => if List.length l =? fz_nodes z then Some l else None
    | None => Some (repeat zero (fz_nodes z))
    end.

  (** lines 1104-1113: one round of [Base::ReadZones] *)
  Definition read_zone (z : FZone A) : option (MZone A) :=
    do x <- read_coord "CoordinateX" z;
    do y <- read_coord "CoordinateY" z;
    do w <- read_coord "CoordinateZ" z;
    do ss <- ReadAllSections std_sort (fz_sections z);
    do bcs <- mapM read_boco (fz_bcs z);
    do os <- mapM (read_soln (fz_nodes z) (fz_cells z)) (fz_solns z);
    Some (mkMZone (fz_name z) (fz_cells z) x y w ss bcs os).

  (** ** Bases and files *)

  (** lines 1086-1093 [Base::Write] *)
  Definition base_node (min_dim max_dim : Z) (b : MBase A) : option (FBase A) :=
    do zs <- write_list fz_name (zone_node min_dim max_dim) by_position (me_zones b);
    Some (mkFBase (me_name b) (me_cell_dim b) (me_phys_dim b) zs).

  (** lines 1099-1115 [Base::ReadZones] *)
  Definition read_base (b : FBase A) : option (MBase A) :=
    do zs <- mapM read_zone (fe_zones b);
    Some (mkMBase (fe_name b) (fe_cell_dim b) (fe_phys_dim b) zs).

  (** lines 1230-1239 [File::Write]: the new content of the file *)
  Definition Write (min_dim max_dim : Z) (bs : list (MBase A)) : option (list (FBase A)) :=
    write_list fe_name (base_node min_dim max_dim) by_position bs.

  (** lines 1194-1211 [File::ReadBases] *)
  Definition ReadBases (f : list (FBase A)) : option (list (MBase A)) := mapM read_base f.
End Files.
