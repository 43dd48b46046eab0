(** Specification of the faces held by a process. *)
From Coq Require Import List Arith ZArith Permutation String.
From Verif Require Import Arrays Model_Cgns Model_Mapper Model_Metis Model_Partition Model_Part
  Model_PartFaces Spec_Mesh Spec_Metis Spec_Partition Spec_Part.
From Verif Require Spec_Faces.
Import ListNotations.

(** the reference cell with [n] nodes (numbered as in CGNS) *)
Definition reference (n : nat) : option Spec_Faces.cell :=
  match n with
  | 4 => Some (Spec_Faces.tetrahedron 4)
  | 5 => Some (Spec_Faces.pyramid 5)
  | 6 => Some (Spec_Faces.wedge 6)
  | 8 => Some (Spec_Faces.hexahedron 8)
  | _ => None
  end.

(** [face] consists of the nodes on one side of a cell with nodes [row] *)
Definition is_side (row face : list nat) : Prop :=
  exists c pl, reference (List.length row) = Some c /\ In pl (Spec_Faces.planes c) /\
    Permutation face (map (fun i => nth i row 0) (Spec_Faces.nodes_on c pl)).

(** and is listed counterclockwise when seen from outside of the cell *)
Definition outward_side (row face : list nat) : Prop :=
  exists c pl l, reference (List.length row) = Some c /\ In pl (Spec_Faces.planes c) /\
    Permutation l (Spec_Faces.nodes_on c pl) /\ Spec_Faces.outward c pl l /\
    face = map (fun i => nth i row 0) l.

(** the mesh is conforming: the common nodes of adjacent cells are a side of each of them, and the nodes of
    a boundary face are a side of its cell; METIS lists each neighbour once *)
Record conforming {A} (cell_dim : Z) (graph : Graph) (zs : list (Zone A)) (mp : Mapper)
    (mesh : MetisMesh) : Prop := {
  cf_sides : forall i j ri rj, nbr graph i j -> csr_row mesh i = Some ri -> csr_row mesh j = Some rj ->
    i <> j /\ exists side, is_side ri side /\ forall k, In k side <-> In k ri /\ In k rj;
  cf_once : forall i row, graph_row graph i = Some row -> NoDup row;
  cf_bound : forall z s sec f row m rm,
    (do zn <- at1 zs z; at1 (z_sections zn) s) = Some sec -> (s_dim sec + 1 = cell_dim)%Z ->
    metis_row zs mp z s f = Some row -> in_cell mesh row m -> csr_row mesh m = Some rm -> is_side rm row
}.

(** the face between the cells [i] (holder) and [j] *)
Definition face_between {A} (zs : list (Zone A)) (mp : Mapper) (F : @PartFace A) (i j : nat) : Prop :=
  f_holder F = i /\ f_sharer F = Some j /\
  exists ri rj, cell_nodes zs mp i = Some (f_zone F, ri) /\ cell_nodes zs mp j = Some (f_zone F, rj) /\
    NoDup (f_nodes F) /\ (forall k, In k (f_nodes F) <-> In k ri /\ In k rj) /\
    outward_side ri (f_nodes F) /\
    mapM (node_coords zs (f_zone F)) (f_nodes F) = Some (f_coords F).

(** the boundary face [c] of section [s] of zone [z], held by cell [m] *)
Definition face_at {A} (zs : list (Zone A)) (mp : Mapper) (mesh : MetisMesh) (z s : nat) (sec : Section)
    (c m : nat) (F : @PartFace A) : Prop :=
  f_holder F = m /\ f_sharer F = None /\ f_zone F = z /\
  (exists mrow, metis_row zs mp z s c = Some mrow /\ in_cell mesh mrow m) /\
  exists row rm, cell_row sec c = Some row /\ cell_nodes zs mp m = Some (z, rm) /\
    Permutation (f_nodes F) row /\ outward_side rm (f_nodes F) /\
    mapM (node_coords zs z) (f_nodes F) = Some (f_coords F).

Definition face_pair {A} (F : @PartFace A) : nat * option nat := (f_holder F, f_sharer F).
Definition all_faces {A} (fs : @Faces A) : list (@PartFace A) :=
  fs_local fs ++ fs_ghost fs ++ flat_map b_faces (fs_bound fs).

Record good_faces {A} (cell_dim : Z) (cell_parts : list nat) (graph : Graph) (mesh : MetisMesh)
    (zs : list (Zone A)) (mp : Mapper) (p : nat) (fs : @Faces A) : Prop := {
  (** ids 0, 1, 2, .. *)
  gf_ids : map f_id (all_faces fs) = seq 0 (List.length (all_faces fs));
  (** one local face for each pair of adjacent cells of part [p]; the one with the smaller number holds it *)
  gf_local : forall F, In F (fs_local fs) -> exists i j, face_between zs mp F i j;
  gf_local_pairs : forall i j, In (i, Some j) (map face_pair (fs_local fs)) <->
    nbr graph i j /\ i < j /\ nth_error cell_parts i = Some p /\ nth_error cell_parts j = Some p;
  gf_local_once : NoDup (map face_pair (fs_local fs));
  (** one ghost face for each pair of adjacent cells of which the first is in part [p] and the other not *)
  gf_ghost : forall F, In F (fs_ghost fs) -> exists i j, face_between zs mp F i j;
  gf_ghost_pairs : forall i j, In (i, Some j) (map face_pair (fs_ghost fs)) <->
    nbr graph i j /\ nth_error cell_parts i = Some p /\ nth_error cell_parts j <> Some p;
  gf_ghost_once : NoDup (map face_pair (fs_ghost fs));
  (** one boundary face for each face of a boundary section that is a side of a cell of part [p] *)
  gf_bound : forall b, In b (fs_bound fs) -> exists sec cs,
    (do zn <- at1 zs (b_zone b); at1 (z_sections zn) (b_sect b)) = Some sec /\
    (s_dim sec + 1 = cell_dim)%Z /\ b_name b = s_name sec /\ NoDup cs /\
    (forall c, In c cs <-> exists row m, metis_row zs mp (b_zone b) (b_sect b) c = Some row /\
       in_cell mesh row m /\ nth_error cell_parts m = Some p) /\
    Forall2 (fun c F => exists m, nth_error cell_parts m = Some p /\
       face_at zs mp mesh (b_zone b) (b_sect b) sec c m F) cs (b_faces b);
  gf_bound_all : forall z s sec, (do zn <- at1 zs z; at1 (z_sections zn) s) = Some sec ->
    (s_dim sec + 1 = cell_dim)%Z -> In (z, s) (map (fun b => (b_zone b, b_sect b)) (fs_bound fs));
  gf_bound_once : NoDup (map (fun b => (b_zone b, b_sect b)) (fs_bound fs))
}.

(** process [p], having read its file, holds the faces [fs] *)
Definition process_faces {A} (prj : A -> nat) (order : list nat -> list nat) (zs : list (Zone A))
    (files : list PartFile) (p : nat) (fs : @Faces A) : Prop :=
  exists stores cells f st c, BuildNodes prj zs files = Some stores /\ BuildCells prj zs files = Some cells /\
    nth_error files p = Some f /\ nth_error stores p = Some st /\ nth_error cells p = Some c /\
    BuildFaces order zs f c st = Some fs.

(** an order in which the keys of a map may be visited: each once *)
Definition visits_once (order : list nat -> list nat) : Prop :=
  forall l, Permutation (order l) (nodup Nat.eq_dec l).

(** boundary sections have different names *)
Definition distinct_names {A} (cell_dim : Z) (zs : list (Zone A)) : Prop :=
  forall z s sec z' s' sec', (do zn <- at1 zs z; at1 (z_sections zn) s) = Some sec ->
    (do zn <- at1 zs z'; at1 (z_sections zn) s') = Some sec' ->
    (s_dim sec + 1 = cell_dim)%Z -> (s_dim sec' + 1 = cell_dim)%Z -> s_name sec = s_name sec' ->
    z = z' /\ s = s'.
