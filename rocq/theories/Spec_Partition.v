(** Specification of the partition files. *)
From Coq Require Import List Arith ZArith Sorted.
From Verif Require Import Arrays Model_Cgns Model_Mapper Model_Metis Model_Partition Spec_Mesh
  Spec_Metis.
Import ListNotations.

(** [table] gives, for each part, the half-open range of exactly the ids whose
    part number is that part; [first] is the id of the head of [parts] *)
Definition range_table (n_parts first : nat) (parts : list nat) (table : list (nat * nat))
    : Prop :=
  length table = n_parts /\
  forall p head tail, nth_error table p = Some (head, tail) ->
    head <= tail /\
    forall id, head <= id < tail <-> first <= id /\ nth_error parts (id - first) = Some p.

Definition pair_lt (x y : nat * nat) : Prop :=
  fst x < fst y \/ fst x = fst y /\ snd x < snd y.

(** entry [x] is listed for part [p] *)
Definition listed {X} (lists : list (list X)) (p : nat) (x : X) : Prop :=
  exists l, nth_error lists p = Some l /\ In x l.

(** ** Adjacency *)

(** row [i] of the dual graph contains [j] *)
Definition graph_row (g : Graph) (i : nat) : option (list nat) :=
  do head <- nth_error (g_range g) i;
  do tail <- nth_error (g_range g) (S i);
  if head <=? tail then slice (g_index g) head (tail - head) else None.

Definition nbr (g : Graph) (i j : nat) : Prop :=
  exists row, graph_row g i = Some row /\ In j row.

Record wf_graph (g : Graph) (n_cells : nat) : Prop := {
  wg_rows : forall i, i < n_cells -> exists row, graph_row g i = Some row;
  wg_range : length (g_range g) = S n_cells;
  wg_lt : forall i j, nbr g i j -> i < n_cells /\ j < n_cells
}.

Definition symmetric_graph (g : Graph) : Prop := forall i j, nbr g i j -> nbr g j i.

(** part [p] needs node [k] (of another part): [k] belongs to one of its cells
    or to a cell of another part that is adjacent to one of its cells *)
Definition needs_cell (cell_parts : list nat) (g : Graph) (p m : nat) : Prop :=
  nth_error cell_parts m = Some p \/
  exists i q, nth_error cell_parts i = Some p /\ nbr g i m /\
    nth_error cell_parts m = Some q /\ q <> p.

Definition needs_node (cell_parts : list nat) (mesh : MetisMesh) (g : Graph) (p k : nat)
    : Prop :=
  exists m, needs_cell cell_parts g p m /\ uses mesh m k.

(** ** Sections as the CGNS reader leaves them (C14): highest dimension first *)
Definition dims_sorted (cell_dim : Z) (ss : list Section) : Prop :=
  StronglySorted (fun a b => (s_dim b <= s_dim a)%Z) ss /\
  Forall (fun s => (s_dim s <= cell_dim)%Z) ss.

(** ** Boundary faces: each is a side of exactly one cell *)

(** all nodes of [row] are nodes of cell [m] *)
Definition in_cell (mesh : MetisMesh) (row : list nat) (m : nat) : Prop :=
  forall k, In k row -> uses mesh m k.

Definition one_sided {A} (cell_dim : Z) (zs : list (Zone A)) (mp : Mapper)
    (mesh : MetisMesh) : Prop :=
  forall z s sec f, (do zn <- at1 zs z; at1 (z_sections zn) s) = Some sec ->
    (s_dim sec + 1 = cell_dim)%Z -> s_first sec <= f < s_first sec + s_count sec ->
    exists row m, metis_row zs mp z s f = Some row /\ in_cell mesh row m /\
      forall m', in_cell mesh row m' -> m' = m.

Definition simple_cells (mesh : MetisMesh) : Prop :=
  forall m row, csr_row mesh m = Some row -> NoDup row.

(** ** The whole pipeline *)

(** a CGNS mesh, its METIS image and what METIS returned for it *)
Record valid_input {A} (cell_dim : Z) (n_parts : nat) (graph : Graph) (cell_parts : list nat)
    (zs : list (Zone A)) (mp : Mapper) (mesh : MetisMesh) : Prop := {
  vi_dim : (cell_dim = 2 \/ cell_dim = 3)%Z;
  vi_zones : Forall (wf_zone cell_dim) zs;
  vi_sorted : Forall (fun zn => dims_sorted cell_dim (z_sections zn)) zs;
  vi_dims : Forall (fun zn => Forall (fun s => s_dim s = cell_dim \/ s_dim s + 1 = cell_dim)%Z
                                (z_sections zn)) zs;
  vi_count : Forall (fun zn => Forall (fun s => 1 <= s_count s) (z_sections zn)) zs;
  vi_map : Map cell_dim zs = Some (mp, mesh);
  vi_len : length cell_parts = length (m2c_cells mp);
  vi_parts : Forall (fun p => p < n_parts) cell_parts;
  vi_graph : wf_graph graph (length (m2c_cells mp));
  vi_simple : simple_cells mesh;
  vi_one : one_sided cell_dim zs mp mesh
}.

Definition all_nodes_used (mesh : MetisMesh) : Prop :=
  forall k, k < mm_nodes mesh -> exists m, uses mesh m k.

(** the fields MetisIndex (second on nodes and on cells) of the mesh hold the METIS numbers,
    and the cells have the nodes given to METIS *)
Record indexed {A} (inj : nat -> A) (zs : list (Zone A)) (mp : Mapper) (mesh : MetisMesh)
    : Prop := {
  ix_fields : forall z zn, at1 zs z = Some zn ->
    2 <= length (z_node_fields zn) /\ 2 <= length (z_cell_fields zn);
  ix_nodes : forall z i m, node_of mp z i = Some m -> exists zn f v,
    at1 zs z = Some zn /\ nth_error (z_node_fields zn) 1 = Some f /\
    at1 f i = Some (inj m) /\ node_coords zs z i = Some v;
  ix_cells : forall z s c m, cell_of mp z s c = Some m -> exists zn f row,
    at1 zs z = Some zn /\ nth_error (z_cell_fields zn) 1 = Some f /\
    at1 f c = Some (inj m) /\ metis_row zs mp z s c = Some row /\ csr_row mesh m = Some row
}.

(** what the files [0.txt], [1.txt], .. must say about the renumbered mesh [zs], [mp] *)
Record good_files {A} (cell_dim : Z) (n_parts : nat) (graph : Graph)
    (cell_parts node_parts : list nat) (mesh : MetisMesh) (zs : list (Zone A)) (mp : Mapper)
    (files : list PartFile) : Prop := {
  gf_len : length files = n_parts;
  (** one node range per zone; one cell range per section of cells *)
  gf_shape : forall p f, nth_error files p = Some f ->
    length (pf_nodes f) = length zs /\ length (pf_cells f) = length zs /\
    forall z zn, at1 zs z = Some zn -> exists l, at1 (pf_cells f) z = Some l /\
      length l = length (z_sections zn) /\
      forall s sec, at1 (z_sections zn) s = Some sec -> s_dim sec <> cell_dim ->
        at1 l s = Some None;
  (** the node range of a part in a zone holds exactly its nodes *)
  gf_nodes : forall p f z zn, nth_error files p = Some f -> at1 zs z = Some zn ->
    exists h t, at1 (pf_nodes f) z = Some (h, t) /\ h <= t /\
      forall i, h <= i < t <->
        exists m, node_of mp z i = Some m /\ nth_error node_parts m = Some p;
  (** the cell range of a part in a section holds exactly its cells *)
  gf_cells : forall p f z s sec, nth_error files p = Some f ->
    (do zn <- at1 zs z; at1 (z_sections zn) s) = Some sec -> s_dim sec = cell_dim ->
    exists h t, (do l <- at1 (pf_cells f) z; at1 l s) = Some (Some (h, t)) /\ h <= t /\
      forall c, h <= c < t <->
        exists m, cell_of mp z s c = Some m /\ nth_error cell_parts m = Some p;
  (** the face range of a part in a boundary section holds exactly the faces of its cells *)
  gf_faces : forall p f z s sec, nth_error files p = Some f ->
    (do zn <- at1 zs z; at1 (z_sections zn) s) = Some sec -> (s_dim sec + 1 = cell_dim)%Z ->
    exists h t, (do l <- at1 (pf_faces f) z; at1 l s) = Some (Some (h, t)) /\ h <= t /\
      forall c, h <= c < t <->
        exists row m, metis_row zs mp z s c = Some row /\ in_cell mesh row m /\
          nth_error cell_parts m = Some p;
  (** pairs of adjacent cells *)
  gf_inner : forall p f i j, nth_error files p = Some f ->
    (In (i, j) (pf_inner f) <->
     nbr graph i j /\ i < j /\ nth_error cell_parts i = Some p /\ nth_error cell_parts j = Some p);
  gf_inter : forall p f q i j ni nj, nth_error files p = Some f ->
    (In (q, i, j, ni, nj) (pf_inter f) <->
     nbr graph i j /\ p <> q /\ nth_error cell_parts i = Some p /\
     nth_error cell_parts j = Some q /\
     (exists row, csr_row mesh i = Some row /\ length row = ni) /\
     (exists row, csr_row mesh j = Some row /\ length row = nj));
  (** nodes to be received, with their CGNS place *)
  gf_recv : forall p f q k z i, nth_error files p = Some f ->
    (In (q, k, z, i) (pf_recv f) <->
     needs_node cell_parts mesh graph p k /\ nth_error node_parts k = Some q /\ q <> p /\
     nth_error (m2c_nodes mp) k = Some (z, i));
  gf_recv_sorted : forall p f, nth_error files p = Some f ->
    StronglySorted pair_lt (map (fun '(q, k, _, _) => (q, k)) (pf_recv f));
  (** nodes to be sent *)
  gf_send : forall p f q k, nth_error files p = Some f ->
    (In (q, k) (pf_send f) <->
     needs_node cell_parts mesh graph q k /\ nth_error node_parts k = Some p /\ p <> q);
  gf_send_sorted : forall p f, nth_error files p = Some f ->
    StronglySorted pair_lt (pf_send f)
}.
