(** Specification of what the processes hold after reading their files. *)
From Coq Require Import List Arith.
From Verif Require Import Arrays Model_Cgns Model_Mapper Model_Metis Model_Partition Model_Part Spec_Mesh
  Spec_Metis Spec_Partition.
Import ListNotations.

(** the zone and the (CGNS) nodes of METIS cell [m] *)
Definition cell_nodes {A} (zs : list (Zone A)) (mp : Mapper) (m : nat)
    : option (nat * list nat) :=
  do (z, s, c) <- nth_error (m2c_cells mp) m;
  do zn <- at1 zs z;
  do sec <- at1 (z_sections zn) s;
  do row <- cell_row sec c;
  Some (z, row).

(** the lines of the files of two processes: the nodes that [p] sends to [q] are those that
    [q] expects from [p], in the same order *)
Definition nodes_agree (files : list PartFile) : Prop :=
  forall p q fp fq, nth_error files p = Some fp -> nth_error files q = Some fq ->
    map snd (filter (fun x => fst x =? q) (pf_send fp)) =
    map (fun '(_, k, _, _) => k) (filter (fun '(r, _, _, _) => r =? p) (pf_recv fq)).

(** the cells (with their numbers of nodes) that [p] sends to [q] are those that [q] expects
    from [p], in the same order *)
Definition cells_agree (files : list PartFile) : Prop :=
  forall p q fp fq, nth_error files p = Some fp -> nth_error files q = Some fq ->
    lookup q (send_npes fp) = lookup p (recv_npes fq).

(** every node of every cell that process [p] holds (its own or a ghost) has its
    coordinates *)
Definition nodes_found {A} (cell_parts : list nat) (graph : Graph) (zs : list (Zone A))
    (mp : Mapper) (stores : list (@NodeStore A)) : Prop :=
  forall p st m z row i, nth_error stores p = Some st ->
    needs_cell cell_parts graph p m -> cell_nodes zs mp m = Some (z, row) -> In i row ->
    exists v, node_coords zs z i = Some v /\ GetCoord st z i = Some v.

(** process [p] holds its own cells once, and once each cell of another part adjacent
    to one of them *)
Record good_cells {A} (cell_parts : list nat) (graph : Graph) (zs : list (Zone A))
    (mp : Mapper) (p : nat) (cells : list LocalCell * list (nat * (nat * list nat)))
    : Prop := {
  gc_local : forall c, In c (fst cells) <->
    nth_error cell_parts (lc_metis c) = Some p /\
    nth_error (m2c_cells mp) (lc_metis c) = Some (lc_zone c, lc_sect c, lc_cell c) /\
    cell_nodes zs mp (lc_metis c) = Some (lc_zone c, lc_nodes c);
  gc_local_once : NoDup (map lc_metis (fst cells));
  gc_ghost : forall m x, In (m, x) (snd cells) <->
    needs_cell cell_parts graph p m /\ nth_error cell_parts m <> Some p /\
    cell_nodes zs mp m = Some x;
  gc_ghost_once : NoDup (map fst (snd cells))
}.

(** the ghost cells of process [p] are those of the other parts that are adjacent to one of
    its cells *)
Definition is_ghost (cell_parts : list nat) (graph : Graph) (p m : nat) : Prop :=
  needs_cell cell_parts graph p m /\ nth_error cell_parts m <> Some p.

(** coefficients: [k] scalars for each local cell, and for each ghost cell *)
Record wf_coeffs {A} (k : nat) (cell_parts : list nat) (graph : Graph) (p : nat)
    (co : @Coeffs A) : Prop := {
  wc_local : forall m, nth_error cell_parts m = Some p ->
    exists c, lookup m (co_local co) = Some c /\ length c = k;
  wc_ghost : forall m, is_ghost cell_parts graph p m -> exists c, lookup m (co_ghost co) = Some c
}.

(** every ghost cell of [p] has got the coefficients that its owner holds; nothing else
    has changed *)
Record coeffs_shared {A} (cell_parts : list nat) (graph : Graph) (cos : list (@Coeffs A))
    (p : nat) (co co' : @Coeffs A) : Prop := {
  cs_local : co_local co' = co_local co;
  cs_keys : map fst (co_ghost co') = map fst (co_ghost co);
  cs_ghost : forall m q owner, is_ghost cell_parts graph p m ->
    nth_error cell_parts m = Some q -> nth_error cos q = Some owner ->
    exists c, lookup m (co_ghost co') = Some c /\ lookup m (co_local owner) = Some c;
  cs_others : forall m, ~ is_ghost cell_parts graph p m ->
    lookup m (co_ghost co') = lookup m (co_ghost co)
}.
