(** C08, C62, C63, C65 *)
From Coq Require Import String List Arith ZArith Lia.
From Verif Require Import Arrays Model_Cgns Model_Mapper Model_Metis Model_Shuffle Model_Shuffler Model_Partition
  Spec_Mesh Spec_Metis Spec_Partition Proof_Pipeline Proof_ReadBack Sample_Mesh Sample_Parts.
Import ListNotations.

(** as stated ("for any mesh") C08 is false: a node that belongs to no cell gets part number
    [n_parts], and [WritePartitionInfo] writes its range outside of the table *)
Theorem C08_part_in_range_refuted : exists n_parts graph cell_parts (zs : list (Zone nat)) mp mesh np,
  valid_input 3 n_parts graph cell_parts zs mp mesh /\
  GetNodeParts mesh cell_parts n_parts = Some np /\ In n_parts np /\
  PartitionAndShuffle (fun n => n) (fun n => n) 3 n_parts graph cell_parts zs = None.
Proof.
  exists 1, orphan_graph, [0], [zone_orphan], orphan_mapper, orphan_mesh, [0; 0; 0; 0; 1].
  split; [exact orphan_input|]. split; [vm_compute; reflexivity|].
  split; [simpl; tauto|]. vm_compute. reflexivity.
Qed.
Print Assumptions C08_part_in_range_refuted.

(** for every mesh whose nodes are all used the files are written *)
Theorem C08_part_in_range_all_nodes_used :
  forall A (inj : nat -> A) (prj : A -> nat) cell_dim n_parts graph cell_parts (zs : list (Zone A)) mp mesh,
  (forall n, prj (inj n) = n) ->
  valid_input cell_dim n_parts graph cell_parts zs mp mesh -> all_nodes_used mesh ->
  exists zs2 mp2 files node_parts,
    PartitionAndShuffle inj prj cell_dim n_parts graph cell_parts zs = Some (zs2, mp2, files) /\
    GetNodeParts mesh cell_parts n_parts = Some node_parts /\
    Forall (fun p => p < n_parts) node_parts /\ length files = n_parts.
Proof.
  intros A inj prj cell_dim n_parts graph cell_parts zs mp mesh H1 H2 H3.
  destruct (PartitionAndShuffle_ok inj prj cell_dim n_parts graph cell_parts zs mp mesh H1 H2 H3)
    as (zs1 & zs2 & mp2 & files & np & E1 & _ & E2 & _ & _ & F & GF & _).
  exists zs2, mp2, files, np. split; auto. split; auto. split; auto. apply (gf_len _ _ _ _ _ _ _ _ _ GF).
Qed.
Print Assumptions C08_part_in_range_all_nodes_used.

(** what the files say, for the renumbered mesh, which is the input mesh with part numbers
    added (see [same_mesh], [good_files] and [indexed] in the specification) *)
Theorem C65_files_describe_the_mesh :
  forall A (inj : nat -> A) (prj : A -> nat) cell_dim n_parts graph cell_parts (zs : list (Zone A)) mp mesh,
  (forall n, prj (inj n) = n) ->
  valid_input cell_dim n_parts graph cell_parts zs mp mesh -> all_nodes_used mesh ->
  exists zs1 zs2 mp2 files node_parts,
    GetNodeParts mesh cell_parts n_parts = Some node_parts /\
    WriteParts inj cell_dim mp cell_parts node_parts zs = Some zs1 /\
    PartitionAndShuffle inj prj cell_dim n_parts graph cell_parts zs = Some (zs2, mp2, files) /\
    same_mesh cell_dim zs1 zs2 mp mp2 /\ valid_mapper cell_dim zs2 mp2 /\
    Forall (fun p => p < n_parts) node_parts /\
    good_files cell_dim n_parts graph cell_parts node_parts mesh zs2 mp2 files /\
    indexed inj zs2 mp2 mesh /\ length node_parts = length (m2c_nodes mp2) /\
    length cell_parts = length (m2c_cells mp2).
Proof. exact @PartitionAndShuffle_ok. Qed.
Print Assumptions C65_files_describe_the_mesh.

(** three tetrahedra in a row and a single one, two parts; the hypotheses hold and the
    two files are as expected *)
Example C08_C65_nonvacuous :
  valid_input 3 2 sample_graph sample_parts sample_zones sample_mapper sample_mesh /\
  all_nodes_used sample_mesh /\
  (do (_, _, files) <- PartitionAndShuffle (fun n => n) (fun n => n) 3 2 sample_graph sample_parts
                         sample_zones; Some files) =
  Some [mkFile [(1, 6); (0, 0)] [(1, 1); (1, 2); (1, 3); (1, 4)] [(1, 0, 1, 6)]
          [[Some (1, 3); None]; [Some (0, 0)]] [(1, 2)] [(1, 1, 0, 4, 4)]
          [[None; Some (4, 5)]; [None]];
        mkFile [(6, 7); (1, 5)] [(0, 0)]
          [(0, 1, 1, 1); (0, 2, 1, 2); (0, 3, 1, 3); (0, 4, 1, 4)]
          [[Some (3, 4); None]; [Some (1, 2)]] [] [(0, 0, 1, 4, 4)]
          [[None; Some (5, 6)]; [None]]].
Proof.
  split; [exact sample_input|]. split; [exact sample_used|]. vm_compute. reflexivity.
Qed.

(** ** C63: the part of a boundary face is the part of the cell that it belongs to *)
Theorem C63_face_parts :
  forall A cell_dim n_parts graph cell_parts (zs : list (Zone A)) mp mesh,
  valid_input cell_dim n_parts graph cell_parts zs mp mesh ->
  exists fps, FillFaceParts cell_dim cell_parts mp zs = Some fps /\ length fps = length zs /\
    forall z s sec, (do zn <- at1 zs z; at1 (z_sections zn) s) = Some sec ->
      exists e, (do fp <- at1 fps z; at1 fp s) = Some e /\
        ((s_dim sec + 1 <> cell_dim)%Z -> e = None) /\
        ((s_dim sec + 1 = cell_dim)%Z -> exists ps, e = Some ps /\ length ps = s_count sec /\
           forall k p, nth_error ps k = Some p -> exists row m,
             metis_row zs mp z s (s_first sec + k) = Some row /\ in_cell mesh row m /\
             nth_error cell_parts m = Some p).
Proof. exact @face_parts_end. Qed.
Print Assumptions C63_face_parts.

Example C63_nonvacuous :
  valid_input 3 2 sample_graph sample_parts sample_zones sample_mapper sample_mesh /\
  FillFaceParts 3 sample_parts sample_mapper sample_zones = Some [[None; Some [0; 1]]; [None]].
Proof. split; [exact sample_input|]. vm_compute. reflexivity. Qed.

(** ** C62: a section of edges stops the shuffling *)
Open Scope string_scope.
Definition zone_edges : Zone nat :=
  mkZone [10;11;12;13] [20;21;22;23] [30;31;32;33]
    [ mkSection 1 "tet" 1 1 3%Z TETRA_4 [1;2;3;4] [];
      mkSection 2 "edge" 2 1 1%Z BAR_2 [1;2] [] ] [] [].

(** [face_parts_] has no entry for a section of dimension [cell_dim - 2], but [Shuffle] reads one
    for every section that does not hold cells *)
Theorem C62_shuffle_lower_dim_refuted : exists (zs : list (Zone nat)) mp mesh fps,
  Forall (wf_zone 3) zs /\ Map 3 zs = Some (mp, mesh) /\ IsValid mp = Some true /\
  FillFaceParts 3 [0] mp zs = Some fps /\
  length (m2c_cells mp) = 1 /\ length (m2c_nodes mp) = 4 /\
  Shuffle 3 [0] [0;0;0;0] zs mp = None.
Proof.
  exists [zone_edges],
    (mkMapper [(1, 1); (1, 2); (1, 3); (1, 4)] [(1, 1, 1)] [[0; 1; 2; 3]] [[(1, [0]); (0, [])]]),
    (mkMetis [0; 4] [0; 1; 2; 3] 4), [[None; None]].
  split; [repeat apply Forall_cons; try apply Forall_nil; solve_zone|].
  repeat split; vm_compute; reflexivity.
Qed.
Print Assumptions C62_shuffle_lower_dim_refuted.
