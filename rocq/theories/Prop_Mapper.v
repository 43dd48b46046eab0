(** C04 (after [Map]) and C05 *)
From Coq Require Import List Arith ZArith.
From Verif Require Import Arrays Model_Cgns Model_Mapper Spec_Mesh Proof_Mapper Sample_Mesh.
Import ListNotations.

Theorem C04_mapper_valid_after_Map : forall A cell_dim (zones : list (Zone A)),
  (cell_dim = 2 \/ cell_dim = 3)%Z -> Forall (wf_zone cell_dim) zones ->
  exists mp mesh, Map cell_dim zones = Some (mp, mesh) /\
    valid_mapper cell_dim zones mp /\ IsValid mp = Some true.
Proof. exact @Map_valid. Qed.
Print Assumptions C04_mapper_valid_after_Map.

Theorem C05_metis_mesh_rows : forall A cell_dim (zones : list (Zone A)) mp mesh,
  (cell_dim = 2 \/ cell_dim = 3)%Z -> Forall (wf_zone cell_dim) zones ->
  Map cell_dim zones = Some (mp, mesh) ->
  length (mm_range mesh) = S (length (m2c_cells mp)) /\
  nth_error (mm_range mesh) 0 = Some 0 /\
  nth_error (mm_range mesh) (length (m2c_cells mp)) = Some (length (mm_index mesh)) /\
  mm_nodes mesh = length (m2c_nodes mp) /\
  (forall i a b, nth_error (mm_range mesh) i = Some a ->
     nth_error (mm_range mesh) (S i) = Some b -> a <= b) /\
  (forall m z s c, nth_error (m2c_cells mp) m = Some (z, s, c) ->
     exists row, csr_row mesh m = Some row /\ metis_row zones mp z s c = Some row).
Proof. exact @Map_rows. Qed.
Print Assumptions C05_metis_mesh_rows.

(** the hypotheses hold for a two-zone mesh with triangles, a quadrangle and a
    boundary section, and the tables are as expected *)
Example C04_C05_nonvacuous :
  Forall (wf_zone 2) [zone_a; zone_b] /\
  Map 2 [zone_a; zone_b] =
    Some (mkMapper
            [(1,1);(1,2);(1,3);(1,4);(1,5);(1,6);(2,1);(2,2);(2,3)]
            [(1,1,1);(1,1,2);(1,2,3);(2,1,1)]
            [[0;1;2;3;4;5];[6;7;8]]
            [[(1,[0;1]);(3,[2]);(0,[])]; [(1,[3])]],
          mkMetis [0;3;6;10;13] [0;1;2; 1;3;2; 2;3;5;4; 8;6;7] 9).
Proof. split; [exact sample_wf|reflexivity]. Qed.
