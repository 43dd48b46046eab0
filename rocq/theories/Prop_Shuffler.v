(** C03, and C04 after [Shuffle] *)
From Coq Require Import List Arith ZArith.
From Verif Require Import Arrays Model_Cgns Model_Mapper Model_Shuffle Model_Shuffler
  Spec_Mesh Proof_Mapper Proof_Shuffler Sample_Mesh.
Import ListNotations.

Theorem C03_shuffle_same_mesh :
  forall A cell_dim cell_parts node_parts (zs : list (Zone A)) mp mesh fps,
  (cell_dim = 2 \/ cell_dim = 3)%Z -> Forall (wf_zone cell_dim) zs ->
  Forall (fun zn => Forall (fun s => s_dim s = cell_dim \/ s_dim s + 1 = cell_dim)%Z
                      (z_sections zn)) zs ->
  Map cell_dim zs = Some (mp, mesh) ->
  length node_parts = length (m2c_nodes mp) -> length cell_parts = length (m2c_cells mp) ->
  FillFaceParts cell_dim cell_parts mp zs = Some fps ->
  exists zs' mp', Shuffle cell_dim cell_parts node_parts zs mp = Some (zs', mp') /\
    same_mesh cell_dim zs zs' mp mp' /\ valid_mapper cell_dim zs' mp' /\
    IsValid mp' = Some true /\ parts_sorted cell_parts node_parts mp' /\
    faces_follow cell_dim zs zs' mp mp' fps.
Proof. exact @Shuffle_correct. Qed.
Print Assumptions C03_shuffle_same_mesh.

Theorem C04_mapper_valid_after_Shuffle :
  forall A cell_dim cell_parts node_parts (zs : list (Zone A)) mp mesh fps zs' mp',
  (cell_dim = 2 \/ cell_dim = 3)%Z -> Forall (wf_zone cell_dim) zs ->
  Forall (fun zn => Forall (fun s => s_dim s = cell_dim \/ s_dim s + 1 = cell_dim)%Z
                      (z_sections zn)) zs ->
  Map cell_dim zs = Some (mp, mesh) ->
  length node_parts = length (m2c_nodes mp) -> length cell_parts = length (m2c_cells mp) ->
  FillFaceParts cell_dim cell_parts mp zs = Some fps ->
  Shuffle cell_dim cell_parts node_parts zs mp = Some (zs', mp') ->
  valid_mapper cell_dim zs' mp' /\ IsValid mp' = Some true.
Proof.
  intros A cell_dim cell_parts node_parts zs mp mesh fps zs' mp' H1 H2 H3 H4 H5 H6 H7 HS.
  destruct (Shuffle_correct cell_dim cell_parts node_parts zs mp mesh fps H1 H2 H3 H4 H5 H6 H7)
    as (zs2 & mp2 & E & _ & V & I & _).
  rewrite E in HS. inversion HS; subst. auto.
Qed.
Print Assumptions C04_mapper_valid_after_Shuffle.

(** a concrete run: cells 0,2 go to part 1, cells 1,3 to part 0; the hypotheses
    hold and the result is as expected *)
Example C03_C04_nonvacuous :
  (do (mp, mesh) <- Map 2 [zone_a; zone_b];
   do fps <- FillFaceParts 2 [1;0;1;0] mp [zone_a; zone_b];
   do (zs', mp') <- Shuffle 2 [1;0;1;0] [1;0;0;0;1;1;0;0;0] [zone_a; zone_b] mp;
   Some (fps, map z_x zs', map (fun z => map s_conn (z_sections z)) zs', m2c_cells mp'))
  = Some ([[None; None; Some [1; 0]]; [None]],
          [[11;12;13;10;14;15]; [110;111;112]],
          [[[1;3;2; 4;1;2]; [2;3;6;5]; [1;3; 4;1]]; [[3;1;2]]],
          [(1,1,2);(1,1,1);(1,2,3);(2,1,1)]).
Proof. vm_compute. reflexivity. Qed.
