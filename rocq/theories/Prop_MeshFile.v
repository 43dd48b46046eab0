(** C106 *)
From Coq Require Import String List Arith ZArith Permutation Sorted Lia.
From Verif Require Import Arrays Model_Cgns Model_Sections Spec_Mesh Spec_Sections Proof_Sections
  Proof_MergeSplit Model_MeshFile Spec_MeshFile Proof_MeshFile Proof_MeshFileZone.
Import ListNotations.

(** Reading a mesh file, writing it and reading the result gives the same objects; the file
    written holds the same mesh, sections of higher dimension first. *)
Theorem C106_round_trip : forall (A : Type) (zero : A) std_sort,
  (forall l, sort_contract before l (std_sort l)) ->
  forall f : list (FBase A), mesh_file f ->
  exists bs f', ReadBases zero RealDouble std_sort f = Some bs /\ Write RealDouble 0 3 bs = Some f' /\
    ReadBases zero RealDouble std_sort f' = Some bs /\ same_file zero f f'.
Proof. exact @file_round_trip. Qed.
Print Assumptions C106_round_trip.

(** With a lower bound of the dimension, exactly the sections above it are written. *)
Theorem C106_min_dim : forall (A : Type) (zero : A) std_sort,
  (forall l, sort_contract before l (std_sort l)) ->
  forall (f : list (FBase A)) d, mesh_file f ->
  exists bs f0 f' bs', ReadBases zero RealDouble std_sort f = Some bs /\
    Write RealDouble 0 3 bs = Some f0 /\ Write RealDouble d 3 bs = Some f' /\ cut_file d f0 f' /\
    ReadBases zero RealDouble std_sort f' = Some bs'.
Proof. exact @file_cut. Qed.
Print Assumptions C106_min_dim.

(** After [UpdateSectionRanges] the boundary conditions of the written zone cover the sections of
    their names. *)
Theorem C106_conditions : forall (A : Type) (zero : A) std_sort,
  (forall l, sort_contract before l (std_sort l)) ->
  forall z : FZone A, standard_zone z ->
  (forall b, In b (fz_bcs z) -> exists s, In s (fz_sections z) /\ fs_name s = fb_name b) ->
  (forall b s, In b (fz_bcs z) -> In s (fz_sections z) -> ends_with (fs_name s) (fb_name b) ->
     fs_name s = fb_name b) ->
  exists m m' z', read_zone zero RealDouble std_sort z = Some m /\ UpdateSectionRanges m = Some m' /\
    zone_node RealDouble 0 3 m' = Some z' /\ map fb_name (fz_bcs z') = map fb_name (fz_bcs z) /\
    (forall b, In b (fz_bcs z') -> names_its_section z' b) /\
    Permutation (map fs_contents (fz_sections z')) (map fs_contents (fz_sections z)).
Proof. exact @bcs_follow. Qed.
Print Assumptions C106_conditions.

(** ** A file whose boundary comes before the volume *)
Open Scope string_scope.

Definition wall := mkFSection "wall" QUAD_4 1 1 [1; 2; 3; 4] [].
Definition volume := mkFSection "volume" MIXED 2 3
  [17; 1; 2; 3; 4; 5; 6; 7; 8; 10; 1; 2; 3; 9] [0; 9; 14].
Definition wall_bc := mkFBC "wall" 20 4 [1; 1] OtherLocation.
Definition nine := [0; 1; 2; 3; 4; 5; 6; 7; 8]%Z.
Definition flow := mkFSoln "flow" CellCenter [mkFField "rho" RealDouble [1; 2]%Z; mkFField "p" RealDouble [3; 4]%Z].
Definition zone1 := mkFZone "zone" 9 2 [("CoordinateX", nine); ("CoordinateY", nine)]
  [wall_bc] [wall; volume] [flow].
Definition file1 := [mkFBase "base" 3 3 [zone1]].

Lemma one_named {X} n (name : X -> string) x : 1 <= String.length (name x) <= n -> named n name [x].
Proof.
  intros H. split; [repeat constructor; auto|]. intros y [<-|[]]. auto.
Qed.

Lemma zone1_standard : standard_zone zone1.
Proof.
  unfold standard_zone. split; [|split; [|split; [|split; [|split; [|split]]]]].
  - intros name l [E|[E|[]]]; inversion E; reflexivity.
  - split; [repeat constructor; simpl; intuition discriminate|].
    intros x [<-|[<-|[]]]; simpl; lia.
  - intros f [<-|[<-|[]]].
    + split; [|exists 2%Z; reflexivity]. split; [simpl; lia|]. split; reflexivity.
    + split.
      * split; [simpl; lia|]. split; [reflexivity|]. split; [|reflexivity].
        repeat (constructor; auto; try lia).
      * intros [|[|k]] i Hk Hi; simpl in Hi.
        -- inversion Hi; subst i. exists HEXA_8, 3%Z. repeat split; discriminate.
        -- inversion Hi; subst i. exists TETRA_4, 3%Z. repeat split; discriminate.
        -- unfold fs_count in Hk. simpl in Hk. lia.
  - apply one_named. simpl. lia.
  - intros b [<-|[]]. reflexivity.
  - apply one_named. simpl. lia.
  - intros s [<-|[]]. split; [discriminate|]. split.
    + split; [repeat constructor; simpl; intuition discriminate|].
      intros x [<-|[<-|[]]]; simpl; lia.
    + intros f [<-|[<-|[]]]; split; reflexivity.
Qed.

Lemma file1_ok : mesh_file file1.
Proof.
  split; [apply one_named; simpl; lia|]. intros b [<-|[]]. split; [apply one_named; simpl; lia|].
  intros z [<-|[]]. apply zone1_standard.
Qed.

(** what is written: the volume first, the missing coordinate as zeros, the boundary condition
    as it was *)
Definition zone1' := mkFZone "zone" 9 2
  [("CoordinateX", nine); ("CoordinateY", nine); ("CoordinateZ", repeat 0%Z 9)]
  [wall_bc] [mkFSection "volume" MIXED 1 2 (fs_conn volume) (fs_offset volume);
             mkFSection "wall" QUAD_4 3 3 [1; 2; 3; 4] []] [flow].

Example C106_nonvacuous : mesh_file file1 /\ (forall l, sort_contract before l (insertion_sort l)) /\
  exists bs, ReadBases 0%Z RealDouble insertion_sort file1 = Some bs /\
    Write RealDouble 0 3 bs = Some [mkFBase "base" 3 3 [zone1']] /\
    exists z3, Write RealDouble 3 3 bs = Some [mkFBase "base" 3 3 [z3]] /\
      map fs_name (fz_sections z3) = ["volume"].
Proof.
  split; [exact file1_ok|]. split; [exact insertion_sort_ok|].
  eexists. split; [vm_compute; reflexivity|]. split; [vm_compute; reflexivity|].
  eexists. split; vm_compute; reflexivity.
Qed.

Example C106_conditions_nonvacuous :
  (forall b, In b (fz_bcs zone1) -> exists s, In s (fz_sections zone1) /\ fs_name s = fb_name b) /\
  (forall b s, In b (fz_bcs zone1) -> In s (fz_sections zone1) -> ends_with (fs_name s) (fb_name b) ->
     fs_name s = fb_name b) /\
  exists m m' z', read_zone 0%Z RealDouble insertion_sort zone1 = Some m /\
    UpdateSectionRanges m = Some m' /\ zone_node RealDouble 0 3 m' = Some z' /\
    map fb_pnts (fz_bcs z') = [[3; 3]].
Proof.
  split; [|split].
  - intros b [<-|[]]. exists wall. simpl. auto.
  - intros b s [<-|[]] [<-|[<-|[]]] H; auto. apply suffix_test in H. discriminate.
  - eexists _, _, _. split; [vm_compute; reflexivity|]. split; [vm_compute; reflexivity|].
    split; vm_compute; reflexivity.
Qed.

(** A file whose boundary condition covers the section of its name; without [UpdateSectionRanges]
    the file written has a condition that covers a cell of the volume instead. *)
Theorem C106_conditions_refuted : exists (z : FZone Z) m z',
  standard_zone z /\ (forall b, In b (fz_bcs z) -> names_its_section z b) /\
  read_zone 0%Z RealDouble insertion_sort z = Some m /\ zone_node RealDouble 0 3 m = Some z' /\
  exists b s, In b (fz_bcs z') /\ In s (fz_sections z') /\ ~ names_its_section z' b /\
    fs_name s <> fb_name b /\ fs_first s <= hd 0 (fb_pnts b) <= fs_last s.
Proof.
  exists zone1. eexists _, zone1'. split; [exact zone1_standard|].
  split; [intros b [<-|[]]; exists wall; simpl; auto|].
  split; [vm_compute; reflexivity|]. split; [vm_compute; reflexivity|].
  exists wall_bc, (mkFSection "volume" MIXED 1 2 (fs_conn volume) (fs_offset volume)).
  split; [left; auto|]. split; [left; auto|]. split; [|split].
  - intros (s & [<-|[<-|[]]] & E1 & E2); discriminate.
  - discriminate.
  - simpl. lia.
Qed.
Print Assumptions C106_conditions_refuted.

(** With an upper bound of the dimension below that of the volume, the assertion about the id of
    the section fails. *)
Theorem C106_max_dim_refuted : exists (f : list (FBase Z)) bs,
  mesh_file f /\ ReadBases 0%Z RealDouble insertion_sort f = Some bs /\
  Write RealDouble 0 3 bs <> None /\ Write RealDouble 0 2 bs = None.
Proof.
  exists file1. eexists. split; [exact file1_ok|]. split; [vm_compute; reflexivity|].
  split; vm_compute; [discriminate|reflexivity].
Qed.
Print Assumptions C106_max_dim_refuted.

(** With [Real = float], a file with a solution in single precision can be read but not written. *)
Theorem C106_float_refuted : exists (f : list (FBase Z)) bs,
  ReadBases 0%Z RealSingle insertion_sort f = Some bs /\ Write RealSingle 0 3 bs = None /\
  Write RealDouble 0 3 bs <> None.
Proof.
  exists [mkFBase "base" 3 3 [mkFZone "zone" 9 2 [("CoordinateX", nine); ("CoordinateY", nine)]
    [wall_bc] [wall; volume] [mkFSoln "flow" CellCenter [mkFField "rho" RealSingle [1; 2]%Z]]]].
  eexists. split; [vm_compute; reflexivity|]. split; vm_compute; [reflexivity|discriminate].
Qed.
Print Assumptions C106_float_refuted.

(** The CGNS standard allows names of 32 characters; one of a boundary condition does not fit
    into its buffer. *)
Definition long_name := "abcdefghijklmnopqrstuvwxyz012345".
Theorem C106_long_name_refuted : exists z : FZone Z,
  standard_zone zone1 /\ fz_bcs z = [mkFBC long_name 20 4 [1; 1] OtherLocation] /\
  legal_name long_name = true /\
  (forall b, fz_bcs zone1 = [b] -> z = mkFZone (fz_name zone1) (fz_nodes zone1) (fz_cells zone1)
     (fz_coords zone1) [mkFBC long_name (fb_type b) (fb_ptset_type b) (fb_pnts b) (fb_loc b)]
     (fz_sections zone1) (fz_solns zone1)) /\
  read_zone 0%Z RealDouble insertion_sort z = None.
Proof.
  exists (mkFZone "zone" 9 2 [("CoordinateX", nine); ("CoordinateY", nine)]
     [mkFBC long_name 20 4 [1; 1] OtherLocation] [wall; volume] [flow]).
  split; [exact zone1_standard|]. split; [reflexivity|]. split; [reflexivity|].
  split; [intros b E; inversion E; reflexivity|]. vm_compute. reflexivity.
Qed.
Print Assumptions C106_long_name_refuted.
