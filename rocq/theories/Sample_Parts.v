(** A small 3D mesh with two zones that is cut in two parts, used by the non-vacuity
    examples of the partitioning theorems. *)
From Coq Require Import String List Arith ZArith Lia Sorted.
From Verif Require Import Arrays Model_Cgns Model_Mapper Model_Metis Model_Partition Spec_Mesh
  Spec_Metis Spec_Partition Sample_Mesh.
Import ListNotations.
Open Scope string_scope.

(** three tetrahedra in a row and two boundary triangles *)
Definition zone_p : Zone nat :=
  mkZone [10;11;12;13;14;15] [20;21;22;23;24;25] [30;31;32;33;34;35]
    [ mkSection 1 "tet" 1 3 3%Z TETRA_4 [1;2;3;4; 2;3;4;5; 3;4;5;6] [];
      mkSection 2 "wall" 4 2 2%Z TRI_3 [4;5;6; 1;2;3] [] ] [] [].

Definition zone_q : Zone nat :=
  mkZone [110;111;112;113] [120;121;122;123] [130;131;132;133]
    [ mkSection 1 "tet" 1 1 3%Z TETRA_4 [4;3;1;2] [] ] [] [].

Definition sample_zones := [zone_p; zone_q].
Definition sample_graph := mkGraph [0;1;3;4;4] [1;0;2;1].
Definition sample_parts := [1;0;0;1].
Definition sample_mapper := 
  mkMapper [(1, 1); (1, 2); (1, 3); (1, 4); (1, 5); (1, 6); (2, 1); (2, 2); (2, 3); (2, 4)]
    [(1, 1, 1); (1, 1, 2); (1, 1, 3); (2, 1, 1)]
    [[0; 1; 2; 3; 4; 5]; [6; 7; 8; 9]] [[(1, [0; 1; 2]); (0, [])]; [(1, [3])]].
Definition sample_mesh :=
  mkMetis [0; 4; 8; 12; 16] [0; 1; 2; 3; 1; 2; 3; 4; 2; 3; 4; 5; 9; 8; 6; 7] 10.

Lemma sample_rows m row : csr_row sample_mesh m = Some row ->
  m = 0 /\ row = [0;1;2;3] \/ m = 1 /\ row = [1;2;3;4] \/ m = 2 /\ row = [2;3;4;5] \/
  m = 3 /\ row = [9;8;6;7].
Proof.
  do 4 (destruct m as [|m]; [vm_compute; intros H; inversion H; auto 10|]).
  unfold csr_row. destruct m as [|[|m]]; discriminate.
Qed.

Lemma sample_uses m k : uses sample_mesh m k <->
  m = 0 /\ In k [0;1;2;3] \/ m = 1 /\ In k [1;2;3;4] \/ m = 2 /\ In k [2;3;4;5] \/
  m = 3 /\ In k [9;8;6;7].
Proof.
  split.
  - intros (row & E & H). apply sample_rows in E.
    decompose [or and] E; subst; auto 10.
  - intros H. decompose [or] H; match goal with H : _ /\ _ |- _ => destruct H as [-> Hk] end;
      eexists; (split; [reflexivity|exact Hk]).
Qed.

Lemma sample_nbr i j : nbr sample_graph i j <->
  i = 0 /\ j = 1 \/ i = 1 /\ j = 0 \/ i = 1 /\ j = 2 \/ i = 2 /\ j = 1.
Proof.
  split.
  - intros (row & E & H). revert E. unfold graph_row.
    do 4 (destruct i as [|i]; [vm_compute; intros E; inversion E; subst; simpl in H; intuition lia|]).
    destruct i as [|[|i]]; discriminate.
  - intros H. decompose [or and] H; subst;
      (eexists; split; [reflexivity|simpl; tauto]).
Qed.

Lemma sample_sym : symmetric_graph sample_graph.
Proof. intros i j. rewrite !sample_nbr. tauto. Qed.

Lemma sample_used : all_nodes_used sample_mesh.
Proof.
  intros k Hk. assert (Hm : exists m, m < 4 /\ uses sample_mesh m k).
  { do 4 (destruct k as [|k]; [exists 0; split; [lia|]; apply sample_uses; simpl; tauto|]).
    destruct k as [|k]; [exists 1; split; [lia|]; apply sample_uses; simpl; tauto|].
    destruct k as [|k]; [exists 2; split; [lia|]; apply sample_uses; simpl; tauto|].
    exists 3. split; [lia|]. apply sample_uses. right. right. right. split; auto.
    simpl in Hk. do 4 (destruct k as [|k]; [simpl; tauto|]). lia. }
  destruct Hm as (m & _ & Hm). eauto.
Qed.

Lemma sample_input : valid_input 3 2 sample_graph sample_parts sample_zones sample_mapper sample_mesh.
Proof.
  constructor.
  - auto.
  - repeat apply Forall_cons; try apply Forall_nil; solve_zone.
  - repeat apply Forall_cons; try apply Forall_nil; split; repeat constructor; cbv; discriminate.
  - repeat apply Forall_cons; try apply Forall_nil; simpl; auto.
  - repeat apply Forall_cons; try apply Forall_nil; simpl; lia.
  - vm_compute. reflexivity.
  - reflexivity.
  - repeat constructor.
  - constructor.
    + intros i Hi. simpl in Hi. do 4 (destruct i as [|i]; [eexists; vm_compute; reflexivity|]). lia.
    + reflexivity.
    + intros i j. rewrite sample_nbr. simpl. lia.
  - intros m row E. apply sample_rows in E. decompose [or and] E; subst;
      repeat constructor; simpl; lia.
  - intros z s sec f E Hd Hf.
    destruct z as [|[|[|z]]]; try discriminate; simpl in E;
      [| |destruct z; discriminate].
    + destruct s as [|[|[|s]]]; simpl in E; try discriminate; [| |destruct s; discriminate];
        inversion E; subst sec; simpl in Hd, Hf; [lia|].
      assert (Hc : f = 4 \/ f = 5) by lia. destruct Hc as [-> | ->].
      * exists [3;4;5], 2. split; [reflexivity|]. split.
        -- intros k Hk. apply sample_uses. simpl in *. tauto.
        -- intros m' H. assert (H5 : uses sample_mesh m' 5) by (apply H; simpl; tauto).
           apply sample_uses in H5. simpl in H5. lia.
      * exists [0;1;2], 0. split; [reflexivity|]. split.
        -- intros k Hk. apply sample_uses. simpl in *. tauto.
        -- intros m' H. assert (H5 : uses sample_mesh m' 0) by (apply H; simpl; tauto).
           apply sample_uses in H5. simpl in H5. lia.
    + destruct s as [|[|s]]; simpl in E; try discriminate; [|destruct s; discriminate].
      inversion E; subst sec; simpl in Hd. lia.
Qed.

(** one tetrahedron and a node that belongs to no cell *)
Definition zone_orphan : Zone nat :=
  mkZone [10;11;12;13;14] [20;21;22;23;24] [30;31;32;33;34]
    [ mkSection 1 "tet" 1 1 3%Z TETRA_4 [1;2;3;4] [] ] [] [].
Definition orphan_graph := mkGraph [0;0] [].
Definition orphan_mapper :=
  mkMapper [(1, 1); (1, 2); (1, 3); (1, 4); (1, 5)] [(1, 1, 1)] [[0; 1; 2; 3; 4]] [[(1, [0])]].
Definition orphan_mesh := mkMetis [0; 4] [0; 1; 2; 3] 5.

Lemma orphan_input :
  valid_input 3 1 orphan_graph [0] [zone_orphan] orphan_mapper orphan_mesh.
Proof.
  constructor.
  - auto.
  - repeat apply Forall_cons; try apply Forall_nil; solve_zone.
  - repeat apply Forall_cons; try apply Forall_nil; split; repeat constructor; cbv; discriminate.
  - repeat apply Forall_cons; try apply Forall_nil; simpl; auto.
  - repeat apply Forall_cons; try apply Forall_nil; simpl; lia.
  - vm_compute. reflexivity.
  - reflexivity.
  - repeat constructor.
  - constructor.
    + intros [|i] Hi; simpl in Hi; [|lia]. eexists; vm_compute; reflexivity.
    + reflexivity.
    + intros [|[|i]] j (row & E & H); [|discriminate|destruct i; discriminate].
      vm_compute in E. inversion E; subst. contradiction.
  - intros [|[|m]] row E; [|discriminate|destruct m; discriminate].
    vm_compute in E. inversion E; subst. repeat constructor; simpl; lia.
  - intros z s sec f E Hd Hf. exfalso.
    destruct z as [|[|z]]; try discriminate; simpl in E; [|destruct z; discriminate].
    destruct s as [|[|s]]; try discriminate; simpl in E; [|destruct s; discriminate].
    inversion E; subst. simpl in Hd. lia.
Qed.
