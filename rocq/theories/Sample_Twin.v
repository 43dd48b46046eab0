(** A mesh with boundary sections of the same name in two zones; the samples are conforming. *)
From Coq Require Import String List Arith ZArith Lia Sorted Permutation.
From Verif Require Import Arrays Model_Cgns Model_Mapper Model_Metis Model_Partition Spec_Mesh
  Spec_Metis Spec_Partition Spec_PartFaces Sample_Mesh Sample_Parts.
From Verif Require Spec_Faces.
Import ListNotations.
Open Scope string_scope.

Definition zone_r : Zone nat :=
  mkZone [110;111;112;113] [120;121;122;123] [130;131;132;133]
    [ mkSection 1 "tet" 1 1 3%Z TETRA_4 [4;3;1;2] [];
      mkSection 2 "wall" 2 1 2%Z TRI_3 [3;1;2] [] ] [] [].
Definition twin_zones := [zone_p; zone_r].
Definition twin_mapper :=
  mkMapper [(1, 1); (1, 2); (1, 3); (1, 4); (1, 5); (1, 6); (2, 1); (2, 2); (2, 3); (2, 4)]
    [(1, 1, 1); (1, 1, 2); (1, 1, 3); (2, 1, 1)]
    [[0; 1; 2; 3; 4; 5]; [6; 7; 8; 9]] [[(1, [0; 1; 2]); (0, [])]; [(1, [3]); (0, [])]].

Lemma twin_input : valid_input 3 2 sample_graph sample_parts twin_zones twin_mapper sample_mesh.
Proof.
  constructor.
  - auto.
  - repeat apply Forall_cons; try apply Forall_nil; solve_zone.
  - repeat apply Forall_cons; try apply Forall_nil; split; repeat constructor; cbv; discriminate.
  - repeat apply Forall_cons; try apply Forall_nil; simpl; auto.
  - repeat apply Forall_cons; try apply Forall_nil; simpl; lia.
  - vm_compute. reflexivity.
  - reflexivity.
  - repeat constructor.
  - apply (vi_graph _ _ _ _ _ _ _ sample_input).
  - apply (vi_simple _ _ _ _ _ _ _ sample_input).
  - intros z s sec f E Hd Hf.
    destruct z as [|[|[|z]]]; try discriminate; simpl in E;
      [| |destruct z; discriminate].
    + destruct s as [|[|[|s]]]; simpl in E; try discriminate; [| |destruct s; discriminate];
        inversion E; subst sec; simpl in Hd, Hf; [lia|].
      assert (Hc : f = 4 \/ f = 5) by lia. destruct Hc as [-> | ->].
      * exists [3;4;5], 2. split; [reflexivity|]. split.
        -- intros k Hk. apply sample_uses. simpl in *. tauto.
        -- intros m' H. assert (H5 : uses sample_mesh m' 5) by (apply H; simpl; tauto).
           apply sample_uses in H5. simpl in H5. lia.
      * exists [0;1;2], 0. split; [reflexivity|]. split.
        -- intros k Hk. apply sample_uses. simpl in *. tauto.
        -- intros m' H. assert (H5 : uses sample_mesh m' 0) by (apply H; simpl; tauto).
           apply sample_uses in H5. simpl in H5. lia.
    + destruct s as [|[|[|s]]]; simpl in E; try discriminate; [| |destruct s; discriminate];
        inversion E; subst sec; simpl in Hd, Hf; [lia|].
      assert (f = 2) by lia. subst f. exists [8;6;7], 3. split; [reflexivity|]. split.
      * intros k Hk. apply sample_uses. simpl in *. tauto.
      * intros m' H. assert (H5 : uses sample_mesh m' 6) by (apply H; simpl; tauto).
        apply sample_uses in H5. simpl in H5. lia.
Qed.

Ltac side k := exists (Spec_Faces.tetrahedron 4), (nth k (Spec_Faces.planes (Spec_Faces.tetrahedron 4)) ((0,0,0),0)%Z);
  split; [reflexivity|]; split; [simpl; tauto|apply Permutation_refl].

Lemma sample_sides i j ri rj : nbr sample_graph i j -> csr_row sample_mesh i = Some ri -> csr_row sample_mesh j = Some rj ->
  i <> j /\ exists side, is_side ri side /\ forall k, In k side <-> In k ri /\ In k rj.
Proof.
  intros H Ei Ej. apply sample_nbr in H. apply sample_rows in Ei, Ej.
  decompose [or and] H; subst;
    decompose [or and] Ei; subst; try discriminate; decompose [or and] Ej; subst; try discriminate;
    (split; [lia|]).
  - exists [1;2;3]. split; [side 3|]. simpl. lia.
  - exists [1;2;3]. split; [side 2|]. simpl. lia.
  - exists [2;3;4]. split; [side 3|]. simpl. lia.
  - exists [2;3;4]. split; [side 2|]. simpl. lia.
Qed.

Lemma sample_once i row : graph_row sample_graph i = Some row -> NoDup row.
Proof.
  unfold graph_row.
  do 4 (destruct i as [|i]; [vm_compute; intros E; inversion E; subst; repeat constructor; simpl; lia|]).
  destruct i as [|[|i]]; discriminate.
Qed.

Lemma wall_row n f row : slice [4;5;6;1;2;3] (3 * (f - n)) 3 = Some row -> n <= f -> f = n \/ f = n + 1.
Proof. unfold slice. cbn [List.length]. destruct (Nat.leb_spec (3 * (f - n) + 3) 6); [lia|discriminate]. Qed.

Lemma twin_conforming : conforming 3 sample_graph twin_zones twin_mapper sample_mesh.
Proof.
  constructor; [exact sample_sides|exact sample_once|].
  intros z s sec f row m rm E Hd R I C.
  destruct z as [|[|[|z]]]; try discriminate; simpl in E; [| |destruct z; discriminate].
  - destruct s as [|[|[|s]]]; simpl in E; try discriminate; [| |destruct s; discriminate];
      inversion E; subst sec; simpl in Hd; [lia|]. clear E.
    unfold metis_row in R. cbn [at1 nth_error twin_zones bind z_sections zone_p] in R.
    assert (Hf : f = 4 \/ f = 5).
    { unfold cell_row in R. cbn [s_first s_conn s_npe s_type CountNodesByType] in R.
      destruct (Nat.ltb_spec f 4); [discriminate|].
      destruct (slice _ _ _) as [r|] eqn:Es in R; [|discriminate]. apply wall_row in Es; auto. }
    destruct Hf as [-> | ->]; vm_compute in R; inversion R; subst row.
    + assert (H5 : uses sample_mesh m 5) by (apply I; simpl; tauto).
      apply sample_uses in H5. assert (m = 2) by (simpl in H5; lia). subst m.
      apply sample_rows in C. decompose [or and] C; subst; try discriminate. side 3.
    + assert (H5 : uses sample_mesh m 0) by (apply I; simpl; tauto).
      apply sample_uses in H5. assert (m = 0) by (simpl in H5; lia). subst m.
      apply sample_rows in C. decompose [or and] C; subst; try discriminate. side 2.
  - destruct s as [|[|[|s]]]; simpl in E; try discriminate; [| |destruct s; discriminate];
      inversion E; subst sec; simpl in Hd; [lia|]. clear E.
    unfold metis_row in R. cbn [at1 nth_error twin_zones bind z_sections zone_r] in R.
    assert (Hf : f = 2).
    { unfold cell_row in R. cbn [s_first s_conn s_npe s_type CountNodesByType] in R.
      destruct (Nat.ltb_spec f 2); [discriminate|]. unfold slice in R. cbn [List.length] in R.
      destruct (Nat.leb_spec (3 * (f - 2) + 3) 3); [lia|discriminate]. }
    subst f. vm_compute in R. inversion R; subst row.
    assert (H5 : uses sample_mesh m 6) by (apply I; simpl; tauto).
    apply sample_uses in H5. assert (m = 3) by (simpl in H5; lia). subst m.
    apply sample_rows in C. decompose [or and] C; subst; try discriminate. side 3.
Qed.

Lemma sample_conforming : conforming 3 sample_graph sample_zones sample_mapper sample_mesh.
Proof.
  constructor; [exact sample_sides|exact sample_once|].
  intros z s sec f row m rm E Hd R I C.
  destruct z as [|[|[|z]]]; try discriminate; simpl in E; [| |destruct z; discriminate].
  - destruct s as [|[|[|s]]]; simpl in E; try discriminate; [| |destruct s; discriminate];
      inversion E; subst sec; simpl in Hd; [lia|]. clear E.
    eapply (cf_bound _ _ _ _ _ twin_conforming 1 2); eauto; reflexivity.
  - destruct s as [|[|s]]; simpl in E; try discriminate; [|destruct s; discriminate].
    inversion E; subst sec; simpl in Hd. lia.
Qed.
