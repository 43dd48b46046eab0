(** The search for the nodes on the line through a point of a face of a hexahedron.  C114, C115. *)
From Coq Require Import Reals List Arith ZArith Sorted Lia Lra.
From Verif Require Import Vec3 Arrays Model_Basis Model_Shapes Model_Geometry Model_Nodal Spec_Shapes Spec_FR
  Model_Collinear Spec_Collinear Proof_Shapes Proof_Maps Proof_Collinear Proof_DGLobatto.
Import ListNotations.
Open Scope R_scope.

(** C114: on a parallelepiped, [FindCollinearPoints] gives exactly the nodes on the line across the face, in order. *)
Theorem C114_points : forall b e nodes fuel o vx_ vy_ vz_ i_face u v, In e elements -> e_dim e = 3%nat -> built e nodes ->
  (forall x y z, LocalToGlobal e nodes x y z = affine o vx_ vy_ vz_ x y z) -> det3 vx_ vy_ vz_ <> 0 -> (2 <= fuel)%nat ->
  apart (b_x b) -> apart (b_y b) -> apart (b_z b) -> (i_face < 6)%nat ->
  (u < length (first_rule b i_face))%nat -> (v < length (second_rule b i_face))%nat ->
  let p := grid_point b i_face u v in
  exists l, FindCollinearPoints b e nodes fuel (LocalToGlobal e nodes (vx p) (vy p) (vz p)) i_face = Some l
    /\ nodes_behind b i_face p l.
Proof.
  intros b e nodes fuel o vx_ vy_ vz_ i_face u v He Hd Hn A D F Ax Ay Az L Hu Hv p. apply points_found; auto.
  eapply affine_local; eassumption.
Qed.
Print Assumptions C114_points.

(** C114: there [FindCollinearIndexByLocal] gives the numbers of the point, and -1 across the face. *)
Theorem C114_by_local : forall b e nodes fuel o vx_ vy_ vz_ i_face u v, In e elements -> e_dim e = 3%nat -> built e nodes ->
  (forall x y z, LocalToGlobal e nodes x y z = affine o vx_ vy_ vz_ x y z) -> det3 vx_ vy_ vz_ <> 0 -> (2 <= fuel)%nat ->
  apart (b_x b) -> apart (b_y b) -> apart (b_z b) -> (i_face < 6)%nat ->
  (u < length (first_rule b i_face))%nat -> (v < length (second_rule b i_face))%nat ->
  let p := grid_point b i_face u v in
  FindCollinearIndexByLocal b e nodes fuel (LocalToGlobal e nodes (vx p) (vy p) (vz p)) i_face = Some (triple i_face u v).
Proof.
  intros b e nodes fuel o vx_ vy_ vz_ i_face u v He Hd Hn A D F Ax Ay Az L Hu Hv p.
  assert (H : exists hint, local_hint i_face = Some hint)
    by (destruct i_face as [|[|[|[|[|[|i_face]]]]]]; [eexists; reflexivity..|lia]).
  destruct H as [hint H]. eapply local_found; eauto. eapply affine_local; eassumption.
Qed.
Print Assumptions C114_by_local.

(** C114: [FindCollinearIndexByGlobal] gives the same on every cell, curved or not, whose points are apart. *)
Theorem C114_by_global : forall b e nodes i_face u v, (i_face < 6)%nat ->
  (u < length (first_rule b i_face))%nat -> (v < length (second_rule b i_face))%nat -> images_apart b e nodes i_face ->
  let p := grid_point b i_face u v in
  FindCollinearIndexByGlobal b e nodes (LocalToGlobal e nodes (vx p) (vy p) (vz p)) i_face = Some (triple i_face u v).
Proof. intros. apply global_found; assumption. Qed.
Print Assumptions C114_by_global.

(** the cube of edge 4, with two points on the x axis, two on the y axis and one on the z axis *)
Definition cube : list vec := image Hexahedron8 (affine (V 0 0 0) (V 2 0 0) (V 0 2 0) (V 0 0 2)).
Definition rules : Basis := mkBasis [-1/2; 1/2] [-1/2; 1/2] [0] (fun _ _ => 0) (fun _ _ => 0) (fun _ _ => 0).
Lemma cube_affine x y z : LocalToGlobal Hexahedron8 cube x y z = affine (V 0 0 0) (V 2 0 0) (V 0 2 0) (V 0 0 2) x y z.
Proof.
  unfold cube. apply (linear_affine Hexahedron8 _ _ _ _ _ x y z); [cbn; tauto|apply image_built|apply image_node].
Qed.
Lemma two_apart : apart [-1/2; 1/2].
Proof.
  assert (P : / 10 ^ 10 <= 1) by (apply Rle_trans with (/ 1); [apply Rinv_le_contravar; [lra|apply pow_R1_Rle; lra]|lra]).
  intros i j Hi Hj N. cbn [length] in Hi, Hj.
  destruct i as [|[|i]], j as [|[|j]]; try lia; cbn [nth].
  - replace (-1/2 - 1/2) with (-(1)) by field. rewrite Rabs_Ropp, Rabs_R1. exact P.
  - replace (1/2 - -1/2) with 1 by field. rewrite Rabs_R1. exact P.
Qed.
Lemma one_apart : apart [0].
Proof. intros i j Hi Hj N. cbn [length] in Hi, Hj. lia. Qed.

(** the line through the point (1/2, -1/2) of the face 0 has the node 2 only; the line across the face 1 at (1/2, 0) has
    the nodes 2 and 3 *)
Example C114_example : exists l l', FindCollinearPoints rules Hexahedron8 cube 2 (V 1 (-1) (-2)) 0 = Some l
  /\ nodes_behind rules 0 (V (1/2) (-1/2) (-1)) l
  /\ FindCollinearPoints rules Hexahedron8 cube 2 (V 1 (-2) 0) 1 = Some l'
  /\ nodes_behind rules 1 (V (1/2) (-1) 0) l'
  /\ FindCollinearIndexByLocal rules Hexahedron8 cube 2 (V 1 (-2) 0) 1 = Some (1, -1, 0)%Z.
Proof.
  assert (D : det3 (V 2 0 0) (V 0 2 0) (V 0 0 2) <> 0) by (unfold det3, dot, cross; cbn [vx vy vz]; lra).
  assert (E : In Hexahedron8 elements) by (cbn; tauto).
  destruct (C114_points rules Hexahedron8 cube 2 _ _ _ _ 0 1 0 E eq_refl (image_built _ _) cube_affine D (le_n 2)
    two_apart two_apart one_apart ltac:(lia) ltac:(cbn; lia) ltac:(cbn; lia)) as (l & F & N).
  destruct (C114_points rules Hexahedron8 cube 2 _ _ _ _ 1 1 0 E eq_refl (image_built _ _) cube_affine D (le_n 2)
    two_apart two_apart one_apart ltac:(lia) ltac:(cbn; lia) ltac:(cbn; lia)) as (l' & F' & N').
  pose proof (C114_by_local rules Hexahedron8 cube 2 _ _ _ _ 1 1 0 E eq_refl (image_built _ _) cube_affine D (le_n 2)
    two_apart two_apart one_apart ltac:(lia) ltac:(cbn; lia) ltac:(cbn; lia)) as L.
  cbv zeta in L. rewrite cube_affine in F, F', L.
  replace (affine _ _ _ _ _ _ _) with (V 1 (-1) (-2)) in F
    by (unfold affine, vadd, vscale; cbn; f_equal; field).
  replace (affine _ _ _ _ _ _ _) with (V 1 (-2) 0) in F', L
    by (unfold affine, vadd, vscale; cbn; f_equal; field).
  exists l, l'. split; [exact F|]. split; [exact N|]. split; [exact F'|]. split; [exact N'|exact L].
Qed.

(** the points of the face 0 of the cube are apart *)
Example C114_images : images_apart rules Hexahedron8 cube 0.
Proof.
  intros u v u' v' Hu Hv Hu' Hv' N image d.
  assert (P : / 10 ^ 8 <= 1) by (apply Rle_trans with (/ 1); [apply Rinv_le_contravar; [lra|apply pow_R1_Rle; lra]|lra]).
  apply (Rle_trans _ _ _ P). rewrite <- sqrt_1. apply sqrt_le_1_alt.
  unfold d, image. rewrite !cube_affine. unfold grid_point, first_rule, second_rule in *.
  cbn [across rules b_x b_y b_z face_point length] in *.
  destruct u as [|[|u]], v as [|[|v]], u' as [|[|u']], v' as [|[|v']]; try lia; try congruence;
    unfold affine, vadd, vscale, vsub, dot; cbn [nth vx vy vz]; lra.
Qed.

(** C115: a point of the face that is not on the grid is not rejected: the result is a line of nodes elsewhere. *)
Theorem C115_other_points_refuted : exists (b : Basis) e nodes p l,
  In e elements /\ (forall x y z, LocalToGlobal e nodes x y z = affine (V 0 0 0) (V 2 0 0) (V 0 2 0) (V 0 0 2) x y z)
  /\ apart (b_x b) /\ apart (b_y b) /\ apart (b_z b) /\ vz p = -1
  /\ FindCollinearPoints b e nodes 2 (LocalToGlobal e nodes (vx p) (vy p) (vz p)) 0 = Some l
  /\ l <> [] /\ forall n, In n l -> (n < b_N b)%nat /\ vx (local_coord b n) <> vx p /\ vy (local_coord b n) <> vy p.
Proof.
  exists rules, Hexahedron8, cube, (V (-1/2) 0 (-1)), [2%nat].
  split; [cbn; tauto|]. split; [exact cube_affine|]. split; [exact two_apart|]. split; [exact two_apart|].
  split; [exact one_apart|]. split; [reflexivity|].
  assert (D : det3 (V 2 0 0) (V 0 2 0) (V 0 0 2) <> 0) by (unfold det3, dot, cross; cbn [vx vy vz]; lra).
  assert (T : forall x, almost_equal x x = true).
  { intros x. unfold almost_equal. apply less_true. replace (x - x) with 0 by ring. rewrite Rabs_R0. apply small. }
  assert (P : / 10 ^ 10 <= 1 / 2).
  { replace (1 / 2) with (/ 2) by field. apply Rinv_le_contravar; [lra|]. apply Rle_trans with (10 ^ 1); [lra|].
    apply Rle_pow; [lra|lia]. }
  assert (N1 : almost_equal 0 (-1/2) = false).
  { unfold almost_equal. apply less_false. replace (0 - -1/2) with (1/2) by field. rewrite Rabs_right; lra. }
  assert (N2 : almost_equal 0 (1/2) = false).
  { unfold almost_equal. apply less_false. replace (0 - 1/2) with (-(1/2)) by field. rewrite Rabs_Ropp, Rabs_right; lra. }
  split; [|split; [discriminate|]].
  - unfold FindCollinearPoints.
    rewrite (affine_local 2 Hexahedron8 cube _ _ _ _ (V 0 0 0) (V (-1/2) 0 (-1)) ltac:(cbn; tauto) eq_refl (image_built _ _) cube_affine D (le_n 2)).
    cbn [bind on_side vx vy vz rules b_x b_y b_z find_point length seq map]. rewrite !T, N1, N2. reflexivity.
  - intros n [<-|[]]. split; [cbn; lia|]. unfold local_coord. cbn [rules b_x b_y b_z length].
    change (Hexa_index_inv 2 1 2) with (1%nat, 0%nat, 0%nat). cbn [nth vx vy]. split; lra.
Qed.
Print Assumptions C115_other_points_refuted.

(** C115: what holds: the side of the cell is asserted, and an index of a face that is none is rejected. *)
Theorem C115_rejected_partial : forall b e nodes fuel o vx_ vy_ vz_ i_face p, In e elements -> e_dim e = 3%nat ->
  built e nodes -> (forall x y z, LocalToGlobal e nodes x y z = affine o vx_ vy_ vz_ x y z) -> det3 vx_ vy_ vz_ <> 0 ->
  (2 <= fuel)%nat ->
  (6 <= i_face)%nat \/ / 10 ^ 10 <= Rabs (nth (across i_face) [vx p; vy p; vz p] 0 - side i_face) ->
  FindCollinearPoints b e nodes fuel (LocalToGlobal e nodes (vx p) (vy p) (vz p)) i_face = None
  /\ FindCollinearIndexByLocal b e nodes fuel (LocalToGlobal e nodes (vx p) (vy p) (vz p)) i_face = None.
Proof.
  intros b e nodes fuel o vx_ vy_ vz_ i_face p He Hd Hn A D F H.
  assert (S : on_side i_face p = false).
  { destruct i_face as [|[|[|[|[|[|i_face]]]]]]; [..|reflexivity]; (destruct H as [H|H]; [lia|]);
      cbn [across nth side on_side] in *; apply less_false; exact H. }
  assert (G : forall hint, GlobalToLocal fuel e nodes (LocalToGlobal e nodes (vx p) (vy p) (vz p)) hint = Some p)
    by (intros; eapply affine_local; eassumption).
  unfold FindCollinearPoints, FindCollinearIndexByLocal. rewrite G. cbn [bind]. rewrite S. split; [reflexivity|].
  destruct (local_hint i_face) as [hint|]; [|reflexivity]. cbn [bind]. rewrite G. cbn [bind]. rewrite S. reflexivity.
Qed.
Print Assumptions C115_rejected_partial.

(** the centre of the cube is on no face *)
Example C115_example : FindCollinearPoints rules Hexahedron8 cube 2 (V 0 0 0) 0 = None.
Proof.
  assert (D : det3 (V 2 0 0) (V 0 2 0) (V 0 0 2) <> 0) by (unfold det3, dot, cross; cbn [vx vy vz]; lra).
  destruct (C115_rejected_partial rules Hexahedron8 cube 2 _ _ _ _ 0 (V 0 0 0) ltac:(cbn; tauto) eq_refl (image_built _ _)
    cube_affine D (le_n 2)) as [H _].
  - right. cbn [across nth vx vy vz side]. replace (0 - -1) with 1 by ring. rewrite Rabs_R1.
    apply Rle_trans with (/ 1); [apply Rinv_le_contravar; [lra|apply pow_R1_Rle; lra]|lra].
  - rewrite cube_affine in H. replace (affine _ _ _ _ _ _ _) with (V 0 0 0) in H; [exact H|].
    unfold affine, vadd, vscale. cbn. f_equal; ring.
Qed.
