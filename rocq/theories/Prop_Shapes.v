(** Properties of shape functions and coordinate maps. *)
From Coq Require Import Reals QArith Qreals List Arith Lia Lra Bool Permutation.
From Verif Require Import Vec3 Spec_Basis Model_Shapes Model_Geometry PolyQ Spec_Shapes Spec_Faces Proof_Shapes Proof_Geometry Proof_Maps Proof_Faces.
Import ListNotations.
Open Scope R_scope.

(** C19: the nodes of any face, given in any order and with any numbers, are put in outward order *)
Theorem C19_faces_in_outward_order :
  sorts (tetrahedron 4) Tetrahedron4_Sort /\ sorts (tetrahedron 10) Tetrahedron10_Sort /\
  sorts (hexahedron 8) (Hexahedron_Sort 4) /\ sorts (hexahedron 20) (Hexahedron_Sort 8) /\
  sorts (hexahedron 26) (Hexahedron_Sort 9) /\ sorts (hexahedron 27) (Hexahedron_Sort 9) /\
  sorts (wedge 6) Wedge6_Sort /\ sorts (wedge 15) Wedge15_Sort /\ sorts (wedge 18) Wedge18_Sort /\
  sorts (pyramid 5) Pyramid5_Sort /\ sorts (pyramid 13) Pyramid13_Sort /\ sorts (pyramid 14) Pyramid14_Sort.
Proof.
  pose proof hexa_sorts as H.
  repeat split; first [exact tetra4_sorts | exact tetra10_sorts | apply H; cbn; tauto | exact wedge6_sorts | exact wedge15_sorts
    | exact wedge18_sorts | exact pyramid5_sorts | exact pyramid13_sorts | exact pyramid14_sorts].
Qed.
(** the cells are on the inner side of their planes *)
Theorem C19_reference_cells_convex c :
  In c [tetrahedron 4; tetrahedron 10; hexahedron 8; hexahedron 20; hexahedron 26; hexahedron 27;
        wedge 6; wedge 15; wedge 18; pyramid 5; pyramid 13; pyramid 14] -> convex c.
Proof.
  intros H pl p Hpl Hp. apply Z.leb_le.
  assert (forallb (fun c => forallb (fun pl => forallb (fun p => (pdot (fst pl) p <=? snd pl)%Z) (points c)) (planes c))
    [tetrahedron 4; tetrahedron 10; hexahedron 8; hexahedron 20; hexahedron 26; hexahedron 27;
     wedge 6; wedge 15; wedge 18; pyramid 5; pyramid 13; pyramid 14] = true) as A by (vm_compute; reflexivity).
  rewrite forallb_forall in A. specialize (A c H). rewrite forallb_forall in A. specialize (A pl Hpl).
  rewrite forallb_forall in A. exact (A p Hp).
Qed.
Example C19_example :
  (** the face with nodes 13, 11 and 19 of a tetrahedron *)
  Tetrahedron4_Sort [11; 17; 13; 19]%nat [13; 11; 19]%nat = Some [11; 19; 13]%nat /\
  (** the face x = 1 of a hexahedron *)
  nodes_on (hexahedron 8) ((1, 0, 0)%Z, 2%Z) = [1; 2; 5; 6]%nat /\
  Hexahedron_Sort 4 [10; 11; 12; 13; 14; 15; 16; 17]%nat [16; 11; 12; 15]%nat = Some [11; 12; 16; 15]%nat /\
  (** the slanted side of a wedge with 15 nodes *)
  Wedge15_Sort [0; 1; 2; 3; 4; 5; 6; 7; 8; 9; 10; 11; 12; 13; 14]%nat [6; 0; 10; 1; 12; 3; 9; 4]%nat = Some [0; 1; 4; 3; 6; 10; 12; 9]%nat.
Proof. vm_compute. repeat split. Qed.
Print Assumptions C19_faces_in_outward_order.
Print Assumptions C19_reference_cells_convex.

(** C44 *)
Theorem C44_shapes_interpolate e : In e elements ->
  interpolates (length (e_coords e)) (e_shapes e R RealOps) (node e) /\
  gradients_of (e_dim e) (length (e_coords e)) (e_shapes e R RealOps) (e_grads e R RealOps).
Proof. intros H. split; [apply shapes_interpolate, H | apply shapes_gradients, H]. Qed.
Theorem C44_nodes_reproduced e nodes j : In e elements -> built e nodes -> (j < length (e_coords e))%nat ->
  (let '(x, y, z) := node e j in LocalToGlobal e nodes x y z) = nth j nodes v0.
Proof. intros. apply LocalToGlobal_node; assumption. Qed.
Theorem C44_affine_maps_reproduced e nodes o a b c x y z : In e linear_elements -> built e nodes ->
  (forall i, (i < length (e_coords e))%nat -> nth i nodes v0 = (let '(x, y, z) := node e i in affine o a b c x y z)) ->
  LocalToGlobal e nodes x y z = affine o a b c x y (if (e_dim e =? 3)%nat then z else 0).
Proof. exact (linear_affine e nodes o a b c x y z). Qed.
(** the local coordinates of pyramids are those of a cube whose top is collapsed *)
Theorem C44_affine_pyramids_reproduced e nodes o a b c x y z : In e pyramids -> built e nodes ->
  (forall i, (i < length (e_coords e))%nat -> nth i nodes v0 =
    (let '(x, y, z) := node e i in affine o a b c (x * (1 - z) / 2) (y * (1 - z) / 2) z)) ->
  LocalToGlobal e nodes x y z = affine o a b c (x * (1 - z) / 2) (y * (1 - z) / 2) z.
Proof. exact (pyramid_affine e nodes o a b c x y z). Qed.
(** the elements with nodes on their edges reproduce quadratic polynomials *)
Theorem C44_quadratics_reproduced e f : In e quadratic_elements -> e_dim e = 3%nat ->
  In f [(fun x _ _ => x * x); (fun x y _ => x * y); (fun x _ z => x * z); (fun _ y _ => y * y); (fun _ y z => y * z); (fun _ _ z => z * z)] ->
  reproduces (length (e_coords e)) (e_shapes e R RealOps) (node e) f.
Proof.
  intros H D F. pose proof (fun p => reproduce_of quadratic_elements (fun e => exponents (e_dim e) 2) e p quadratic_check H (quadratic_are_elements e H)) as T.
  cbv beta in T. rewrite D in T.
  destruct F as [<-|[<-|[<-|[<-|[<-|[<-|[]]]]]]];
    [apply (T (EMul EX EX))|apply (T (EMul EX EY))|apply (T (EMul EX EZ))|apply (T (EMul EY EY))|apply (T (EMul EY EZ))|apply (T (EMul EZ EZ))];
    cbn; tauto.
Qed.
Theorem C44_quadratics_reproduced_on_faces e f : In e quadratic_elements -> e_dim e = 2%nat ->
  In f [(fun x _ _ => x * x); (fun x y _ => x * y); (fun _ y _ => y * y)] ->
  reproduces (length (e_coords e)) (e_shapes e R RealOps) (node e) f.
Proof.
  intros H D F. pose proof (fun p => reproduce_of quadratic_elements (fun e => exponents (e_dim e) 2) e p quadratic_check H (quadratic_are_elements e H)) as T.
  cbv beta in T. rewrite D in T.
  destruct F as [<-|[<-|[<-|[]]]]; [apply (T (EMul EX EX))|apply (T (EMul EX EY))|apply (T (EMul EY EY))]; cbn; tauto.
Qed.
(** a skewed prism: the middle of its slanted side *)
Example C44_example :
  In Wedge6 elements /\ built Wedge6 (image Wedge6 (affine v0 (V 2 0 0) (V 0 3 0) (V 1 0 1))) /\
  LocalToGlobal Wedge6 (image Wedge6 (affine v0 (V 2 0 0) (V 0 3 0) (V 1 0 1))) (1 / 2) (1 / 2) 0 = V 1 (3 / 2) 0.
Proof.
  split; [cbn; tauto|]. split; [apply image_built|].
  rewrite (linear_affine Wedge6 _ v0 (V 2 0 0) (V 0 3 0) (V 1 0 1)); [|cbn; tauto|apply image_built|apply image_node].
  cbn [e_dim Wedge6 Nat.eqb]. unfold affine, vadd, vscale, v0. cbn [vx vy vz]. f_equal; lra.
Qed.
Print Assumptions C44_shapes_interpolate.
Print Assumptions C44_nodes_reproduced.
Print Assumptions C44_affine_maps_reproduced.
Print Assumptions C44_affine_pyramids_reproduced.
Print Assumptions C44_quadratics_reproduced.
Print Assumptions C44_quadratics_reproduced_on_faces.

(** C45: on a sheared parallelepiped the vector is not normal to the face *)
Theorem C45_outward_normal_refuted :
  exists nodes i n t, built Hexahedron8 nodes /\
    (forall x y z, 0 < mdet (rows (LocalToJacobian Hexahedron8 nodes x y z))) /\
    (i < 6)%nat /\ GetOutwardNormalVector Hexahedron8 nodes i = Some n /\
    (** [t] is tangent to the face z = 1 *)
    i = 5%nat /\ is_partial_vec [AX] (LocalToGlobal Hexahedron8 nodes) 0 0 1 t /\ dot n t <> 0.
Proof.
  pose (nodes := image Hexahedron8 (affine v0 (V 1 0 0) (V 0 1 0) (V 1 0 1))).
  assert (forall x y z, rows (LocalToJacobian Hexahedron8 nodes x y z) = M3 (V 1 0 0) (V 0 1 0) (V 1 0 1)) as J.
  { intros. apply (affine_jacobian Hexahedron8 nodes ltac:(cbn; tauto) eq_refl (image_built _ _) v0).
    intros. apply (linear_affine Hexahedron8 nodes v0 (V 1 0 0) (V 0 1 0) (V 1 0 1) x0 y0 z0 ltac:(cbn; tauto) (image_built _ _)). apply image_node. }
  pose proof (f_equal r0 (J 0 0 1)) as Jx. pose proof (f_equal r2 (J 0 0 1)) as Jz. unfold rows in Jx, Jz. cbn [r0 r2] in Jx, Jz.
  exists nodes, 5%nat, (normalized (V 1 0 1)), (V 1 0 0).
  split; [apply image_built|]. split; [|split; [lia|split; [|split; [reflexivity|split]]]].
  - intros. rewrite J. unfold mdet, det3, dot, cross. cbn [r0 r1 r2 vx vy vz]. lra.
  - cbn [GetOutwardNormalVector]. rewrite Jz. reflexivity.
  - rewrite <- Jx. apply (LocalToJacobian_partial Hexahedron8 nodes 0 0 1 0); [cbn; tauto|apply image_built|cbn; lia].
  - destruct (normalized_scale (V 1 0 1)) as (k & Pk & -> & _).
    + intros E. apply (f_equal vx) in E. cbn [vx v0] in E. lra.
    + unfold dot, vscale. cbn [vx vy vz]. lra.
Qed.
(** What holds: it is a unit vector along the coordinate line that leaves the cell through the centre of the
    face, and normal to the face if that line is. *)
Theorem C45_outward_normal_partial h nodes i t u d :
  In h hexas -> built (h_element h) nodes -> (i < 6)%nat ->
  let P := LocalToGlobal (h_element h) nodes in
  let '(a, s) := face_axis i in
  let '(x, y, z) := face_centre i in
  (** the derivatives of the coordinate map along the two axes of the face and across it *)
  is_partial_vec [axis_of ((a + 1) mod 3)] P x y z t -> is_partial_vec [axis_of ((a + 2) mod 3)] P x y z u ->
  is_partial_vec [axis_of a] P x y z d -> d <> v0 ->
  exists n, GetOutwardNormalVector (h_element h) nodes i = Some n /\ dot n n = 1 /\ 0 < s * dot n d /\
    (dot d t = 0 -> dot d u = 0 -> dot n t = 0 /\ dot n u = 0).
Proof.
  intros Hh Hn Hi. cbv zeta. rewrite (outward_normal _ _ i Hi).
  assert (fst (face_axis i) < 3)%nat as Ha by (destruct i as [|[|[|[|[|[|i]]]]]]; cbn; lia).
  assert (snd (face_axis i) * snd (face_axis i) = 1) as Hs by (destruct i as [|[|[|[|[|[|i]]]]]]; cbn [face_axis snd]; lra).
  destruct (face_axis i) as (a, s). cbn [fst snd] in *. destruct (face_centre i) as [[x y] z].
  intros Ht Hu Hd Nd.
  replace (LocalToJacobian (h_element h) nodes x y z a) with d.
  2:{ eapply is_partial_vec_unique; [exact Hd|apply J_partial; assumption]. }
  destruct (normalized_scale d Nd) as (k & Pk & -> & K). eexists; split; [reflexivity|].
  assert (forall v, dot (vscale s (vscale k d)) v = s * k * dot d v) as E by (intros; rewrite !dot_scale; ring).
  split; [|split].
  - rewrite E, dot_comm, E. replace (s * k * (s * k * dot d d)) with (s * s * (k * k * dot d d)) by ring. rewrite Hs, K. ring.
  - rewrite E. replace (s * (s * k * dot d d)) with (s * s * (k * dot d d)) by ring. rewrite Hs.
    pose proof (dot_pos d Nd). nra.
  - intros A B. rewrite !E, A, B. split; ring.
Qed.
Print Assumptions C45_outward_normal_refuted.
Print Assumptions C45_outward_normal_partial.
