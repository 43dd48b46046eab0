(** Theorems for C47, C74 and C75: quadrature rules. *)
From Coq Require Import Reals QArith Qreals List Arith Lia Lra.
From Coquelicot Require Import Coquelicot.
From Verif Require Import RSum Vec3 Model_Shapes Model_Geometry Model_Projection Spec_Gauss Model_Gauss
  PolyQ Proof_Shapes Proof_Geometry Proof_Integral Proof_Gauss Proof_GaussTable Proof_GaussMore Proof_GaussVolume Proof_Maps Prop_Geometry.
Import ListNotations.
Open Scope R_scope.

(** ** C47: exact rules *)

(** the rules on the segment, with their degrees *)
Inductive line_rule : list R -> list R -> nat -> Prop :=
| Legendre q : (1 <= q <= 5)%nat -> line_rule (Legendre_points q) (Legendre_weights q) (2 * q - 1)
| Lobatto q : (2 <= q <= 6)%nat -> line_rule (Lobatto_points q) (Lobatto_weights q) (2 * q - 3).
Lemma line_rule_moments xs ws d : line_rule xs ws d -> has_moments xs ws d.
Proof. intros [q H|q H]; [apply legendre_moments, H|apply lobatto_moments, H]. Qed.

Theorem C47_segment_of_reference xs ws d c : line_rule xs ws d ->
  exactly (from_to (-1) 1) (poly1 d c) (Quadrature (poly1 d c) xs ws).
Proof. intros H. rewrite Quadrature_quad. apply exactly_line, exact1_int, line_rule_moments, H. Qed.
Theorem C47_segments xs ws d c p q : line_rule xs ws d -> p <= q ->
  exactly (from_to p q) (poly1 d c) (Quadrature (poly1 d c) (Line_coords p q xs) (Line_weights p q ws))
  /\ exactly (from_to p q) (poly1 d c) (Quadrature (poly1 d c) (Line_coords q p xs) (Line_weights q p ws)).
Proof. intros H. rewrite !Quadrature_quad. apply line_exact, line_rule_moments, H. Qed.
Theorem C47_square px wx dx py wy dy c : line_rule px wx dx -> line_rule py wy dy ->
  exactly over_square (poly2 dx dy c)
    (Quadrature (fun p => poly2 dx dy c (vx p) (vy p)) (Quadrangle_coords px py) (Quadrangle_weights wx wy)).
Proof. intros X Y. rewrite Quadrature_quad. apply exactly_2, exact2; apply line_rule_moments; auto. Qed.
Theorem C47_cube px wx dx py wy dy pz wz dz c : line_rule px wx dx -> line_rule py wy dy -> line_rule pz wz dz ->
  exactly over_cube (poly3 dx dy dz c)
    (Quadrature (fun p => poly3 dx dy dz c (vx p) (vy p) (vz p)) (Hexahedron_coords px py pz) (Hexahedron_weights wx wy wz)).
Proof. intros X Y Z. rewrite Quadrature_quad. apply exactly_3, exact3; apply line_rule_moments; auto. Qed.
Theorem C47_positive_weights xs ws d w : line_rule xs ws d -> In w ws -> 0 < w.
Proof. intros [q H|q H]; [apply legendre_positive, H|apply lobatto_positive, H]. Qed.

(** the degree cannot be raised: x^4 is not integrated by the two points of degree 3 *)
Example C47_example :
  line_rule (Legendre_points 2) (Legendre_weights 2) 3 /\
  Quadrature (fun x => x ^ 2) (Legendre_points 2) (Legendre_weights 2) = 2 / 3 /\
  exactly (from_to (-1) 1) (fun x => x ^ 2) (2 / 3) /\
  Quadrature (fun x => x ^ 4) (Legendre_points 2) (Legendre_weights 2) = 2 / 9 /\
  exactly (from_to (-1) 1) (fun x => x ^ 4) (2 / 5).
Proof.
  assert (sqrt (1 / 3) * sqrt (1 / 3) = 1 / 3) as S by (apply sqrt_sqrt; lra).
  split; [apply (Legendre 2); lia|]. unfold Quadrature. cbn [Legendre_points Legendre_weights combine fold_left fst snd].
  split; [|split; [|split]].
  - replace (0 + (- sqrt (1 / 3)) ^ 2 * 1 + sqrt (1 / 3) ^ 2 * 1) with (2 * (sqrt (1 / 3) * sqrt (1 / 3))) by ring. rewrite S. field.
  - apply exactly_line. eapply is_RInt_val; [apply moment_int|]. unfold moment. cbn [INR pow]. field.
  - replace (0 + (- sqrt (1 / 3)) ^ 4 * 1 + sqrt (1 / 3) ^ 4 * 1)
      with (2 * (sqrt (1 / 3) * sqrt (1 / 3)) * (sqrt (1 / 3) * sqrt (1 / 3))) by ring. rewrite S. field.
  - apply exactly_line. eapply is_RInt_val; [apply moment_int|]. unfold moment. cbn [INR pow]. field.
Qed.
Print Assumptions C47_segment_of_reference.
Print Assumptions C47_segments.
Print Assumptions C47_square.
Print Assumptions C47_cube.
Print Assumptions C47_positive_weights.

(** ** C74: rules with decimal constants *)

Theorem C74_six_points c :
  within (from_to (-1) 1) (poly1 11 c) (Quadrature (poly1 11 c) (Legendre_points 6) (Legendre_weights 6)) (2 / 10 ^ 15 * size1 11 c).
Proof.
  rewrite Quadrature_quad. replace (2 / 10 ^ 15) with (Q2R eps15) by (unfold Q2R, eps15; cbn; lra). apply legendre6_within.
Qed.
Lemma eps20_is : Q2R eps20 = / 10 ^ 20.
Proof. unfold Q2R, eps20, Qnum, Qden. rewrite Rmult_1_l, pow_IZR. reflexivity. Qed.
Lemma eps17_is : Q2R (1 # 10 ^ 17) = / 10 ^ 17.
Proof. unfold Q2R, Qnum, Qden. rewrite Rmult_1_l, pow_IZR. reflexivity. Qed.
Theorem C74_triangle n d c : triangle_rule n d ->
  within over_triangle (total2 d c)
    (Quadrature (fun p => total2 d c (vx p) (vy p)) (Triangle_coords_R n) (Triangle_weights_R n)) (/ 10 ^ 20 * size2 d c).
Proof.
  intros H. rewrite Quadrature_quad, <- eps20_is. destruct H; (apply triangle_within; [cbn; auto 10|reflexivity]).
Qed.
Theorem C74_tetrahedron n d eps c : tetrahedron_rule n d eps ->
  within over_tetrahedron (total3 d c)
    (Quadrature (fun p => total3 d c (vx p) (vy p) (vz p)) (Tetrahedron_coords_R n) (Tetrahedron_weights_R n)) (eps * size3 d c).
Proof.
  intros H. rewrite Quadrature_quad.
  assert (eps = Q2R (tet_eps n)) as E by (destruct H; symmetry; first [exact eps20_is|exact eps17_is]). rewrite E. clear E.
  destruct H; (apply tetrahedron_within; [cbn; auto 10|reflexivity]).
Qed.
Theorem C74_wedge n d pz wz dz c : triangle_rule n d -> line_rule pz wz dz ->
  within over_wedge (prism3 d dz c)
    (Quadrature (fun p => prism3 d dz c (vx p) (vy p) (vz p)) (Wedge_coords (Triangle_coords_R n) pz)
       (Wedge_weights (Triangle_weights_R n) wz))
    (2 / 10 ^ 20 * prism_size d dz c).
Proof.
  intros H Z. rewrite Quadrature_quad. unfold Rdiv at 1. rewrite <- eps20_is.
  destruct H; (apply wedge_within; [cbn; auto 10|reflexivity|apply line_rule_moments, Z]).
Qed.
(** on the cube that is mapped to the pyramid, whose Jacobian has the factor (1 - z)^2 *)
Theorem C74_pyramid n px wx dx py wy dy c : (1 <= n <= 5)%nat -> line_rule px wx dx -> line_rule py wy dy ->
  let f := fun x y z => (1 - z) ^ 2 * poly3 dx dy (2 * n - 1) c x y z in
  within over_cube f
    (Quadrature (fun p => f (vx p) (vy p) (vz p)) (Hexahedron_coords px py (map Q2R (Jacobi_points n)))
       (Pyramid_weights wx wy (map Q2R (Jacobi_points n)) (map Q2R (Jacobi_weights n))))
    (8 / 10 ^ 15 * box_size dx dy (2 * n - 1) c).
Proof.
  intros N X Y f. rewrite Quadrature_quad. replace (8 / 10 ^ 15) with (4 * Q2R eps15) by (unfold Q2R, eps15; cbn; lra).
  apply pyramid_within; auto; apply line_rule_moments; auto.
Qed.
(** the three points integrate x y over the triangle *)
Example C74_example :
  triangle_rule 3 2 /\
  exactly over_triangle (fun x y => x ^ 1 * y ^ 1) (1 / 24) /\
  Quadrature (fun p => vx p ^ 1 * vy p ^ 1) (Triangle_coords_R 3) (Triangle_weights_R 3) <> 0 /\
  tetrahedron_rule 15 5 (/ 10 ^ 17).
Proof.
  split; [constructor|]. split.
  - apply exactly_2. eapply integral2_val; [apply triangle_monomial|]. unfold tri_integral. cbn. field.
  - split; [|constructor]. rewrite Quadrature_quad.
    pose proof (tri_moment 3 1 1 ltac:(cbn; tauto) ltac:(cbn; lia)) as H. rewrite eps20_is in H.
    assert (tri_integral 1 1 = 1 / 24) as T by (unfold tri_integral; cbn; field). rewrite T in H.
    intros Z. rewrite Z in H. rewrite Rabs_left in H by lra. lra.
Qed.
Print Assumptions C74_six_points.
Print Assumptions C74_triangle.
Print Assumptions C74_tetrahedron.
Print Assumptions C74_wedge.
Print Assumptions C74_pyramid.

(** ** C75: integrals over curved hexahedra *)

(** the hexahedra, and the degree of their shape functions in each local coordinate *)
Inductive hexahedron : Element -> nat -> Prop :=
| H8 : hexahedron Hexahedron8 1 | H20 : hexahedron Hexahedron20 2
| H26 : hexahedron Hexahedron26 2 | H27 : hexahedron Hexahedron27 2.
Lemma hexahedron_bricks e m : hexahedron e m -> In e bricks /\ order e = m.
Proof. intros []; cbn; auto 10. Qed.
Definition detJ (e : Element) (nodes : list vec) (x y z : R) : R := mdet (rows (LocalToJacobian e nodes x y z)).

Theorem C75_integrals_over_hexahedra e m nodes px wx dx py wy dy pz wz dz p c :
  hexahedron e m -> length nodes = length (e_coords e) ->
  line_rule px wx dx -> line_rule py wy dy -> line_rule pz wz dz ->
  (p * m + (3 * m - 1) <= Nat.min dx (Nat.min dy dz))%nat ->
  (forall l, In l (Hexahedron_coords px py pz) -> 0 <= detJ e nodes (vx l) (vy l) (vz l)) ->
  exactly over_cube
    (fun x y z => let g := LocalToGlobal e nodes x y z in total3 p c (vx g) (vy g) (vz g) * detJ e nodes x y z)
    (Integrate (fun g => total3 p c (vx g) (vy g) (vz g))
       (BuildQuadraturePoints e nodes cell_det (Hexahedron_coords px py pz) (Hexahedron_weights wx wy wz))).
Proof.
  intros H N X Y Z D P. apply hexahedron_bricks in H as [B <-]. apply exactly_3.
  apply (integral_over_cell e B nodes N _ _ _ _ _ _ dx dy dz); try (apply line_rule_moments; assumption); auto; lia.
Qed.
Theorem C75_volumes_of_hexahedra e m nodes px wx dx py wy dy pz wz dz :
  hexahedron e m -> length nodes = length (e_coords e) ->
  line_rule px wx dx -> line_rule py wy dy -> line_rule pz wz dz ->
  (3 * m - 1 <= Nat.min dx (Nat.min dy dz))%nat ->
  (forall l, In l (Hexahedron_coords px py pz) -> 0 <= detJ e nodes (vx l) (vy l) (vz l)) ->
  exactly over_cube (detJ e nodes)
    (quadrature_sum (BuildQuadraturePoints e nodes cell_det (Hexahedron_coords px py pz) (Hexahedron_weights wx wy wz))).
Proof.
  intros H N X Y Z D P. apply hexahedron_bricks in H as [B <-]. apply exactly_3.
  apply (volume_of_cell e B nodes N _ _ _ _ _ _ dx dy dz); try (apply line_rule_moments; assumption); auto; lia.
Qed.
(** the widened cell has the volume 12 *)
Lemma widened_det x y z : detJ Hexahedron8 (map vecQ widened) x y z = (3 + z) / 2.
Proof.
  assert (forall a u v w, (same (weightedE lX widened (columnE Hexahedron8 a)) u && same (weightedE lY widened (columnE Hexahedron8 a)) v
      && same (weightedE lZ widened (columnE Hexahedron8 a)) w = true)%bool ->
    LocalToJacobian Hexahedron8 (map vecQ widened) x y z a = V (ev x y z u) (ev x y z v) (ev x y z w)) as J.
  { intros a u v w S. apply andb_prop in S as [S Sw]. apply andb_prop in S as [Su Sv].
    rewrite jacobianE_ok by (cbn; auto 20). rewrite (same_ev _ _ _ _ _ Su), (same_ev _ _ _ _ _ Sv), (same_ev _ _ _ _ _ Sw). reflexivity. }
  unfold detJ, rows. rewrite (J 0%nat (EMul (EC (1 # 2)) (EAdd (EC 3) EZ)) (EC 0) (EC 0)) by (vm_compute; reflexivity).
  rewrite (J 1%nat (EC 0) (EC 1) (EC 0)) by (vm_compute; reflexivity).
  rewrite (J 2%nat (EMul (EC (1 # 2)) EX) (EC 0) (EC 1)) by (vm_compute; reflexivity).
  unfold mdet, det3, dot, cross. cbn [vx vy vz r0 r1 r2 ev]. unfold Q2R. cbn [Qnum Qden]. field.
Qed.
Example C75_example :
  let nodes := map vecQ widened in
  let gauss := BuildQuadraturePoints Hexahedron8 nodes cell_det
    (Hexahedron_coords (Legendre_points 2) (Legendre_points 2) (Legendre_points 2))
    (Hexahedron_weights (Legendre_weights 2) (Legendre_weights 2) (Legendre_weights 2)) in
  length gauss = 8%nat /\ exactly over_cube (detJ Hexahedron8 nodes) 12 /\ quadrature_sum gauss = 12.
Proof.
  intros nodes gauss.
  assert (exactly over_cube (detJ Hexahedron8 nodes) 12) as V.
  { apply exactly_3. exists (fun _ _ => 3). split.
    - intros x y. apply (is_RInt_fun (fun z => 3 / 2 * z ^ 0 + 1 / 2 * z ^ 1)); [intros z; unfold nodes; rewrite widened_det; cbn [pow]; field|].
      eapply is_RInt_val; [apply is_RInt_add; apply is_RInt_mul, moment_int|]. unfold moment. cbn [INR pow]. field.
    - apply (integral2_fun _ _ _ _ (fun x y => 3 * (x ^ 0 * y ^ 0))); [intros; cbn [pow]; ring|].
      eapply integral2_val; [apply integral2_mul, square_monomial|]. unfold moment. cbn [INR pow]. field. }
  split; [reflexivity|]. split; [exact V|]. apply V.
  assert (line_rule (Legendre_points 2) (Legendre_weights 2) 3) as L by (apply (Legendre 2); lia).
  refine (proj2 (C75_volumes_of_hexahedra Hexahedron8 1 nodes _ _ 3 _ _ 3 _ _ 3 H8 eq_refl L L L _ _ _) eq_refl); [cbn; lia|].
  intros [x y z] I. unfold nodes. rewrite widened_det. cbn [vz].
  assert (-1 <= z) as B.
  { pose proof (sqrt_le_1_alt (1 / 3) 1 ltac:(lra)) as S. rewrite sqrt_1 in S. pose proof (sqrt_pos (1 / 3)).
    cbn in I. repeat (destruct I as [I|I]; [apply (f_equal vz) in I; cbn [vz] in I; lra|]). contradiction. }
  lra.
Qed.
Print Assumptions C75_integrals_over_hexahedra.
Print Assumptions C75_volumes_of_hexahedra.
