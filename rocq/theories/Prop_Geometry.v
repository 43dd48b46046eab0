(** Properties of the derivatives of coordinate maps, of the frames of faces and of the inverse map. *)
From Coq Require Import Reals QArith Qreals List Arith Lia Lra Bool.
From Verif Require Import Vec3 Spec_Basis Model_Shapes Model_Geometry PolyQ Spec_Shapes Proof_Shapes Proof_Geometry Proof_Maps.
Import ListNotations.
Open Scope R_scope.

(** an hourglass cell: a cube whose top is twice as wide; [P x y z = (x (3 + z) / 2, y, z)] *)
Definition widened : list Local :=
  [(-1, -1, -1); (1, -1, -1); (1, 1, -1); (-1, 1, -1); (-2, -1, 1); (2, -1, 1); (2, 1, 1); (-2, 1, 1)]%Q.

(** C45, positive case: a box *)
Example C45_example :
  GetOutwardNormalVector Hexahedron8 (image Hexahedron8 (affine v0 (V 1 0 0) (V 0 2 0) (V 0 0 3))) 3 = Some (V 0 1 0).
Proof.
  cbn [GetOutwardNormalVector].
  pose proof (affine_jacobian Hexahedron8 (image Hexahedron8 (affine v0 (V 1 0 0) (V 0 2 0) (V 0 0 3))) ltac:(cbn; tauto) eq_refl
    (image_built _ _) v0 (V 1 0 0) (V 0 2 0) (V 0 0 3)) as J.
  specialize (J (fun x y z => linear_affine Hexahedron8 _ v0 (V 1 0 0) (V 0 2 0) (V 0 0 3) x y z ltac:(cbn; tauto) (image_built _ _) (image_node _ _))).
  specialize (J 0 1 0). apply (f_equal r1) in J. unfold rows in J. cbn [r1] in J. rewrite J.
  unfold normalized, dot. cbn [vx vy vz]. destruct (Rlt_dec 0 (0 * 0 + 2 * 2 + 0 * 0)); [|lra].
  replace (0 * 0 + 2 * 2 + 0 * 0) with (2 * 2) by ring. rewrite sqrt_square by lra.
  unfold vscale. cbn [vx vy vz]. do 2 f_equal; field.
Qed.

(** C70 *)
Theorem C70_second_and_third_derivatives h : In h hexas ->
  let e := h_element h in
  derivatives_of second (length (e_coords e)) (e_shapes e R RealOps) (h_hessians h R RealOps) /\
  derivatives_of third (length (e_coords e)) (e_shapes e R RealOps) (h_tensors h R RealOps).
Proof. intros H. split; [apply shapes_hessians, H | apply shapes_tensors, H]. Qed.
Example C70_example : In Hexa20 hexas /\
  (** node 8 is the middle of an edge; its shape function is (1 - x²) (1 - y) (1 - z) / 4 *)
  nth 0 (nth 8 (h_hessians Hexa20 R RealOps (Q2R (1 # 2)) (Q2R 0) (Q2R (1 # 3))) []) 0 = Q2R (- 1 # 3).
Proof.
  split; [cbn; tauto|]. rewrite <- (all_hessians_match Hexa20 ltac:(cbn; tauto)), nth_map2, <- evQ_ev.
  apply Qeq_eqR. vm_compute. reflexivity.
Qed.
Print Assumptions C70_second_and_third_derivatives.

(** C71 *)
Theorem C71_jacobian_derivatives h nodes : In h hexas -> built (h_element h) nodes ->
  let J b x y z := LocalToJacobian (h_element h) nodes x y z b in
  (forall b x y z, (b < 3)%nat -> is_partial_vec [axis_of b] (LocalToGlobal (h_element h) nodes) x y z (J b x y z)) /\
  (forall a b x y z, (a < 3)%nat -> (b < 3)%nat ->
    is_partial_vec [axis_of a] (J b) x y z (LocalToJacobianGradient h nodes x y z a b)) /\
  (forall k b x y z, (k < 6)%nat -> (b < 3)%nat ->
    is_partial_vec (nth k second []) (J b) x y z (LocalToJacobianHessian h nodes x y z k b)).
Proof.
  intros Hh Hn J. split; [|split].
  - intros. apply J_partial; assumption.
  - intros. apply G_partial; assumption.
  - intros k b x y z Hk Hb.
    assert (nth k second [] = [axis_of (fst (pair_of k)); axis_of (snd (pair_of k))]) as ->
      by (destruct k as [|[|[|[|[|[|k]]]]]]; try lia; reflexivity).
    assert (fst (pair_of k) < 3)%nat as Ha by (destruct k as [|[|[|[|[|k]]]]]; cbn; lia).
    destruct (K_partial h nodes Hh Hn k b x y z Hk Hb) as (K1 & K2 & K3).
    split; [|split]; (eexists; split; [|eassumption]); apply partial1_of; intros u v w;
      apply (G_partial h nodes Hh Hn (fst (pair_of k)) b u v w Ha Hb).
Qed.
Theorem C71_determinant_derivatives h nodes x y z : In h hexas -> built (h_element h) nodes ->
  let det x y z := mdet (rows (LocalToJacobian (h_element h) nodes x y z)) in
  det x y z <> 0 ->
  (forall a, (a < 3)%nat -> is_partial [axis_of a] det x y z (LocalToJacobianDeterminantGradient h nodes x y z a)) /\
  (forall k, (k < 6)%nat -> is_partial (nth k second []) det x y z (LocalToJacobianDeterminantHessian h nodes x y z k)).
Proof.
  intros Hh Hn det N. split.
  - intros a Ha. rewrite (ddet_formula h nodes a x y z N). apply of_partial1, (detJ_partial h nodes Hh Hn a Ha).
  - intros k Hk. rewrite (dddet_formula h nodes k x y z N).
    assert (nth k second [] = [axis_of (fst (pair_of k)); axis_of (snd (pair_of k))]) as ->
      by (destruct k as [|[|[|[|[|[|k]]]]]]; try lia; reflexivity).
    assert (fst (pair_of k) < 3)%nat as Ha by (destruct k as [|[|[|[|[|k]]]]]; cbn; lia).
    exists (ddet h nodes (fst (pair_of k))). split; [apply (detJ_partial h nodes Hh Hn _ Ha)|].
    apply of_partial1, (ddet_partial h nodes Hh Hn k Hk).
Qed.
(** on the widened cell the determinant is (3 + z) / 2 *)
Example C71_example :
  built (h_element Hexa8) (map vecQ widened) /\
  mdet (rows (LocalToJacobian (h_element Hexa8) (map vecQ widened) (Q2R 0) (Q2R 0) (Q2R 0))) = 3 / 2 /\
  LocalToJacobianDeterminantGradient Hexa8 (map vecQ widened) (Q2R 0) (Q2R 0) (Q2R 0) 2 = 1 / 2.
Proof.
  assert (forall a, LocalToJacobian Hexahedron8 (map vecQ widened) (Q2R 0) (Q2R 0) (Q2R 0) a =
    vecQ (weightedQ widened (columnQ a (gE Hexahedron8) 0 0 0))) as J by (intros; apply jacobianQ_ok; cbn; tauto).
  pose proof (hessianQ_ok Hexa8 widened 0 0 0) as H.
  assert (forall b, (b < 3)%nat -> LocalToJacobianGradient Hexa8 (map vecQ widened) (Q2R 0) (Q2R 0) (Q2R 0) 2 b =
     match b with 0%nat => V (1 / 2) 0 0 | _ => v0 end) as G.
  { intros b Hb. unfold LocalToJacobianGradient.
    destruct b as [|[|[|b]]]; try lia; rewrite H by (cbn; tauto);
    match goal with |- vecQ ?q = _ => let v := eval vm_compute in q in change q with v end;
    unfold vecQ, v0, Q2R; cbn; f_equal; lra. }
  assert (rows (LocalToJacobian Hexahedron8 (map vecQ widened) (Q2R 0) (Q2R 0) (Q2R 0)) = M3 (V (3 / 2) 0 0) (V 0 1 0) (V 0 0 1)) as E.
  { unfold rows. rewrite !J.
    repeat match goal with |- context[weightedQ ?p ?q] => let v := eval vm_compute in (weightedQ p q) in change (weightedQ p q) with v end.
    unfold vecQ, Q2R. cbn. repeat f_equal; lra. }
  split; [reflexivity|]. split.
  - cbn [h_element Hexa8]. rewrite E. unfold mdet, det3, dot, cross. cbn [vx vy vz r0 r1 r2]. lra.
  - unfold LocalToJacobianDeterminantGradient. cbn [h_element Hexa8]. rewrite E. unfold rows at 1. rewrite !G by lia.
    assert (mdet (M3 (V (3 / 2) 0 0) (V 0 1 0) (V 0 0 1)) = 3 / 2) as D by (unfold mdet, det3, dot, cross; cbn [vx vy vz r0 r1 r2]; lra).
    assert (minv (M3 (V (3 / 2) 0 0) (V 0 1 0) (V 0 0 1)) = M3 (V (2 / 3) 0 0) (V 0 1 0) (V 0 0 1)) as I.
    { unfold minv. rewrite D. unfold of_columns, cross. cbn [vx vy vz r0 r1 r2]. unfold vscale. cbn [vx vy vz]. f_equal; f_equal; field. }
    rewrite D, I. unfold mtrace, mmul. cbn [r0 r1 r2]. unfold rmul. cbn [r0 r1 r2]. unfold v0. cbn [vx vy vz].
    unfold vscale. cbn [vx vy vz]. unfold vadd. cbn [vx vy vz]. lra.
Qed.
Print Assumptions C71_jacobian_derivatives.
Print Assumptions C71_determinant_derivatives.

(** C72 *)
Theorem C72_face_frames e nodes x y tx ty : In e elements -> e_dim e = 2%nat -> built e nodes ->
  is_partial_vec [AX] (LocalToGlobal e nodes) x y 0 tx -> is_partial_vec [AY] (LocalToGlobal e nodes) x y 0 ty ->
  cross tx ty <> v0 ->
  (let n := LocalToNormalVector e nodes x y in
   dot n n = 1 /\ dot n tx = 0 /\ dot n ty = 0 /\ 0 < det3 tx ty n) /\
  let '(n, t, b) := LocalToNormalFrame e nodes x y in
  n = LocalToNormalVector e nodes x y /\ (exists k, 0 < k /\ t = vscale k tx) /\
  dot n n = 1 /\ dot t t = 1 /\ dot b b = 1 /\ dot n t = 0 /\ dot n b = 0 /\ dot t b = 0 /\ det3 n t b = 1.
Proof.
  intros He Hd Hn Hx Hy N. split; [exact (normal_vector e nodes He Hd Hn x y tx ty Hx Hy N) | exact (normal_frame e nodes He Hd Hn x y tx ty Hx Hy N)].
Qed.
Example C72_example :
  LocalToNormalVector Triangle3 [V 1 0 0; V 0 1 0; V 0 0 0] 0 0 = V 0 0 1.
Proof.
  unfold LocalToNormalVector. 
  assert (forall a, LocalToJacobian Triangle3 [V 1 0 0; V 0 1 0; V 0 0 0] 0 0 0 a = LocalToJacobian Triangle3 (map vecQ [(1, 0, 0); (0, 1, 0); (0, 0, 0)]%Q) (Q2R 0) (Q2R 0) (Q2R 0) a) as E.
  { intros a. assert (Q2R 0 = 0) as E0 by (unfold Q2R; cbn; ring). assert (Q2R 1 = 1) as E1 by (unfold Q2R; cbn; lra).
    cbn [map]. unfold vecQ, lX, lY, lZ. cbn [fst snd]. rewrite E0, E1. reflexivity. }
  rewrite !E, !jacobianQ_ok by (cbn; tauto).
  repeat match goal with |- context[weightedQ ?p ?q] => let v := eval vm_compute in (weightedQ p q) in change (weightedQ p q) with v end.
  replace (cross _ _) with (V 0 0 1) by (unfold cross, vecQ, Q2R; cbn; f_equal; lra).
  unfold normalized, dot. cbn [vx vy vz]. destruct (Rlt_dec 0 (0 * 0 + 0 * 0 + 1 * 1)); [|lra].
  replace (0 * 0 + 0 * 0 + 1 * 1) with (1 * 1) by ring. rewrite sqrt_square by lra. unfold vscale. cbn [vx vy vz]. f_equal; field.
Qed.
Print Assumptions C72_face_frames.

(** C73 *)
Theorem C73_affine_maps_inverted fuel e nodes o a b c g hint : In e linear_elements -> e_dim e = 3%nat -> built e nodes ->
  (forall i, (i < length (e_coords e))%nat -> nth i nodes v0 = (let '(x, y, z) := node e i in affine o a b c x y z)) ->
  det3 a b c <> 0 -> (2 <= fuel)%nat ->
  exists l, GlobalToLocal fuel e nodes g hint = Some l /\ LocalToGlobal e nodes (vx l) (vy l) (vz l) = g.
Proof.
  intros He Hd Hn N D F. apply (affine_inverse e nodes (linear_are_elements e He) Hd Hn o a b c); [|exact D|exact F].
  intros x y z. rewrite (linear_affine e nodes o a b c x y z He Hn N), Hd. reflexivity.
Qed.
(** in particular every tetrahedron with four nodes that is not flat *)
Theorem C73_tetrahedra_inverted fuel p0 p1 p2 p3 g hint :
  det3 (vsub p0 p3) (vsub p1 p3) (vsub p2 p3) <> 0 -> (2 <= fuel)%nat ->
  exists l, GlobalToLocal fuel Tetrahedron4 [p0; p1; p2; p3] g hint = Some l /\
    LocalToGlobal Tetrahedron4 [p0; p1; p2; p3] (vx l) (vy l) (vz l) = g.
Proof.
  intros D F. apply (affine_inverse Tetrahedron4 [p0; p1; p2; p3] ltac:(cbn; tauto) eq_refl eq_refl _ _ _ _ (tetrahedron_affine p0 p1 p2 p3) D fuel g hint F).
Qed.
(** any cell: a hint that already maps to the point is returned *)
Theorem C73_exact_hint_returned fuel e nodes g hint : (1 <= fuel)%nat ->
  LocalToGlobal e nodes (vx hint) (vy hint) (vz hint) = g -> GlobalToLocal fuel e nodes g hint = Some hint.
Proof.
  intros F E. destruct fuel as [|fuel]; [lia|]. unfold GlobalToLocal. cbn [root].
  rewrite E. assert (forall m, solve_transposed m (vsub g g) = v0) as Z.
  { intros m. unfold solve_transposed, rmul, vsub, vadd, vscale, v0. cbn [vx vy vz]. f_equal; ring. }
  rewrite !Z. replace (dot v0 v0) with 0 by (unfold dot, v0; cbn [vx vy vz]; ring).
  rewrite sqrt_0. destruct (Rlt_dec (1 / 100000) 0); [lra|]. f_equal. destruct hint as [p q s]. unfold vsub, v0. cbn [vx vy vz]. f_equal; ring.
Qed.
Example C73_example :
  det3 (vsub (V 2 0 0) (V 0 0 0)) (vsub (V 0 1 0) (V 0 0 0)) (vsub (V 0 0 1) (V 0 0 0)) <> 0 /\
  LocalToGlobal Tetrahedron4 [V 2 0 0; V 0 1 0; V 0 0 1; V 0 0 0] (1 / 4) (1 / 4) (1 / 4) = V (1 / 2) (1 / 4) (1 / 4).
Proof.
  split.
  - unfold det3, dot, cross, vsub. cbn [vx vy vz]. lra.
  - rewrite tetrahedron_affine. unfold affine, vadd, vscale, vsub. cbn [vx vy vz]. f_equal; lra.
Qed.
Print Assumptions C73_affine_maps_inverted.
Print Assumptions C73_tetrahedra_inverted.
Print Assumptions C73_exact_hint_returned.
