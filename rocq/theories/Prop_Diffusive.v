(** C40 and C41: the interface gradient of the direct DG method, and the viscous fluxes. *)
From Coq Require Import Reals Lra.
From Verif Require Import Vec3 Model_Diffusive Spec_Diffusive.
Open Scope R_scope.

Ltac comps := intros; apply vec_eq; cbn; unfold Rdiv; ring.

(** C40.  Exchanging the sides and reversing the normal does not change the gradient. *)
Theorem C40_single_valued : forall b0 d n uL uR gL gR k,
  GetCommonGradient b0 d n uL uR gL gR k = GetCommonGradient b0 d (vneg n) uR uL gR gL k.
Proof. comps. Qed.
Print Assumptions C40_single_valued.

Theorem C40_single_valued_hessian : forall b0 b1 d n uL uR gL gR hL hR k,
  GetCommonGradientWithHessian b0 b1 d n uL uR gL gR hL hR k
  = GetCommonGradientWithHessian b0 b1 d (vneg n) uR uL gR gL hR hL k.
Proof. comps. Qed.
Print Assumptions C40_single_valued_hessian.

(** C40.  When both sides agree, the gradient is the common one. *)
Theorem C40_consistent : forall b0 b1 d n u g h k,
  GetCommonGradient b0 d n u u g g k = g k
  /\ GetCommonGradientWithHessian b0 b1 d n u u g g h h k = g k.
Proof. intros. split; apply vec_eq; cbn; unfold Rdiv; generalize (/ d); intros; field. Qed.
Print Assumptions C40_consistent.

(** C40.  The jump of the value adds a multiple of the normal to the mean gradient; with a positive
    coefficient it raises the normal derivative when the value on the right is larger, and the tangential
    part is not affected. *)
Theorem C40_jump_along_normal : forall b0 d n uL uR gL gR k,
  GetCommonGradient b0 d n uL uR gL gR k
  = vadd (vscale (1 / 2) (vadd (gL k) (gR k))) (vscale (b0 * (uR k - uL k) / d) n).
Proof. comps. Qed.
Print Assumptions C40_jump_along_normal.

Theorem C40_tangential : forall b0 d n uL uR gL gR k, dot n n = 1 ->
  tangential n (GetCommonGradient b0 d n uL uR gL gR k)
  = tangential n (vscale (1 / 2) (vadd (gL k) (gR k))).
Proof.
  intros b0 d n uL uR gL gR k U. rewrite C40_jump_along_normal.
  set (m := vscale (1 / 2) (vadd (gL k) (gR k))). generalize (b0 * (uR k - uL k) / d). intros c. clearbody m.
  destruct n as [a b e], m as [x y z]. unfold tangential, dot in *. cbn in *.
  apply vec_eq; cbn.
  - transitivity (x + c * a - (a * x + b * y + e * z) * a - c * a * (a * a + b * b + e * e)); [ring|rewrite U; ring].
  - transitivity (y + c * b - (a * x + b * y + e * z) * b - c * b * (a * a + b * b + e * e)); [ring|rewrite U; ring].
  - transitivity (z + c * e - (a * x + b * y + e * z) * e - c * e * (a * a + b * b + e * e)); [ring|rewrite U; ring].
Qed.
Print Assumptions C40_tangential.

(** C40.  The jump of the second derivatives enters as the product of the symmetric jump matrix and the normal. *)
Theorem C40_hessian_jump : forall b0 b1 d n uL uR gL gR hL hR k,
  GetCommonGradientWithHessian b0 b1 d n uL uR gL gR hL hR k
  = vadd (GetCommonGradient b0 d n uL uR gL gR k)
         (vscale (b1 * d) (vsub (hess_mul (hR k) n) (hess_mul (hL k) n))).
Proof. comps. Qed.
Print Assumptions C40_hessian_jump.

Example C40_nonvacuous :
  GetCommonGradientWithHessian 2 (1/12) 6 (V 0 0 1) (fun _ => 1) (fun _ => 4)
    (fun _ => V 1 2 3) (fun _ => V 3 2 1) (fun _ => H6 0 0 0 0 0 0) (fun _ => H6 1 2 4 8 16 32) 0%nat
  = V 4 10 19.
Proof. apply vec_eq; cbn; field. Qed.

(** C41.  What the normal version subtracts is the product with the normal of what the matrix version
    subtracts. *)
Theorem C41_normal_flux : forall nu u g n F f k,
  f k - MinusViscousFluxNormal nu u g n f k
  = dot (vsub (F k) (MinusViscousFluxMatrix nu u g F k)) n.
Proof. intros. unfold MinusViscousFluxNormal, MinusViscousFluxMatrix, dot. cbn. ring. Qed.
Print Assumptions C41_normal_flux.

(** C41.  Hence starting from consistent convective fluxes, the two total fluxes are consistent. *)
Theorem C41_consistent : forall nu u g n F f k, f k = dot (F k) n ->
  MinusViscousFluxNormal nu u g n f k = dot (MinusViscousFluxMatrix nu u g F k) n.
Proof.
  intros nu u g n F f k E. unfold MinusViscousFluxNormal, MinusViscousFluxMatrix. rewrite E. unfold dot. cbn. ring.
Qed.
Print Assumptions C41_consistent.

(** C41.  With one coefficient, the flux subtracted is that coefficient times the normal derivative. *)
Theorem C41_isotropic : forall nu u g n f k,
  MinusViscousFluxNormal (isotropic nu) u g n f k = f k - nu * dot (g k) n.
Proof. intros. unfold MinusViscousFluxNormal, isotropic, dot. cbn. ring. Qed.
Print Assumptions C41_isotropic.

(** C40 and C41.  The viscous flux through a face, computed from the interface gradient, is opposite when
    the face is seen from the other side: what one cell loses the other one gains. *)
Theorem C41_conservative : forall nu b0 b1 d n uL uR gL gR hL hR u u' k,
  MinusViscousFluxNormal nu u (GetCommonGradientWithHessian b0 b1 d n uL uR gL gR hL hR) n (fun _ => 0) k
  = - MinusViscousFluxNormal nu u' (GetCommonGradientWithHessian b0 b1 d (vneg n) uR uL gR gL hR hL) (vneg n)
        (fun _ => 0) k.
Proof.
  intros. unfold MinusViscousFluxNormal. rewrite <- (C40_single_valued_hessian b0 b1 d n). cbn. ring.
Qed.
Print Assumptions C41_conservative.

Example C41_nonvacuous :
  MinusViscousFluxNormal (V 1 2 3) (fun _ => 0) (fun _ => V 1 1 1) (V 3 4 0) (fun _ => 20) 0%nat = 9
  /\ MinusViscousFluxMatrix (V 1 2 3) (fun _ => 0) (fun _ => V 1 1 1) (fun _ => V 4 2 7) 0%nat = V 3 0 4
  /\ dot (V 4 2 7) (V 3 4 0) = 20.
Proof.
  repeat split; try (unfold MinusViscousFluxNormal, dot; cbn; ring).
  apply vec_eq; cbn; ring.
Qed.
