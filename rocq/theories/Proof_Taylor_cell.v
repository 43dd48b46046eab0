From Coq Require Import Reals Lra Lia List Arith.
From Verif Require Import Vec3 RSum Model_Basis Model_Projection Spec_Projection Proof_Projection Prop_Projection
  Model_Dofs Model_DG Model_Reconstruct Model_Simulation Spec_Simulation Model_Taylor_cell.
Import ListNotations.
Open Scope R_scope.

Lemma taylor_basis_ok k id b gauss center : (k <= 3)%nat ->
  built (Taylor3_N k) (taylor3 k) gauss center b -> gbasis_ok (Taylor3_N k) (taylor_cell k id b).
Proof.
  intros Lk (-> & P & F & L & W & I).
  destruct (C46_orthonormal_basis (Taylor3_N k) (taylor3 k) gauss center P F L W I) as (G & C & O & Lo & D & Fi & _).
  set (b := OrthoNormal_new (Taylor3_N k) (taylor3 k) gauss center) in *.
  exists (o_coeff b 0%nat 0%nat). split; [specialize (D 0%nat P); lra|]. split; [exact Fi|]. split.
  - intros x. unfold taylor_cell; cbn [g_gradients].
    assert (Z : forall j, o_coeff b 0%nat (S j) = 0) by (intros j; apply Lo; lia).
    assert (k = 0 \/ k = 1 \/ k = 2 \/ k = 3)%nat as [->|[->|[->| ->]]] by lia; cbn [Taylor3_GetGradValue nth];
      rewrite ?Z; unfold v0; f_equal; ring.
  - intros j Lj. unfold taylor_cell; cbn [g_points g_weight g_coord g_basis]. rewrite G.
    pose proof (O 0%nat j P Lj) as Q. unfold quadrature in Q. rewrite Q.
    rewrite Nat.eqb_sym. reflexivity.
Qed.

Lemma same_first b p q r : p_basis p = p_basis q -> p_basis q = b -> o_coeff b 0%nat 0%nat <> 0 ->
  average p r = average q r -> p_coeff p r 0%nat = p_coeff q r 0%nat.
Proof.
  unfold average. intros E <- Z A. rewrite E in A. apply Rmult_eq_reg_r in A; assumption.
Qed.

Lemma built_first N taylor gauss center b : built N taylor gauss center b -> o_coeff b 0%nat 0%nat <> 0.
Proof.
  intros (-> & P & F & L & W & I).
  destruct (C46_orthonormal_basis N taylor gauss center P F L W I) as (_ & _ & _ & _ & D & _).
  specialize (D 0%nat P). lra.
Qed.

Lemma lazy_keeps_first k w0 eps basis adj gauss center m c r : (k <= 3)%nat ->
  built (Taylor3_N k) (taylor3 k) gauss center (basis c) ->
  0 < w0 -> w0 * INR (List.length (adj c)) < 1 -> 0 < eps ->
  lazy_limit k w0 eps basis adj m c r 0%nat = m c r 0%nat.
Proof.
  intros Lk B W0 W1 E0. unfold lazy_limit.
  destruct (C54_lazy_keeps_average k w0 eps gauss center (mkProjection (m c) (basis c))
    (map (fun n => mkProjection (m n) (basis n)) (adj c)) Lk B W0) as (Bs & Av & _).
  - rewrite map_length. exact W1.
  - exact E0.
  - apply (same_first (basis c) _ (mkProjection (m c) (basis c)) r Bs eq_refl (built_first _ _ _ _ _ B) (Av r)).
Qed.

Lemma eigen_keeps_first k K w0 eps basis adj faces gauss center m c r : (k <= 3)%nat ->
  built (Taylor3_N k) (taylor3 k) gauss center (basis c) ->
  0 < w0 -> w0 * INR (List.length (adj c)) < 1 -> 0 < eps ->
  faces c <> [] -> (forall f, In f (faces c) -> 0 < f_volume f) ->
  (forall f u i j, In f (faces c) -> (i < K)%nat -> (j < K)%nat ->
     rsum K (fun m => f_R f u i m * f_L f u m j) = if Nat.eqb i j then 1 else 0) ->
  (r < K)%nat -> eigen_limit k K w0 eps basis adj faces m c r 0%nat = m c r 0%nat.
Proof.
  intros Lk B W0 W1 E0 Ne Vo Iv Lr. unfold eigen_limit.
  destruct (C54_eigen_keeps_average k K w0 eps gauss center (mkProjection (m c) (basis c))
    (map (fun n => mkProjection (m n) (basis n)) (adj c)) (faces c) Lk B W0) as (new & E & Bs & Av & _).
  - rewrite map_length. exact W1.
  - exact E0.
  - exact Ne.
  - exact Vo.
  - intros; apply Iv; assumption.
  - rewrite E. apply (same_first (basis c) _ (mkProjection (m c) (basis c)) r Bs eq_refl (built_first _ _ _ _ _ B) (Av r Lr)).
Qed.
