(** C26, C27, C28, C66: the simple Riemann solvers. *)
From Coq Require Import Reals Lra Lia.
From Verif Require Import Model_Simple Spec_Simple Proof_Simple.
Open Scope R_scope.

Theorem C26_scalar_fluxes_are_godunov : forall k,
  godunov (Single_GetFlux k) (Single_GetFluxUpwind k) /\
  godunov (Burgers_GetFlux k) (Burgers_GetFluxUpwind k).
Proof. intro k. exact (conj (Single_godunov k) (Burgers_godunov k)). Qed.
Print Assumptions C26_scalar_fluxes_are_godunov.

Theorem C26_consistent_and_monotone : forall k,
  (consistent (Single_GetFlux k) (Single_GetFluxUpwind k) /\ monotone (Single_GetFluxUpwind k)) /\
  (consistent (Burgers_GetFlux k) (Burgers_GetFluxUpwind k) /\ monotone (Burgers_GetFluxUpwind k)).
Proof.
  exact (fun k =>
    conj (conj (godunov_consistent _ _ (Single_godunov k)) (godunov_monotone _ _ (Single_godunov k)))
         (conj (godunov_consistent _ _ (Burgers_godunov k)) (godunov_monotone _ _ (Burgers_godunov k)))).
Qed.
Print Assumptions C26_consistent_and_monotone.

Theorem C27_double_is_upwind : forall a l0 l1, eigenvalues2 a l0 l1 -> forall left right,
  Double_GetFluxUpwind a left right =
  add2 (mul2 (spectral positive a l0 l1) left) (mul2 (spectral negative a l0 l1) right).
Proof. exact Double_upwind. Qed.
Print Assumptions C27_double_is_upwind.

Theorem C27_double_repeated_eigenvalue : forall a l,
  2 * l = m00 a + m11 a -> l * l = m00 a * m11 a - m01 a * m10 a -> forall left right,
  Double_GetFluxUpwind a left right = if Rle_dec 0 l then mul2 a left else mul2 a right.
Proof. exact Double_repeated. Qed.
Print Assumptions C27_double_repeated_eigenvalue.

Theorem C27_multiple_is_upwind : forall K a values V W, eigen_contract K a values V W ->
  (forall i j, (i < K)%nat -> (j < K)%nat -> spectralK (fun x => x) K values V W i j = a i j) /\
  forall left right i, Multiple_GetFluxUpwind K values V W left right i =
  mulMV K (spectralK positive K values V W) left i + mulMV K (spectralK negative K values V W) right i.
Proof.
  exact (fun K a values V W H => conj (spectralK_id K a values V W H) (Multiple_upwind K values V W)).
Qed.
Print Assumptions C27_multiple_is_upwind.

Theorem C28_rotated_scalar_flux : forall c nu u,
  Single_GetFluxUpwind (normal_coefficient c nu) u u = times1 (Simple_GetFluxMatrix1 c u) nu /\
  Burgers_GetFluxUpwind (normal_coefficient c nu) u u = times1 (Burgers_GetFluxMatrix c u) nu.
Proof. exact (fun c nu u => conj (rotated_single c nu u) (rotated_burgers c nu u)). Qed.
Print Assumptions C28_rotated_scalar_flux.

Theorem C28_rotated_double_flux : forall c nu u, let a := normal_mat2 c nu in
  0 <= (m00 a + m11 a) * (m00 a + m11 a) - 4 * (m00 a * m11 a - m01 a * m10 a) ->
  Double_GetFluxUpwind a u u = times2 (Simple_GetFluxMatrix2 c u) nu.
Proof. exact rotated_double. Qed.
Print Assumptions C28_rotated_double_flux.

Theorem C28_rotated_multiple_flux : forall K c nu values V W,
  eigen_contract K (normal_mat c nu) values V W -> forall u i, (i < K)%nat ->
  Multiple_GetFluxUpwind K values V W u u i = timesK (Simple_GetFluxMatrixK K c u) nu i.
Proof. exact rotated_multiple. Qed.
Print Assumptions C28_rotated_multiple_flux.

(** The rows of [L] and the columns of [R] diagonalise the matrix of the two-equation solver... *)
Theorem C66_double_accessors : forall a l0 l1, eigenvalues2 a l0 l1 ->
  diag2 (Double_L a) a (Double_R a) l0 l1.
Proof. exact Double_LR. Qed.
Print Assumptions C66_double_accessors.

(** ... but those of the general solver are exchanged. *)
Definition shear : Mat := fun i j => match i, j with
  | 0%nat, 0%nat => 1 | 0%nat, 1%nat => 1 | 1%nat, 1%nat => 2 | _, _ => 0 end.
Definition shear_values : Col := fun k => match k with 0%nat => 1 | _ => 2 end.
(** eigenvectors of length one: (1, 0) and (1, 1) / sqrt 2 *)
Definition shear_V : Mat := fun i j => match i, j with
  | 0%nat, 0%nat => 1 | 0%nat, 1%nat => / sqrt 2 | 1%nat, 1%nat => / sqrt 2 | _, _ => 0 end.
Definition shear_W : Mat := fun i j => match i, j with
  | 0%nat, 0%nat => 1 | 0%nat, 1%nat => -1 | 1%nat, 1%nat => sqrt 2 | _, _ => 0 end.

Lemma sqrt2_pos : 0 < sqrt 2.
Proof. apply sqrt_lt_R0. lra. Qed.

Lemma shear_contract : eigen_contract 2 shear shear_values shear_V shear_W.
Proof.
  pose proof sqrt2_pos as P.
  split; [|split]; intros i j Hi Hj;
    (destruct i as [|[|i]]; [| |lia]); (destruct j as [|[|j]]; [| |lia]);
    cbn -[sqrt Rinv]; unfold shear, shear_values, shear_V, shear_W; try field; try lra.
Qed.

Lemma shear_unit : forall j, (j < 2)%nat -> sum 2 (fun i => shear_V i j * shear_V i j) = 1.
Proof.
  pose proof sqrt2_pos as P.
  intros j Hj. destruct j as [|[|j]]; [| |lia]; cbn -[sqrt Rinv]; unfold shear_V; [ring|].
  rewrite <- Rinv_mult. rewrite sqrt_sqrt by lra. field.
Qed.

Definition mulMM (K : nat) (a b : Mat) : Mat := fun i j => sum K (fun k => a i k * b k j).

Theorem C66_multiple_accessors_refuted : exists K a values V W,
  eigen_contract K a values V W /\
  (forall j, (j < K)%nat -> sum K (fun i => V i j * V i j) = 1) /\
  exists i j, (i < K)%nat /\ (j < K)%nat /\
  mulMM K (Multiple_L V W) (mulMM K a (Multiple_R V W)) i j <>
  if Nat.eq_dec i j then values i else 0.
Proof.
  exists 2%nat, shear, shear_values, shear_V, shear_W.
  split; [exact shear_contract|]. split; [exact shear_unit|].
  exists 0%nat, 1%nat. split; [lia|]. split; [lia|].
  pose proof sqrt2_pos as P.
  unfold mulMM, Multiple_L, Multiple_R. cbn -[sqrt Rinv]. unfold shear, shear_V, shear_W.
  intro E. 
  match type of E with ?x = 0 => replace x with (2 + sqrt 2 - 1) in E by (field; lra) end. lra.
Qed.
Print Assumptions C66_multiple_accessors_refuted.

(** Exchanging them back gives the diagonal matrix. *)
Theorem C66_multiple_exchanged : forall K a values V W, eigen_contract K a values V W ->
  forall i j, (i < K)%nat -> (j < K)%nat ->
  mulMM K (Multiple_R V W) (mulMM K a (Multiple_L V W)) i j = if Nat.eq_dec i j then values i else 0.
Proof.
  intros K a values V W [H1 [H2 H3]] i j Hi Hj. unfold mulMM, Multiple_L, Multiple_R.
  rewrite (sum_ext K _ (fun k => (W i k * V k j) * values j)).
  - rewrite sum_mul_r, H3 by auto. destruct (Nat.eq_dec i j); subst; ring.
  - intros k Hk. rewrite H1 by auto. ring.
Qed.
Print Assumptions C66_multiple_exchanged.

(** ** Examples *)

(** a transonic rarefaction (flux 0), and a shock moving left *)
Example C26_nonvacuous : Burgers_GetFluxUpwind 1 (-1) 2 = 0 /\ Burgers_GetFluxUpwind 1 1 (-2) = 2 /\
  Burgers_GetFluxUpwind (-1) 1 (-2) = 0.
Proof.
  unfold Burgers_GetFluxUpwind, Burgers_GetFlux.
  repeat match goal with
  | |- context [Req_EM_T ?x ?y] => destruct (Req_EM_T x y); [exfalso; lra|]
  end.
  repeat split.
  - destruct (Rge_dec (1 * -1) (1 * 2)); [exfalso; lra|].
    destruct (Rle_dec 0 (1 * -1)); [exfalso; lra|]. destruct (Rge_dec 0 (1 * 2)); [exfalso; lra|]. field.
  - destruct (Rge_dec (1 * 1) (1 * -2)); [|exfalso; lra].
    destruct (Rle_dec 0 ((1 * 1 + 1 * -2) / 2)); [exfalso; lra|].
    destruct (Rge_dec 0 ((1 * 1 + 1 * -2) / 2)); [field|exfalso; lra].
  - destruct (Rge_dec (-1 * 1) (-1 * -2)); [exfalso; lra|].
    destruct (Rle_dec 0 (-1 * 1)); [exfalso; lra|]. destruct (Rge_dec 0 (-1 * -2)); [exfalso; lra|]. field.
Qed.

(** the wave equation: eigenvalues -1 and 1, each side supplies one characteristic *)
Definition wave : Mat2 := mat2 0 1 1 0.
Example C27_nonvacuous : eigenvalues2 wave (-1) 1 /\
  Double_GetFluxUpwind wave (1, 0) (0, 0) = (1 / 2, 1 / 2).
Proof.
  assert (eigenvalues2 wave (-1) 1) as H.
  { unfold eigenvalues2, wave. cbn -[IZR Rplus Rmult Rminus Rlt]. lra. }
  split; [exact H|]. rewrite (Double_upwind _ _ _ H).
  unfold spectral, positive, negative.
  rewrite Rmax_right, Rmax_left, Rmin_left, Rmin_right by lra.
  unfold add2, mul2, wave. cbn [m00 m01 m10 m11 fst snd]. f_equal; field.
Qed.

Example C27_multiple_nonvacuous : eigen_contract 2 shear shear_values shear_V shear_W /\
  Multiple_GetFluxUpwind 2 shear_values shear_V shear_W (fun _ => 1) (fun _ => 5) 0%nat = 2.
Proof.
  split; [exact shear_contract|]. pose proof sqrt2_pos as P.
  rewrite (proj2 (C27_multiple_is_upwind _ _ _ _ _ shear_contract)).
  unfold mulMV, spectralK, positive, negative. cbn -[sqrt Rinv Rmax Rmin].
  unfold shear_values, shear_V, shear_W.
  rewrite !Rmax_left, !Rmin_right by lra. field. lra.
Qed.

Example C28_nonvacuous :
  Burgers_GetFluxUpwind (normal_coefficient (1, 2, 3) (0, 1, 0)) 5 5 = 25 /\
  (let a := normal_mat2 (wave, mat2 1 0 0 1, wave) (0, 0, 1) in
   0 <= (m00 a + m11 a) * (m00 a + m11 a) - 4 * (m00 a * m11 a - m01 a * m10 a)).
Proof.
  split.
  - rewrite (proj2 (C28_rotated_scalar_flux _ _ _)). unfold times1, Burgers_GetFluxMatrix. field.
  - unfold normal_mat2, normal_coefficient, wave. cbv zeta. cbn [m00 m01 m10 m11]. lra.
Qed.

Example C66_nonvacuous : diag2 (Double_L wave) wave (Double_R wave) (-1) 1.
Proof. apply Double_LR. exact (proj1 C27_nonvacuous). Qed.
