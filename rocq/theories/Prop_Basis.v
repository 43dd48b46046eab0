(** Property theorems C48-C51 and C69: the bases of polynomials. *)
From Coq Require Import Reals List Arith Lia Lra.
From Verif Require Import RSum Poly Model_Basis Spec_Basis Proof_Lagrange Proof_Vincent.
Import ListNotations.
Open Scope R_scope.

(** C48: values of the Lagrange basis; [p] lists the coefficients of an arbitrary polynomial. *)
Theorem C48_lagrange_values : forall nodes, NoDup nodes ->
  (forall x, length (Line_GetValues nodes x) = length nodes) /\
  (forall i m, (i < length nodes)%nat -> (m < length nodes)%nat ->
     nth i (Line_GetValues nodes (nth m nodes 0)) 0 = if Nat.eqb i m then 1 else 0) /\
  (forall x, (0 < length nodes)%nat -> rsum (length nodes) (fun i => nth i (Line_GetValues nodes x) 0) = 1) /\
  (forall p x, (length p <= length nodes)%nat ->
     rsum (length nodes) (fun i => peval p (nth i nodes 0) * nth i (Line_GetValues nodes x) 0) = peval p x).
Proof.
  intros nodes D. split; [|split; [|split]].
  - apply Line_GetValues_length.
  - intros i m Li Lm. rewrite Line_GetValues_nth by exact Li. apply Line_nodal; assumption.
  - intros x L. rewrite <- (Line_unity nodes D x L). apply rsum_ext. intros. apply Line_GetValues_nth. assumption.
  - intros p x L. rewrite (Line_reproduce nodes D p x L). apply rsum_ext. intros. rewrite Line_GetValues_nth by assumption. reflexivity.
Qed.
Print Assumptions C48_lagrange_values.

(** C48: derivatives of any order, both at an arbitrary point and from the table at the nodes.
    [M] stands for the inverse found by Eigen; the last part shows that it exists. *)
Theorem C48_lagrange_derivatives : forall nodes, NoDup nodes ->
  (forall M, (forall i j, (i < length nodes)%nat -> (j < length nodes)%nat ->
       rsum (length nodes) (fun k => taylor_to_lagrange nodes i k * M k j) = if Nat.eqb i j then 1 else 0) ->
     forall k i, (k < length nodes)%nat -> (i < length nodes)%nat ->
       (forall x, is_deriv_n k (fun t => nth i (Line_GetValues nodes t) 0) x (nth i (Line_GetDerivatives nodes M k x) 0)) /\
       (forall j, is_deriv_n k (fun t => nth i (Line_GetValues nodes t) 0) (nth j nodes 0)
                    (nth i (Line_GetDerivatives_at nodes M k j) 0))) /\
  (exists M, forall i j, (i < length nodes)%nat -> (j < length nodes)%nat ->
       rsum (length nodes) (fun k => taylor_to_lagrange nodes i k * M k j) = if Nat.eqb i j then 1 else 0).
Proof.
  intros nodes D. split; [|exact (inverse_exists nodes D)]. intros M MI k i K I.
  assert (forall x, is_deriv_n k (fun t => nth i (Line_GetValues nodes t) 0) x (nth i (Line_GetDerivatives nodes M k x) 0)) as H.
  { intros x. apply (is_deriv_n_ext k (fun t => Line_value nodes t i)); [intros; symmetry; apply Line_GetValues_nth, I|].
    apply Line_derivatives; assumption. }
  split; [exact H|]. intros j. apply H.
Qed.
Print Assumptions C48_lagrange_derivatives.

(** the nodes -1, 0, 1: the middle function is 1 - x^2, with derivative -2 x *)
Example C48_nonvacuous : NoDup [-1; 0; 1] /\
  (forall x, nth 1 (Line_GetValues [-1; 0; 1] x) 0 = 1 - x * x) /\
  let M := fun k i => nth i (nth k [[0; 1; 0]; [- (1/2); 0; 1/2]; [1/2; -1; 1/2]] []) 0 in
  (forall i j, (i < 3)%nat -> (j < 3)%nat ->
     rsum 3 (fun k => taylor_to_lagrange [-1; 0; 1] i k * M k j) = if Nat.eqb i j then 1 else 0) /\
  forall x, nth 1 (Line_GetDerivatives [-1; 0; 1] M 1 x) 0 = - (2) * x.
Proof.
  split; [|split; [|split]].
  - repeat constructor; cbn; intuition lra.
  - intros x. unfold Line_GetValues, Line_value. cbn [length seq map fold_left nth Nat.eqb]. field.
  - intros i j Li Lj. destruct i as [|[|[|i]]]; [| | |lia]; (destruct j as [|[|[|j]]]; [| | |lia]);
      unfold taylor_to_lagrange, Taylor1_GetValues; cbn [length Nat.sub powers nth rsum Nat.eqb]; field.
  - intros x. unfold Line_GetDerivatives, Taylor1_GetDerivatives. cbn [length seq map nth rsum repeat app deriv_loop Nat.sub fact Nat.mul Nat.add INR]. field.
Qed.

(** C49: the numbering of the nodes of a hexahedron is a bijection. *)
Theorem C49_hexahedron_numbering : forall I J K,
  (forall i j k, (i < I)%nat -> (j < J)%nat -> (k < K)%nat ->
     (Hexa_index J K i j k < I * J * K)%nat /\ Hexa_index_inv J K (Hexa_index J K i j k) = (i, j, k)) /\
  (forall n, (n < I * J * K)%nat ->
     exists i j k, Hexa_index_inv J K n = (i, j, k) /\ (i < I)%nat /\ (j < J)%nat /\ (k < K)%nat /\ Hexa_index J K i j k = n).
Proof.
  intros I J K. split.
  - intros i j k Li Lj Lk. split; [apply Hexa_index_range; assumption|apply (Hexa_inv_index I); assumption].
  - intros n L. pose proof (Hexa_index_inv_range I J K n L) as H. destruct (Hexa_index_inv J K n) as ((i, j), k).
    exists i, j, k. tauto.
Qed.
Print Assumptions C49_hexahedron_numbering.

(** C49: the components are products, at every index, for values and derivatives; and the functions are
    one at their own node and zero at the others. *)
Theorem C49_hexahedron_products : forall nx ny nz i j k,
  (i < length nx)%nat -> (j < length ny)%nat -> (k < length nz)%nat ->
  let n := Hexa_index (length ny) (length nz) i j k in
  (forall x y z,
     length (Hexa_GetValues nx ny nz x y z) = (length nx * length ny * length nz)%nat /\
     nth n (Hexa_GetValues nx ny nz x y z) 0 =
       nth i (Line_GetValues nx x) 0 * nth j (Line_GetValues ny y) 0 * nth k (Line_GetValues nz z) 0) /\
  (forall mx my mz a b c x y z,
     nth n (Hexa_GetDerivatives nx ny nz mx my mz a b c x y z) 0 =
       nth i (Line_GetDerivatives nx mx a x) 0 * nth j (Line_GetDerivatives ny my b y) 0 * nth k (Line_GetDerivatives nz mz c z) 0) /\
  Hexa_GetNode nx ny nz n = Some (nth i nx 0, nth j ny 0, nth k nz 0) /\
  (NoDup nx -> NoDup ny -> NoDup nz ->
   forall m, (m < length nx * length ny * length nz)%nat ->
   exists x y z, Hexa_GetNode nx ny nz m = Some (x, y, z) /\
     nth n (Hexa_GetValues nx ny nz x y z) 0 = if Nat.eqb m n then 1 else 0).
Proof.
  intros nx ny nz i j k Li Lj Lk n.
  assert (forall x y z, nth n (Hexa_GetValues nx ny nz x y z) 0 =
       nth i (Line_GetValues nx x) 0 * nth j (Line_GetValues ny y) 0 * nth k (Line_GetValues nz z) 0) as V.
  { intros x y z. unfold n, Hexa_GetValues. rewrite <- (Line_GetValues_length ny y), <- (Line_GetValues_length nz z).
    apply Hexa_products_nth; rewrite Line_GetValues_length; assumption. }
  assert (forall nodes M a x, length (Line_GetDerivatives nodes M a x) = length nodes) as DL.
  { intros. unfold Line_GetDerivatives. rewrite map_length, seq_length. reflexivity. }
  split; [|split; [|split]].
  - intros x y z. split; [|apply V]. unfold Hexa_GetValues. rewrite Hexa_products_length, !Line_GetValues_length. reflexivity.
  - intros mx my mz a b c x y z. unfold n, Hexa_GetDerivatives.
    rewrite <- (DL ny my b y), <- (DL nz mz c z). apply Hexa_products_nth; rewrite DL; assumption.
  - unfold Hexa_GetNode, n. rewrite (Hexa_inv_index (length nx)) by assumption. rewrite Nat.eqb_refl. reflexivity.
  - intros Dx Dy Dz m Lm. pose proof (Hexa_index_inv_range _ _ _ _ Lm) as H.
    unfold Hexa_GetNode. destruct (Hexa_index_inv (length ny) (length nz) m) as ((i', j'), k') eqn:E.
    destruct H as (Li' & Lj' & Lk' & Hm). rewrite Hm, Nat.eqb_refl.
    exists (nth i' nx 0), (nth j' ny 0), (nth k' nz 0). split; [reflexivity|]. rewrite V.
    destruct (C48_lagrange_values nx Dx) as (_ & Nx & _). destruct (C48_lagrange_values ny Dy) as (_ & Ny & _).
    destruct (C48_lagrange_values nz Dz) as (_ & Nz & _). rewrite Nx, Ny, Nz by assumption.
    destruct (Nat.eqb_spec m n) as [F|F].
    + pose proof (Hexa_inv_index (length nx) _ _ i j k Li Lj Lk) as G. fold n in G. rewrite <- F, E in G. injection G as -> -> ->.
      rewrite !Nat.eqb_refl. ring.
    + destruct (Nat.eqb_spec i i') as [->|]; [|ring]. destruct (Nat.eqb_spec j j') as [->|]; [|ring].
      destruct (Nat.eqb_spec k k') as [->|]; [|ring]. elim F. symmetry. exact Hm.
Qed.
Print Assumptions C49_hexahedron_products.

Example C49_nonvacuous : Hexa_index 3 4 1 2 3 = 23%nat /\ Hexa_index_inv 3 4 23 = (1, 2, 3)%nat /\
  nth (Hexa_index 2 2 1 0 1) (Hexa_products [2; 3] [5; 7] [11; 13]) 0 = 195.
Proof. split; [reflexivity|split; [reflexivity|]]. cbn. lra. Qed.

(** C50: for every positive degree and constant the correction functions have the required end values, *)
Theorem C50_correction_ends : forall degree c, (0 < degree)%nat ->
  LocalToRightValue degree c 1 = 1 /\ LocalToRightValue degree c (-1) = 0 /\
  LocalToLeftValue degree c (-1) = 1 /\ LocalToLeftValue degree c 1 = 0 /\
  forall x, LocalToLeftValue degree c x = LocalToRightValue degree c (- x).
Proof.
  intros degree c L. destruct (right_ends degree c L) as (A & B). unfold LocalToLeftValue.
  replace (- -1) with 1 by lra. replace (- (1)) with (-1) by lra. auto.
Qed.
Print Assumptions C50_correction_ends.

(** the derivative routines give their derivatives, *)
Theorem C50_correction_derivatives : forall degree c x, (0 < degree)%nat ->
  derivable_pt_lim (LocalToRightValue degree c) x (LocalToRightDerivative degree c x) /\
  derivable_pt_lim (LocalToLeftValue degree c) x (LocalToLeftDerivative degree c x).
Proof. intros. split; [apply right_derivative|apply left_derivative]; assumption. Qed.
Print Assumptions C50_correction_derivatives.

(** and with the lumping constant the derivative of the right function vanishes at -1 and wherever the
    derivative of the Legendre polynomial does, that is at all Lobatto points except +1. *)
Theorem C50_lumping : forall degree x d, (0 < degree)%nat -> derivable_pt_lim (legendre degree) x d ->
  LocalToRightDerivative degree (HuynhLumpingLobatto degree) x = (1 + x) / 2 * d.
Proof.
  intros degree x d L H. rewrite lumping_derivative by exact L. f_equal.
  apply (uniqueness_limite (legendre degree) x); [apply legendre_derivative|exact H].
Qed.
Print Assumptions C50_lumping.

(** degree 2, discontinuous Galerkin: the right Radau polynomial of degree 3 *)
Example C50_nonvacuous : forall x,
  LocalToRightValue 2 (DiscontinuousGalerkin 2) x = (5 * x ^ 3 + 3 * x ^ 2 - 3 * x - 1) / 4 /\
  LocalToRightDerivative 2 (DiscontinuousGalerkin 2) x = (15 * x ^ 2 + 6 * x - 3) / 4.
Proof.
  intros x. unfold LocalToRightValue, LocalToRightDerivative, DiscontinuousGalerkin, legendre.
  cbn [legendre_pair legendre_derivatives Nat.sub Nat.add fst INR pow]. unfold legendre. cbn [legendre_pair fst INR].
  split; field.
Qed.

(** C51: the values are the monomials in the order of the columns; the gradient is the gradient, for
    every degree up to 3. *)
Theorem C51_taylor_values_and_gradient : forall k c x y z, (k <= 3)%nat ->
  length (Taylor3_GetValue k x y z) = components k /\
  combination k c x y z = rsum (components k) (fun j => c j * nth j (Taylor3_GetValue k x y z) 0) /\
  is_partial [AX] (combination k c) x y z (nth 0 (Taylor3_GetGradValue k x y z c) 0) /\
  is_partial [AY] (combination k c) x y z (nth 1 (Taylor3_GetGradValue k x y z c) 0) /\
  is_partial [AZ] (combination k c) x y z (nth 2 (Taylor3_GetGradValue k x y z c) 0).
Proof.
  intros k c x y z L. destruct (combination_values k c x y z L) as (A & B). split; [exact A|]. split; [exact B|].
  split; [|split]; [apply (Taylor_gradient k c x y z AX)|apply (Taylor_gradient k c x y z AY)|apply (Taylor_gradient k c x y z AZ)]; exact L.
Qed.
Print Assumptions C51_taylor_values_and_gradient.

(** The partial derivatives of all orders are right for degrees 1 and 2, *)
Theorem C51_partial_derivatives_12 : forall k c x y z j, (1 <= k <= 2)%nat -> (1 <= j < components k)%nat ->
  is_partial (nth j columns []) (combination k c) x y z (nth j (Taylor3_GetPdvValue k x y z c) 0).
Proof.
  intros k c x y z j K J. destruct k as [|[|[|k]]]; [lia| | |lia]; [apply Taylor_pdv1|apply Taylor_pdv2]; exact J.
Qed.
Print Assumptions C51_partial_derivatives_12.

(** and for degree 3 in every column except the seventh, *)
Theorem C51_partial_derivatives_3_partial : forall c x y z j, (1 <= j < 20)%nat -> j <> 7%nat ->
  is_partial (nth j columns []) (combination 3 c) x y z (nth j (Taylor3_GetPdvValue 3 x y z c) 0).
Proof. exact Taylor_pdv3. Qed.
Print Assumptions C51_partial_derivatives_3_partial.

(** which is not the second derivative with respect to y: for the polynomial x^2 it is 2 instead of 0.
    (The assertion of line 384 fails as well, and so does that of line 427 for z^3.) *)
Theorem C51_partial_derivatives_3_refuted : exists c x y z,
  ~ is_partial [AY; AY] (combination 3 c) x y z (nth 7 (Taylor3_GetPdvValue 3 x y z c) 0) /\
  is_partial [AY; AY] (combination 3 c) x y z 0 /\
  nth 7 (Taylor3_GetPdvValue 3 x y z c) 0 = 2 /\
  ~ Taylor3_assertions x y z c.
Proof.
  exists (fun j => if Nat.eqb j 4 then 1 else 0), 0, 0, 0.
  assert (nth 7 (Taylor3_GetPdvValue 3 0 0 0 (fun j => if Nat.eqb j 4 then 1 else 0)) 0 = 2) as E.
  { cbn [Taylor3_GetPdvValue nth Nat.eqb]. ring. }
  assert (is_partial [AY; AY] (combination 3 (fun j => if Nat.eqb j 4 then 1 else 0)) 0 0 0 0) as Z.
  { apply (is_partial_ext _ (poly3 (cut 3 (fun j => if Nat.eqb j 4 then 1 else 0)))); [apply combination_poly3|].
    apply poly3_partials. red_poly. cbn [Nat.eqb]. ring. }
  split; [|split; [exact Z|split; [exact E|]]].
  - intros H. rewrite E in H. pose proof (is_partial_unique _ _ _ _ _ _ _ H Z). lra.
  - intros (H & _). rewrite E in H. cbn [Nat.eqb] in H. lra.
Qed.
Print Assumptions C51_partial_derivatives_3_refuted.

Example C51_nonvacuous : (* x^2 y of degree 3: d/dx d/dx d/dy = 2, d/dx d/dy = 2 x *)
  let c := fun j => if Nat.eqb j 11 then 1 else 0 in
  combination 3 c 5 7 0 = 175 /\ nth 11 (Taylor3_GetPdvValue 3 5 7 0 c) 0 = 2 /\ nth 5 (Taylor3_GetPdvValue 3 5 7 0 c) 0 = 10.
Proof.
  cbv zeta. split; [|split].
  - unfold combination. cbn [components seq map fold_right nth columns monomial Nat.eqb]. ring.
  - cbn [Taylor3_GetPdvValue nth Nat.eqb]. ring.
  - cbn [Taylor3_GetPdvValue nth Nat.eqb]. ring.
Qed.

(** C69: after a transformation given as a lower-triangular view the basis is the transformed one and its
    matrix stays lower triangular; the two evaluation routines agree. *)
Theorem C69_transform_lower : forall N a coeff taylor, (forall i j, (i < j)%nat -> coeff i j = 0) ->
  (forall i j, (i < j)%nat -> Transform_lower N a coeff i j = 0) /\
  Linear_call N (Transform_lower N a coeff) taylor = mat_vec N (lower a) (Linear_call N coeff taylor) /\
  OrthoNormal_call N (Transform_lower N a coeff) taylor = Linear_call N (Transform_lower N a coeff) taylor.
Proof.
  intros N a coeff taylor C.
  assert (forall i j, (i < j)%nat -> Transform_lower N a coeff i j = 0) as U.
  { intros i j L. unfold Transform_lower. destruct (Nat.leb_spec j i); [lia|]. apply C, L. }
  split; [exact U|]. split.
  - unfold Linear_call. rewrite <- mat_vec_mul. apply mat_vec_ext. intros i j Li Lj. rewrite (lower_id _ _ _ U).
    unfold Transform_lower, mat_mul. destruct (Nat.leb_spec j i).
    + apply rsum_ext. intros k K. rewrite (lower_id _ _ _ C). reflexivity.
    + rewrite C by assumption. symmetry. apply (lower_mul N (lower a) (lower coeff)); try assumption; intros; apply lower_upper; assumption.
  - unfold OrthoNormal_call, Linear_call. apply mat_vec_ext. intros. symmetry. apply lower_id, U.
Qed.
Print Assumptions C69_transform_lower.

(** With a full matrix it is not: the part above the diagonal is stored but ignored. *)
Theorem C69_transform_full_refuted : exists N a taylor,
  Linear_call N (Transform N a identity) taylor <> mat_vec N a (Linear_call N identity taylor).
Proof.
  exists 2%nat, (fun i j => if Nat.eqb i j then 1 else if Nat.eqb j 1 then 1 else 0), [1; 3]. intros H.
  apply (f_equal (fun l => nth 0 l 0)) in H. unfold Linear_call in H. rewrite !mat_vec_nth in H by lia.
  cbn [rsum] in H. rewrite !mat_vec_nth in H by lia.
  unfold lower, Transform, mat_mul, identity in H. cbn [rsum Nat.leb Nat.eqb nth] in H. lra.
Qed.
Print Assumptions C69_transform_full_refuted.

Example C69_nonvacuous : Linear_call 2 (Transform_lower 2 (fun _ _ => 2) identity) [1; 3] = [2; 8].
Proof.
  unfold Linear_call, mat_vec. cbn [seq map]. unfold lower, Transform_lower, mat_mul, lower, identity. cbn [rsum Nat.leb Nat.eqb nth].
  f_equal; [ring|f_equal; ring].
Qed.
