(** Cells of hexahedra satisfy what the theorems about the schemes ask for; the discrete metric identity. *)
From Coq Require Import Reals List Arith Lia Lra Bool String.
From Verif Require Import Vec3 Arrays RSum Poly Model_Shapes Model_Geometry Model_Basis Model_Nodal Model_Dofs Model_DG Model_Gauss Model_Schemes
  Spec_Basis Spec_Shapes Spec_Nodal Spec_DG Spec_Schemes Spec_FR
  Proof_Lagrange Proof_Vincent Proof_Shapes Proof_Geometry Proof_NodalBasis Proof_NodalMain Proof_Integral Proof_Gauss Proof_GaussVolume
  Proof_Dofs Proof_DG Proof_Schemes Proof_DGLobatto Proof_FR Proof_FRLine Proof_FRMain.
Import ListNotations.
Open Scope R_scope.

(** ** Rules on the line *)
Lemma quad_nth xs : forall (f : R -> R) ws, List.length xs = List.length ws ->
  quad f xs ws = rsum (List.length xs) (fun i => nth i ws 0 * f (nth i xs 0)).
Proof.
  induction xs as [|x xs IH]; intros f [|w ws] L; try discriminate; [reflexivity|].
  cbn [quad List.length]. rewrite rsum_first. cbn [nth]. rewrite (IH f ws) by (cbn in L; lia). ring.
Qed.
Lemma peval_moment p x : (p = [] \/ exists a q, p = a :: q) -> peval (pderiv p) x = rsum (List.length p - 1) (fun k => INR (S k) * nth (S k) p 0 * x ^ k).
Proof.
  intros H. rewrite peval_sum.
  assert (L : List.length (pderiv p) = (List.length p - 1)%nat).
  { unfold pderiv. rewrite pderiv_from_length. destruct p; cbn; lia. }
  rewrite L. apply rsum_ext. intros k _. rewrite pderiv_nth. reflexivity.
Qed.
Lemma moments_integrate xs ws d : has_moments xs ws d -> integrates xs ws (d + 2).
Proof.
  intros [L H] p Lp. destruct p as [|a q].
  - cbn. rewrite rsum_zero by (intros; ring). ring.
  - rewrite (rsum_ext _ _ (fun i => rsum (List.length q) (fun k => INR (S k) * nth k q 0 * (nth i ws 0 * nth i xs 0 ^ k)))).
    + rewrite rsum_swap. rewrite (rsum_ext _ _ (fun k => nth k q 0 * (1 - (-1) ^ S k))).
      * rewrite !peval_sum. cbn [List.length]. rewrite !rsum_first. cbn [nth pow].
        rewrite <- (Rmult_1_l (rsum _ (fun k => nth k q 0 * (1 - _)))).
        rewrite (rsum_ext (List.length q) (fun k => nth k q 0 * (1 - _)) (fun k => nth k q 0 * (1 * 1 ^ k) - nth k q 0 * (-1 * (-1) ^ k))).
        -- rewrite rsum_sub. ring.
        -- intros k _. rewrite pow1. ring.
      * intros k K. rewrite rsum_mul_l. rewrite <- (quad_nth xs (fun x => x ^ k) ws L), H by (cbn in Lp; lia).
        unfold moment. rewrite pow1. pose proof (not_0_INR (S k) ltac:(lia)). field. assumption.
    + intros i I. rewrite peval_moment by (right; eauto). cbn [List.length]. rewrite Nat.sub_succ, Nat.sub_0_r, <- rsum_mul_l.
      apply rsum_ext. intros k _. cbn [nth]. ring.
Qed.

(** the Lobatto rules *)
Lemma Lobatto_length q : (2 <= q <= 6)%nat -> List.length (Lobatto_points q) = q /\ List.length (Lobatto_weights q) = q.
Proof. intros H. destruct q as [|[|[|[|[|[|[|q]]]]]]]; try lia; split; reflexivity. Qed.
Lemma Lobatto_integrates q : (2 <= q <= 6)%nat -> integrates (Lobatto_points q) (Lobatto_weights q) (2 * q - 1).
Proof. intros H. replace (2 * q - 1)%nat with (2 * q - 3 + 2)%nat by lia. apply moments_integrate, lobatto_moments, H. Qed.
Lemma Lobatto_nonzero q a : (2 <= q <= 6)%nat -> (a < q)%nat -> nth a (Lobatto_weights q) 0 <> 0.
Proof.
  intros H L. pose proof (lobatto_positive q H (nth a (Lobatto_weights q) 0)) as P. destruct (Lobatto_length q H) as [_ E].
  assert (0 < nth a (Lobatto_weights q) 0) by (apply P, nth_In; lia). lra.
Qed.
Lemma increasing_NoDup l : (forall i, (S i < List.length l)%nat -> nth i l 0 < nth (S i) l 0) -> NoDup l.
Proof.
  intros H. apply (NoDup_nth l 0).
  assert (M : forall i j, (i < j)%nat -> (j < List.length l)%nat -> nth i l 0 < nth j l 0).
  { intros i j L. induction L as [|j L IH]; intros B; [apply H; exact B|]. specialize (IH ltac:(lia)). specialize (H j ltac:(lia)). lra. }
  intros i j I J E. destruct (Nat.lt_trichotomy i j) as [T|[T|T]]; [|exact T|]; [specialize (M i j T J)|specialize (M j i T I)]; lra.
Qed.
Lemma Lobatto_increasing q : (2 <= q <= 6)%nat -> forall i, (S i < q)%nat -> nth i (Lobatto_points q) 0 < nth (S i) (Lobatto_points q) 0.
Proof.
  intros H. destruct q as [|[|[|[|[|[|[|q]]]]]]]; try lia.
  - intros [|i] L; [|lia]. cbn. lra.
  - intros [|[|i]] L; [| |lia]; cbn; lra.
  - assert (S : sqrt (1 / 5) * sqrt (1 / 5) = 1 / 5) by (apply sqrt_sqrt; lra).
    assert (P : 0 < sqrt (1 / 5)) by (apply sqrt_lt_R0; lra).
    cbn [Lobatto_points]. set (a := sqrt (1 / 5)) in *. clearbody a. assert (a < 1) by nra.
    intros [|[|[|i]]] L; [| | |lia]; cbn [nth]; lra.
  - assert (S : sqrt 21 * sqrt 21 = 21) by (apply sqrt_sqrt; lra).
    assert (P : 0 < sqrt 21) by (apply sqrt_lt_R0; lra).
    cbn [Lobatto_points]. set (a := sqrt 21) in *. clearbody a. assert (a < 7) by nra.
    intros [|[|[|[|i]]]] L; [| | | |lia]; cbn [nth]; lra.
  - assert (S : sqrt 7 * sqrt 7 = 7) by (apply sqrt_sqrt; lra).
    assert (P : 0 < sqrt 7) by (apply sqrt_lt_R0; lra).
    cbn [Lobatto_points]. set (s := sqrt 7) in *. clearbody s. assert (s < 3) by nra.
    assert (A : sqrt ((7 + 2 * s) / 21) * sqrt ((7 + 2 * s) / 21) = (7 + 2 * s) / 21) by (apply sqrt_sqrt; lra).
    assert (B : sqrt ((7 - 2 * s) / 21) * sqrt ((7 - 2 * s) / 21) = (7 - 2 * s) / 21) by (apply sqrt_sqrt; lra).
    assert (PA : 0 < sqrt ((7 + 2 * s) / 21)) by (apply sqrt_lt_R0; lra).
    assert (PB : 0 < sqrt ((7 - 2 * s) / 21)) by (apply sqrt_lt_R0; lra).
    set (a := sqrt ((7 + 2 * s) / 21)) in *. set (b := sqrt ((7 - 2 * s) / 21)) in *. clearbody a b.
    assert (a < 1) by nra. assert (b < a) by nra.
    intros [|[|[|[|[|i]]]]] L; [| | | | |lia]; cbn [nth]; lra.
Qed.
Lemma Lobatto_ends q : (2 <= q <= 6)%nat -> with_ends (Lobatto_points q) (Lobatto_weights q).
Proof.
  intros H. destruct (Lobatto_length q H) as [L1 L2]. split; [|split; [congruence|split; [lia|]]].
  - apply increasing_NoDup. rewrite L1. apply Lobatto_increasing, H.
  - destruct q as [|[|[|[|[|[|[|q]]]]]]]; try lia; split; reflexivity.
Qed.
Lemma dleg_2 x : dleg 2 x = 3 * x.
Proof. cbv beta iota zeta delta [dleg legendre dleg_pair legendre_pair fst INR]. field. Qed.
Lemma dleg_3 x : dleg 3 x = (15 * (x * x) - 3) / 2.
Proof. cbv beta iota zeta delta [dleg legendre dleg_pair legendre_pair fst INR]. field. Qed.
Lemma dleg_4 x : dleg 4 x = x * (35 * (x * x) - 15) / 2.
Proof. cbv beta iota zeta delta [dleg legendre dleg_pair legendre_pair fst INR]. field. Qed.
Lemma dleg_5 x : dleg 5 x = (315 * (x * x * (x * x)) - 210 * (x * x) + 15) / 8.
Proof. cbv beta iota zeta delta [dleg legendre dleg_pair legendre_pair fst INR]. field. Qed.
Lemma Lobatto_extrema q : (2 <= q <= 6)%nat -> at_extrema (Lobatto_points q).
Proof.
  intros H i I. destruct (Lobatto_length q H) as [L1 _]. rewrite L1 in *.
  enough (Z : dleg (q - 1) (nth i (Lobatto_points q) 0) = 0) by (pose proof (legendre_derivative (q - 1) (nth i (Lobatto_points q) 0)) as LD; rewrite Z in LD; exact LD).
  destruct q as [|[|[|[|[|[|[|q]]]]]]]; try lia; cbn [Nat.sub].
  - destruct i as [|[|i]]; try lia. rewrite dleg_2. cbn [nth Lobatto_points]. ring.
  - assert (S : sqrt (1 / 5) * sqrt (1 / 5) = 1 / 5) by (apply sqrt_sqrt; lra).
    rewrite dleg_3. cbn [Lobatto_points]. set (a := sqrt (1 / 5)) in *. clearbody a.
    destruct i as [|[|[|i]]]; try lia; cbn [nth]; lra.
  - assert (S : sqrt 21 * sqrt 21 = 21) by (apply sqrt_sqrt; lra).
    rewrite dleg_4. cbn [Lobatto_points]. set (a := sqrt 21) in *. clearbody a.
    destruct i as [|[|[|[|i]]]]; try lia; cbn [nth].
    + transitivity (- (a / 7) * (35 * (a * a) / 49 - 15) / 2); [field|rewrite S; field].
    + field.
    + transitivity (a / 7 * (35 * (a * a) / 49 - 15) / 2); [field|rewrite S; field].
  - assert (S : sqrt 7 * sqrt 7 = 7) by (apply sqrt_sqrt; lra).
    assert (P : 0 < sqrt 7) by (apply sqrt_lt_R0; lra).
    rewrite dleg_5. cbn [Lobatto_points]. set (s := sqrt 7) in *. clearbody s. assert (s < 3) by nra.
    assert (A : sqrt ((7 + 2 * s) / 21) * sqrt ((7 + 2 * s) / 21) = (7 + 2 * s) / 21) by (apply sqrt_sqrt; lra).
    assert (B : sqrt ((7 - 2 * s) / 21) * sqrt ((7 - 2 * s) / 21) = (7 - 2 * s) / 21) by (apply sqrt_sqrt; lra).
    set (a := sqrt ((7 + 2 * s) / 21)) in *. set (b := sqrt ((7 - 2 * s) / 21)) in *. clearbody a b.
    assert (Z : forall x t, x * x = (7 + 2 * t) / 21 -> t * t = 7 -> (315 * (x * x * (x * x)) - 210 * (x * x) + 15) / 8 = 0).
    { intros x t X T. rewrite X. transitivity (5 / 56 * (4 * (t * t) - 28)); [field|rewrite T; field]. }
    assert (B' : b * b = (7 + 2 * - s) / 21) by (rewrite B; field).
    destruct i as [|[|[|[|[|i]]]]]; try lia; cbn [nth].
    + replace (- a * - a) with (a * a) by ring. apply (Z a s); assumption.
    + replace (- b * - b) with (b * b) by ring. apply (Z b (- s)); [exact B'|lra].
    + apply (Z b (- s)); [exact B'|lra].
    + apply (Z a s); assumption.
Qed.

(** ** Polynomials on lines *)
Lemma monomial_list i c : exists p, (List.length p <= S i)%nat /\ forall x, c * x ^ i = peval p x.
Proof.
  exists (repeat 0 i ++ [c]). split; [rewrite app_length, repeat_length; cbn; lia|].
  intros x. rewrite peval_app, peval_zeros, repeat_length. cbn. ring.
Qed.
Lemma combine_lists p q n : (List.length p <= n)%nat -> (List.length q <= n)%nat -> (List.length (padd p q) <= n)%nat.
Proof. intros. rewrite padd_length. lia. Qed.
Lemma polyn_x dx dy dz f y z : polyn dx dy dz f -> exists p, (List.length p <= S dx)%nat /\ forall x, f x y z = peval p x.
Proof.
  induction 1 as [i j k Hi Hj Hk| |f g _ (p & Lp & Ep) _ (q & Lq & Eq)|c f _ (p & Lp & Ep)|f g E _ (p & Lp & Ep)].
  - destruct (monomial_list i (y ^ j * z ^ k)) as (p & L & E). exists p. split; [lia|]. intros. rewrite <- E. ring.
  - exists []. split; [cbn; lia|reflexivity].
  - exists (padd p q). split; [apply combine_lists; assumption|]. intros. rewrite padd_eval, Ep, Eq. reflexivity.
  - exists (pscale c p). split; [rewrite pscale_length; exact Lp|]. intros. rewrite pscale_eval, Ep. reflexivity.
  - exists p. split; [exact Lp|]. intros. rewrite <- E. apply Ep.
Qed.
Lemma polyn_y dx dy dz f x z : polyn dx dy dz f -> exists p, (List.length p <= S dy)%nat /\ forall y, f x y z = peval p y.
Proof.
  induction 1 as [i j k Hi Hj Hk| |f g _ (p & Lp & Ep) _ (q & Lq & Eq)|c f _ (p & Lp & Ep)|f g E _ (p & Lp & Ep)].
  - destruct (monomial_list j (x ^ i * z ^ k)) as (p & L & E). exists p. split; [lia|]. intros. rewrite <- E. ring.
  - exists []. split; [cbn; lia|reflexivity].
  - exists (padd p q). split; [apply combine_lists; assumption|]. intros. rewrite padd_eval, Ep, Eq. reflexivity.
  - exists (pscale c p). split; [rewrite pscale_length; exact Lp|]. intros. rewrite pscale_eval, Ep. reflexivity.
  - exists p. split; [exact Lp|]. intros. rewrite <- E. apply Ep.
Qed.
Lemma polyn_z dx dy dz f x y : polyn dx dy dz f -> exists p, (List.length p <= S dz)%nat /\ forall z, f x y z = peval p z.
Proof.
  induction 1 as [i j k Hi Hj Hk| |f g _ (p & Lp & Ep) _ (q & Lq & Eq)|c f _ (p & Lp & Ep)|f g E _ (p & Lp & Ep)].
  - destruct (monomial_list k (x ^ i * y ^ j)) as (p & L & E). exists p. split; [lia|]. intros. rewrite <- E. ring.
  - exists []. split; [cbn; lia|reflexivity].
  - exists (padd p q). split; [apply combine_lists; assumption|]. intros. rewrite padd_eval, Ep, Eq. reflexivity.
  - exists (pscale c p). split; [rewrite pscale_length; exact Lp|]. intros. rewrite pscale_eval, Ep. reflexivity.
  - exists p. split; [exact Lp|]. intros. rewrite <- E. apply Ep.
Qed.

(** ** Hexahedra with the same points on the three lines *)
Definition line_basis (xs : list R) (M : nat -> nat -> R) : Basis := mkBasis xs xs xs M M M.
(** the inverse of lagrange.hpp line 76 *)
Definition inverse_matrix (xs : list R) (k j : nat) : R := nth k (lpoly xs j) 0.
Lemma inverse_matrix_ok xs : NoDup xs -> inverse_of xs (inverse_matrix xs).
Proof.
  intros D i j I J. unfold inverse_matrix, taylor_to_lagrange.
  rewrite (rsum_ext _ _ (fun k => nth k (lpoly xs j) 0 * nth i xs 0 ^ k)).
  - rewrite <- (lpoly_length xs j J) at 1. rewrite <- peval_sum, <- lpoly_eval, (Line_nodal xs D j i J I), Nat.eqb_sym. reflexivity.
  - intros k K. rewrite Taylor1_values_nth by lia. ring.
Qed.

Section Cell.
  Variables xs ws : list R.
  Let Q := List.length xs.
  Variable M : nat -> nat -> R.
  Variable id : nat.
  Variable w : nat -> R.
  Variable h : Hexa.
  Variable nodes : list vec.
  Variable coeff : nat -> nat -> R.
  Hypothesis E : with_ends xs ws.
  Hypothesis MI : inverse_of xs M.
  Hypothesis Hh : In h hexas.
  Hypothesis Hn : built (h_element h) nodes.
  Let u := mkNodal h nodes (line_basis xs M) coeff.
  Let c := hexa_cell id w u.
  Definition line_D (i a : nat) : R := nth a (Line_GetDerivatives xs M 1 (nth i xs 0)) 0.
  Notation X i := (nth i xs 0).
  Notation nd i j k := ((i * Q + j) * Q + k)%nat.

  Lemma line_D_ok : lagrange_derivatives xs line_D.
  Proof.
    pose proof (Q_ge_2 xs ws E) as Q2. intros i a I A. unfold line_D.
    apply (derivable_ext (fun x => dL xs M 0 a x)).
    - intros x. rewrite (dL_0 xs M (proj1 E) MI a x A). symmetry. apply nth_Line. exact A.
    - apply (dL_deriv xs M 0 a (nth i xs 0)); [lia|exact A].
  Qed.
  Lemma line_0 i a : (i < Q)%nat -> (a < Q)%nat -> nth a (Line_GetDerivatives xs M 0 (X i)) 0 = delta i a.
  Proof.
    intros I A. change (dL xs M 0 a (X i) = delta i a). rewrite (dL_0 xs M (proj1 E) MI a _ A).
    rewrite (Line_nodal xs (proj1 E) a i A I). unfold delta. rewrite Nat.eqb_sym. reflexivity.
  Qed.
  Lemma index_nd i j k : (i < Q)%nat -> (j < Q)%nat -> (k < Q)%nat -> Hexa_index_inv Q Q (nd i j k) = (i, j, k).
  Proof.
    intros I J L. unfold Hexa_index_inv. cbv zeta.
    assert (H : forall x y, (y < Q)%nat -> ((x * Q + y) / Q = x /\ (x * Q + y) mod Q = y)%nat).
    { intros x y Y. rewrite (Nat.add_comm (x * Q)). split.
      - rewrite Nat.div_add, Nat.div_small by lia. reflexivity.
      - rewrite Nat.mod_add, Nat.mod_small by lia. reflexivity. }
    destruct (H (i * Q + j)%nat k L) as [-> ->]. destruct (H i j J) as [-> ->]. reflexivity.
  Qed.
  Lemma point_nd i j k : (i < Q)%nat -> (j < Q)%nat -> (k < Q)%nat -> point u (nd i j k) = V (X i) (X j) (X k).
  Proof. intros I J L. unfold point, local_coord. cbn [u n_basis line_basis b_x b_y b_z]. fold Q. rewrite index_nd by assumption. reflexivity. Qed.
  Lemma hexa_tensor_cell : tensor_cell Q (fun i => X i) line_D c.
  Proof.
    pose proof (Q_ge_2 xs ws E) as Q2. fold Q in Q2. split.
    - intros i j k I J L. cbn [c hexa_cell nc_coord nc_to_global]. rewrite point_nd by assumption. reflexivity.
    - intros i j k a b e I J L A B E'. cbn [c hexa_cell nc_gradients]. unfold basis_local_gradients, GetDerivatives_at.
      change (local_coord (n_basis u) (nd i j k)) with (point u (nd i j k)). rewrite point_nd by assumption. cbn [vx vy vz].
      unfold GetDerivatives, orders_ok. cbn [u n_basis line_basis b_x b_y b_z b_mx b_my b_mz]. fold Q.
      replace (1 <? Q)%nat with true by (symmetry; apply Nat.ltb_lt; lia). replace (0 <? Q)%nat with true by (symmetry; apply Nat.ltb_lt; lia).
      cbn [andb column3].
      assert (LT : (nd a b e < b_N (line_basis xs M))%nat) by (unfold b_N; cbn [line_basis b_x b_y b_z]; fold Q; apply (nd_lt xs); assumption).
      pose proof (fun i' j' k' => Hexa_GetDerivatives_nth (line_basis xs M) i' j' k' (nd a b e) (X i) (X j) (X k) LT) as HD.
      cbn [line_basis b_x b_y b_z b_mx b_my b_mz] in HD. rewrite !HD. unfold dB. cbn [line_basis b_x b_y b_z b_mx b_my b_mz]. fold Q.
      rewrite index_nd by assumption. unfold dL. rewrite !line_0 by assumption. reflexivity.
  Qed.

  (** ** The discrete metric identity *)
  Let J (a : nat) (x y z : R) : vec := LocalToJacobian (h_element h) nodes x y z a.
  Let Gd (a b : nat) (x y z : R) : vec := LocalToJacobianGradient h nodes x y z a b.
  Definition cofactor (a : nat) (x y z : R) : vec :=
    match a with 0%nat => cross (J 1 x y z) (J 2 x y z) | 1%nat => cross (J 2 x y z) (J 0 x y z) | _ => cross (J 0 x y z) (J 1 x y z) end.
  Lemma associated_columns q a : (a < 3)%nat -> jacobian_det u q <> 0 ->
    Spec_FR.nth_column (nc_associated c q) a = cofactor a (vx (point u q)) (vy (point u q)) (vz (point u q)).
  Proof.
    intros A NZ. cbn [c hexa_cell nc_associated]. unfold jacobian_det_inv.
    set (d := jacobian_det u q) in *. unfold minv. change (mdet (jacobian u (point u q))) with d.
    change (r0 (jacobian u (point u q))) with (J 0 (vx (point u q)) (vy (point u q)) (vz (point u q))).
    change (r1 (jacobian u (point u q))) with (J 1 (vx (point u q)) (vy (point u q)) (vz (point u q))).
    change (r2 (jacobian u (point u q))) with (J 2 (vx (point u q)) (vy (point u q)) (vz (point u q))).
    unfold cofactor.
    set (c12 := cross (J 1 _ _ _) _). set (c20 := cross (J 2 _ _ _) _). set (c01 := cross (J 0 _ _ _) _). clearbody d c12 c20 c01.
    destruct c12 as [x1 y1 z1], c20 as [x2 y2 z2], c01 as [x3 y3 z3].
    unfold mscale, of_columns, vscale, Spec_FR.nth_column. cbn [vx vy vz r0 r1 r2].
    destruct a as [|[|[|a]]]; [| | |lia]; cbn [vx vy vz r0 r1 r2]; f_equal; field; exact NZ.
  Qed.
  Lemma triple_partial ax F (A B A' B' : R -> R -> R -> vec) :
    (forall x y z, is_partial_vec [ax] A x y z (A' x y z)) -> (forall x y z, is_partial_vec [ax] B x y z (B' x y z)) ->
    is_partial1 ax (fun x y z => dot F (cross (A x y z) (B x y z)))
      (fun x y z => dot F (cross (A' x y z) (B x y z)) + dot F (cross (A x y z) (B' x y z))).
  Proof.
    intros HA HB.
    assert (A1 := partial1_of ax _ _ (fun x y z => proj1 (HA x y z))). assert (A2 := partial1_of ax _ _ (fun x y z => proj1 (proj2 (HA x y z)))).
    assert (A3 := partial1_of ax _ _ (fun x y z => proj2 (proj2 (HA x y z)))).
    assert (B1 := partial1_of ax _ _ (fun x y z => proj1 (HB x y z))). assert (B2 := partial1_of ax _ _ (fun x y z => proj1 (proj2 (HB x y z)))).
    assert (B3 := partial1_of ax _ _ (fun x y z => proj2 (proj2 (HB x y z)))).
    pose proof (partial1_scale ax _ _ (vx F) (partial1_sub ax _ _ _ _ (partial1_mul ax _ _ _ _ A2 B3) (partial1_mul ax _ _ _ _ A3 B2))) as T1.
    pose proof (partial1_scale ax _ _ (vy F) (partial1_sub ax _ _ _ _ (partial1_mul ax _ _ _ _ A3 B1) (partial1_mul ax _ _ _ _ A1 B3))) as T2.
    pose proof (partial1_scale ax _ _ (vz F) (partial1_sub ax _ _ _ _ (partial1_mul ax _ _ _ _ A1 B2) (partial1_mul ax _ _ _ _ A2 B1))) as T3.
    refine (partial1_ext _ _ _ _ _ (partial1_add ax _ _ _ _ (partial1_add ax _ _ _ _ T1 T2) T3) _ _);
      intros x y z; cbv beta; unfold dot, cross; cbn [vx vy vz]; ring.
  Qed.
  Lemma triple_polyn d F (A B : R -> R -> R -> vec) :
    (polyn d d d (fun x y z => vx (A x y z)) /\ polyn d d d (fun x y z => vy (A x y z)) /\ polyn d d d (fun x y z => vz (A x y z))) ->
    (polyn d d d (fun x y z => vx (B x y z)) /\ polyn d d d (fun x y z => vy (B x y z)) /\ polyn d d d (fun x y z => vz (B x y z))) ->
    polyn (d + d) (d + d) (d + d) (fun x y z => dot F (cross (A x y z) (B x y z))).
  Proof.
    intros (A1 & A2 & A3) (B1 & B2 & B3).
    pose proof (pn_scal _ _ _ (vx F) _ (pn_sub _ _ _ _ _ (pn_mul _ _ _ _ _ _ _ _ A2 B3) (pn_mul _ _ _ _ _ _ _ _ A3 B2))) as T1.
    pose proof (pn_scal _ _ _ (vy F) _ (pn_sub _ _ _ _ _ (pn_mul _ _ _ _ _ _ _ _ A3 B1) (pn_mul _ _ _ _ _ _ _ _ A1 B3))) as T2.
    pose proof (pn_scal _ _ _ (vz F) _ (pn_sub _ _ _ _ _ (pn_mul _ _ _ _ _ _ _ _ A1 B2) (pn_mul _ _ _ _ _ _ _ _ A2 B1))) as T3.
    refine (pn_ext _ _ _ _ _ _ (pn_add _ _ _ _ _ (pn_add _ _ _ _ _ T1 T2) T3)).
    intros x y z; cbv beta; unfold dot, cross; cbn [vx vy vz]; ring.
  Qed.
  Lemma hexas_bricks : In (h_element h) bricks.
  Proof. destruct Hh as [<-|[<-|[<-|[<-|[]]]]]; cbn; tauto. Qed.
  Let m := order (h_element h).
  Lemma J_polyn a : (a < 3)%nat -> polyn m m m (fun x y z => vx (J a x y z)) /\ polyn m m m (fun x y z => vy (J a x y z)) /\ polyn m m m (fun x y z => vz (J a x y z)).
  Proof.
    intros A. destruct (grads_degrees (h_element h) hexas_bricks) as (G0 & G1 & G2). fold m in G0, G1, G2.
    assert (T : forall p : vec -> R, (forall a b, p (vadd a b) = p a + p b) -> (forall c a, p (vscale c a) = c * p a) -> p v0 = 0 ->
      polyn m m m (fun x y z => p (J a x y z))).
    { intros p P1 P2 P3. destruct a as [|[|[|a]]]; [| | |lia].
      - eapply pn_le; [..|exact (jacobian_polyn _ hexas_bricks nodes Hn 0 p _ _ _ P1 P2 P3 G0)]; lia.
      - eapply pn_le; [..|exact (jacobian_polyn _ hexas_bricks nodes Hn 1 p _ _ _ P1 P2 P3 G1)]; lia.
      - eapply pn_le; [..|exact (jacobian_polyn _ hexas_bricks nodes Hn 2 p _ _ _ P1 P2 P3 G2)]; lia. }
    split; [|split]; apply T; reflexivity.
  Qed.
  Lemma cofactor_polyn F a : polyn (2 * m) (2 * m) (2 * m) (fun x y z => dot F (cofactor a x y z)).
  Proof.
    replace (2 * m)%nat with (m + m)%nat by lia. unfold cofactor.
    destruct a as [|[|a]]; apply triple_polyn; apply J_polyn; lia.
  Qed.
  (** the derivative of the cofactor of an axis along this axis *)
  Definition cofactor_prime F (a : nat) (x y z : R) : R :=
    match a with
    | 0%nat => dot F (cross (Gd 0 1 x y z) (J 2 x y z)) + dot F (cross (J 1 x y z) (Gd 0 2 x y z))
    | 1%nat => dot F (cross (Gd 1 2 x y z) (J 0 x y z)) + dot F (cross (J 2 x y z) (Gd 1 0 x y z))
    | _ => dot F (cross (Gd 2 0 x y z) (J 1 x y z)) + dot F (cross (J 0 x y z) (Gd 2 1 x y z))
    end.
  Lemma cofactor_partial F a : (a < 3)%nat -> is_partial1 (axis_of a) (fun x y z => dot F (cofactor a x y z)) (cofactor_prime F a).
  Proof.
    intros A. destruct a as [|[|[|a]]]; [| | |lia]; apply triple_partial; intros; apply G_partial; auto.
  Qed.
  Lemma cofactors_cancel F x y z : cofactor_prime F 0 x y z + cofactor_prime F 1 x y z + cofactor_prime F 2 x y z = 0.
  Proof.
    cbn [cofactor_prime]. change (Gd 1 0) with (Gd 0 1). change (Gd 2 0) with (Gd 0 2). change (Gd 2 1) with (Gd 1 2).
    set (a := Gd 0 1 x y z). set (b := Gd 0 2 x y z). set (e := Gd 1 2 x y z).
    set (j0 := J 0 x y z). set (j1 := J 1 x y z). set (j2 := J 2 x y z). clearbody a b e j0 j1 j2.
    unfold dot, cross. cbn [vx vy vz]. ring.
  Qed.
  Lemma D_of f df x' : (exists p, (List.length p <= S (2 * m))%nat /\ forall x, f x = peval p x) -> (2 * m + 1 <= Q)%nat -> (x' < Q)%nat ->
    derivable_pt_lim f (X x') df -> rsum Q (fun a => line_D x' a * f (X a)) = df.
  Proof.
    intros (p & L & Ep) HQ I HD.
    rewrite (rsum_ext _ _ (fun a => line_D x' a * peval p (X a))) by (intros; rewrite Ep; reflexivity).
    unfold Q at 1. rewrite (D_exact xs ws line_D E line_D_ok p x'); [|fold Q; lia|exact I].
    apply (uniqueness_limite f (X x')); [|exact HD]. apply (derivable_ext (peval p)); [intros; symmetry; apply Ep|].
    apply pderiv_correct.
  Qed.
  Theorem metric_identity F i j k : (2 * m + 1 <= Q)%nat -> (i < Q)%nat -> (j < Q)%nat -> (k < Q)%nat ->
    rsum Q (fun a => line_D i a * dot F (cofactor 0 (X a) (X j) (X k))) + rsum Q (fun b => line_D j b * dot F (cofactor 1 (X i) (X b) (X k)))
    + rsum Q (fun e => line_D k e * dot F (cofactor 2 (X i) (X j) (X e))) = 0.
  Proof.
    intros HQ I J' L.
    rewrite (D_of (fun x => dot F (cofactor 0 x (X j) (X k))) (cofactor_prime F 0 (X i) (X j) (X k)) i);
      [|exact (polyn_x _ _ _ _ (X j) (X k) (cofactor_polyn F 0))|exact HQ|exact I|exact (cofactor_partial F 0 ltac:(lia) (X i) (X j) (X k))].
    rewrite (D_of (fun y => dot F (cofactor 1 (X i) y (X k))) (cofactor_prime F 1 (X i) (X j) (X k)) j);
      [|exact (polyn_y _ _ _ _ (X i) (X k) (cofactor_polyn F 1))|exact HQ|exact J'|exact (cofactor_partial F 1 ltac:(lia) (X i) (X j) (X k))].
    rewrite (D_of (fun z => dot F (cofactor 2 (X i) (X j) z)) (cofactor_prime F 2 (X i) (X j) (X k)) k);
      [|exact (polyn_z _ _ _ _ (X i) (X j) (cofactor_polyn F 2))|exact HQ|exact L|exact (cofactor_partial F 2 ltac:(lia) (X i) (X j) (X k))].
    apply cofactors_cancel.
  Qed.
  (** the divergence of a uniform flux *)
  Theorem uniform_divergence FluxMatrix n F q : (2 * m + 1 <= Q)%nat -> (q < Q * Q * Q)%nat ->
    (forall q, (q < Q * Q * Q)%nat -> jacobian_det u q <> 0) -> (forall q, (q < Q * Q * Q)%nat -> FluxMatrix (nc_value c q) n = F) ->
    divergence_at Q FluxMatrix c q n = 0.
  Proof.
    intros HQ L NZ U. destruct (nd_all xs q L) as (i & j & k & I & J' & K' & ->).
    pose proof (tensor_divergence xs line_D FluxMatrix c i j k n hexa_tensor_cell I J' K') as TD. fold Q in TD |- *. rewrite TD. clear TD.
    assert (T : forall i j k a, (i < Q)%nat -> (j < Q)%nat -> (k < Q)%nat -> (a < 3)%nat ->
      axis_flux (F_local FluxMatrix c (nd i j k) n) a = dot F (cofactor a (X i) (X j) (X k))).
    { intros i' j' k' a I1 J1 K1 A. pose proof (nd_lt xs i' j' k' I1 J1 K1) as L1. unfold F_local. rewrite rmul_column, U by exact L1.
      rewrite associated_columns by (auto; apply NZ; exact L1). rewrite point_nd by assumption. reflexivity. }
    rewrite <- (metric_identity F i j k HQ I J' K').
    f_equal; [f_equal|]; apply rsum_ext; intros a A; f_equal; [apply (T a j k 0%nat)|apply (T i a k 1%nat)|apply (T i j a 2%nat)]; auto.
  Qed.
End Cell.
