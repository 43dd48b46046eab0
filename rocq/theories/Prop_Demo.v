(** The data of the demonstration programs.  C116, C117. *)
From Coq Require Import Reals List Arith Lia Lra.
From Verif Require Import Vec3 Model_Euler Model_Simple Spec_Euler Spec_Simple Model_Demo Spec_Demo Proof_Demo.
Import ListNotations.
Open Scope R_scope.

(** C116: whenever the constants of the double Mach reflection belong together, the two states are those of a shock that
    travels with the Mach number along the unit normal (cos 30, -sin 30, 0). *)
Theorem C116_shock : forall gamma c, agrees gamma c ->
  dotL normal normal = 1 /\ physical (primitive_after c) /\ physical (primitive_before c)
  /\ conservative_of gamma (primitive_after c) (value_after gamma c)
  /\ conservative_of gamma (primitive_before c) (value_before gamma c)
  /\ jump gamma (u_nu c) normal (value_after gamma c) (value_before gamma c)
  /\ lax gamma (u_nu c) normal (value_after gamma c) (value_before gamma c).
Proof.
  intros gamma c H. destruct (formulas gamma c H) as (R1 & P1 & W & M & P & E).
  pose proof H as (G & _ & _ & _ & R & P0 & _).
  split. { unfold normal, sin_30. cbn [dotL]. rewrite cos_30_sq. lra. }
  split; [split; assumption|]. split; [split; assumption|].
  assert (C : forall w, conservative_of gamma w (PrimitiveToConservative gamma w)).
  { intros [r u l p]. unfold conservative_of, PrimitiveToConservative, set_energy, VelocityToMomentum, GetDynamicPressure, momentum.
    cbn [mass mX mT energy map]. split; [reflexivity|]. split.
    - f_equal; [ring|]. apply map_ext. intros; ring.
    - cbn [dotL]. assert (S : forall l, sumsq l = dotL l l) by (induction l0; cbn; [reflexivity|rewrite IHl0; reflexivity]).
      rewrite S. field. lra. }
  split; [apply C|]. split; [apply C|]. split; [|apply lax_shock; exact H].
  rewrite after_along, before_along by lra. apply along_jump; lra.
Qed.
Print Assumptions C116_shock.

(** C116: the boundary condition is the front of this shock: the state after it holds where the front, the plane through
    (x_gap, 0, 0) moving along the normal, has passed; it starts as the initial condition and moves with the gas. *)
Theorem C116_front : forall gamma c xyz t,
  (vx xyz * nth 0 normal 0 + vy xyz * nth 1 normal 0 + vz xyz * nth 2 normal 0 - x_gap c * nth 0 normal 0 < u_nu c * t ->
    moving_shock gamma c xyz t = value_after gamma c)
  /\ (u_nu c * t <= vx xyz * nth 0 normal 0 + vy xyz * nth 1 normal 0 + vz xyz * nth 2 normal 0 - x_gap c * nth 0 normal 0 ->
    moving_shock gamma c xyz t = value_before gamma c)
  /\ moving_shock gamma c xyz 0 = MyIC gamma c xyz
  /\ forall dt, moving_shock gamma c (vadd xyz (vscale (u_nu c * dt) (V cos_30 (- sin_30) 0))) (t + dt) = moving_shock gamma c xyz t.
Proof.
  intros gamma c xyz t. rewrite !front. unfold normal. cbn [nth].
  split; [|split; [|split]].
  - intros H. destruct (Rlt_dec _ _) as [|N]; [reflexivity|exfalso; apply N; lra].
  - intros H. destruct (Rlt_dec _ _) as [L|]; [exfalso; lra|reflexivity].
  - unfold MyIC, cos_30, sin_30. destruct (Rlt_dec _ (u_nu c * 0)), (Rlt_dec _ (vy xyz)); try reflexivity; exfalso; lra.
  - intros dt. rewrite front. unfold vadd, vscale, sin_30. cbn [vx vy vz].
    replace (cos_30 * (vx xyz + u_nu c * dt * cos_30 - x_gap c) - 5 / 10 * (vy xyz + u_nu c * dt * - (5 / 10)))
      with (cos_30 * (vx xyz - x_gap c) - 5 / 10 * vy xyz + u_nu c * dt * (cos_30 * cos_30 + 1 / 4)) by field.
    rewrite cos_30_sq. destruct (Rlt_dec _ (u_nu c * (t + dt))), (Rlt_dec _ (u_nu c * t)); try reflexivity; exfalso; lra.
Qed.
Print Assumptions C116_front.

(** C116: the constants of the program belong together, and give the numbers of its comments. *)
Theorem C116_numbers : agrees (14/10) double_mach
  /\ rho_after double_mach = 8 /\ p_after double_mach = 1165/10 /\ u_n_after double_mach = 825/100 /\ u_nu double_mach = 10.
Proof.
  unfold agrees, u_n_after, rho_after, p_after, u_nu. cbn [double_mach kGammaPlus kGamma kGammaMinus rho_before p_before m_before a_before].
  repeat split; try lra; field.
Qed.
Print Assumptions C116_numbers.

(** at the start, the corner is behind the front and the point (1, 0, 0) before it, which it passes before t = 1/10 *)
Example C116_example : MyIC (14/10) double_mach (V 0 0 0) = value_after (14/10) double_mach
  /\ MyIC (14/10) double_mach (V 1 0 0) = value_before (14/10) double_mach
  /\ moving_shock (14/10) double_mach (V 1 0 0) (1/10) = value_after (14/10) double_mach
  /\ mass (value_after (14/10) double_mach) = 8 /\ mass (value_before (14/10) double_mach) = 14/10.
Proof.
  pose proof tan_pos as T. pose proof tan_sq as Q.
  assert (T2 : tan_60 < 2) by nra.
  destruct C116_numbers as (_ & N & _ & _ & S).
  split; [|split; [|split; [|split]]].
  - unfold MyIC. cbn [vx vy double_mach x_gap]. destruct (Rlt_dec _ _); [reflexivity|exfalso; lra].
  - unfold MyIC. cbn [vx vy double_mach x_gap]. destruct (Rlt_dec _ _); [exfalso; lra|reflexivity].
  - rewrite front, S. unfold cos_30, sin_30. cbn [vx vy double_mach x_gap]. destruct (Rlt_dec _ _); [reflexivity|exfalso; lra].
  - exact N.
  - reflexivity.
Qed.

(** C117: the "exact solution" of the convection-diffusion demonstration does not solve the equation with the
    coefficients that the program sets: the diffusion is left out. *)
Theorem C117_single_refuted : exists x t, 0 < t /\ 2 < x - single_a_x * t < 3
  /\ ~ solves single_a_x single_nu single_exact x t.
Proof.
  exists (25/10 + / k_wave + single_a_x * 1), 1. split; [lra|].
  assert (K : 0 < k_wave) by (unfold k_wave; lra).
  assert (I : 0 < / k_wave < 1/2).
  { split; [apply Rinv_0_lt_compat; exact K|]. apply Rmult_lt_reg_l with k_wave; [exact K|].
    rewrite Rinv_r by lra. unfold k_wave. lra. }
  assert (H : 2 < 25/10 + / k_wave + single_a_x * 1 - single_a_x * 1 < 3) by lra.
  split; [exact H|]. rewrite single_middle by exact H. unfold profile, single_nu.
  replace ((_ - 25 / 10) * 9 * (31415926 / 10000000)) with 1.
  - pose proof (sin_gt_0 1 ltac:(lra) ltac:(pose proof PI_RGT_0; pose proof PI2_1; lra)). lra.
  - unfold k_wave. field.
Qed.
Print Assumptions C117_single_refuted.

(** C117: what holds: off the two kinks it solves the equation without diffusion, and where it is constant the equation
    itself; it starts as the initial condition.  In between it solves it nowhere but at the zeros of the wave. *)
Theorem C117_single_partial : forall x t,
  (x - single_a_x * t <> 2 -> x - single_a_x * t <> 3 -> solves single_a_x 0 single_exact x t)
  /\ (x - single_a_x * t < 2 \/ 3 < x - single_a_x * t -> solves single_a_x single_nu single_exact x t)
  /\ (2 < x - single_a_x * t < 3 -> (solves single_a_x single_nu single_exact x t <-> single_exact x t = 0))
  /\ single_exact x 0 = single_ic x.
Proof.
  intros x t. split; [|split; [|split]].
  - intros H2 H3. destruct (Rlt_dec (x - single_a_x * t) 2); [apply single_outside; lra|].
    destruct (Rlt_dec 3 (x - single_a_x * t)); [apply single_outside; lra|]. apply single_middle; [lra|]. ring.
  - apply single_outside.
  - intros H. rewrite single_middle by exact H.
    assert (E : single_exact x t = profile (x - single_a_x * t)).
    { unfold single_exact, single_ic, profile. destruct (Rgt_dec _ 3); [lra|]. destruct (Rgt_dec _ 2); [reflexivity|lra]. }
    rewrite E. unfold single_nu. split; intros Z; [lra|rewrite Z; ring].
  - unfold single_exact. f_equal. ring.
Qed.
Print Assumptions C117_single_partial.

(** after one unit of time, the wave is between -8 and -7 *)
Example C117_single_example : single_exact (-85/10) 1 = -1 /\ single_exact (-65/10) 1 = 1 /\ single_exact (-75/10) 1 = 0.
Proof.
  unfold single_exact, single_a_x, single_ic.
  repeat split; repeat (destruct (Rgt_dec _ _); try lra).
  replace ((-75 / 10 - -10 * 1 - 25 / 10) * 9 * (31415926 / 10000000)) with 0 by field. apply sin_0.
Qed.

(** a decomposition of the matrix of linear/multiple.cpp with unit eigenvectors *)
Definition dv : Col := fun i => match i with 0%nat => 8 | _ => 4 end.
Definition dV : Mat := fun i j => match i, j with 1%nat, 0%nat => - / sqrt 2 | _, _ => / sqrt 2 end.
Definition dW : Mat := fun i j => match i, j with 0%nat, 1%nat => - / sqrt 2 | _, _ => / sqrt 2 end.
Lemma half : / sqrt 2 * / sqrt 2 = 1 / 2.
Proof. assert (0 < sqrt 2) by (apply sqrt_lt_R0; lra). rewrite <- Rinv_mult, sqrt_sqrt by lra. field. Qed.
Lemma d_contract : eigen_contract 2 multiple_a_x dv dV dW.
Proof.
  pose proof half as H. unfold eigen_contract.
  split; [|split]; intros i j Hi Hj; destruct i as [|[|i]], j as [|[|j]]; try lia;
    cbn [sum]; unfold multiple_a_x, dv, dV, dW; cbn [Nat.eq_dec nat_rec nat_rect]; try (destruct (Nat.eq_dec _ _); try lia); lra.
Qed.

(** C117: the "exact solution" of the system is wrong for a decomposition that Eigen may return: it takes the rows of
    the matrix whose columns are the eigenvectors, and the jump at x = 8 t is no eigenvector for 8. *)
Theorem C117_multiple_refuted : exists values V W,
  eigen_contract 2 multiple_a_x values V W /\ (forall k, (k < 2)%nat -> sum 2 (fun i => V i k * V i k) = 1)
  /\ ~ linear_riemann 2 multiple_a_x (multiple_exact 2 values V W value_left value_right).
Proof.
  exists dv, dV, dW. pose proof half as Hh. split; [exact d_contract|]. split.
  { intros k Hk. destruct k as [|[|k]]; [| |lia]; cbn [sum]; unfold dV; lra. }
  intros N. destruct (N 8 1 ltac:(lra)) as (U & W & (r & R & S) & J).
  set (d := Rmin r 4 / 2). assert (D : 0 < d < r /\ d < 4).
  { unfold d. pose proof (Rmin_l r 4). pose proof (Rmin_r r 4). assert (0 < Rmin r 4) by (apply Rmin_glb_lt; lra). lra. }
  specialize (J 0%nat ltac:(lia)). cbn [sum] in J. unfold multiple_a_x in J.
  rewrite <- (proj1 (S (8 * 1 - d) 0%nat ltac:(lia)) ltac:(lra)) in J.
  rewrite <- (proj1 (S (8 * 1 - d) 1%nat ltac:(lia)) ltac:(lra)) in J.
  rewrite <- (proj2 (S (8 * 1 + d) 0%nat ltac:(lia)) ltac:(lra)) in J.
  rewrite <- (proj2 (S (8 * 1 + d) 1%nat ltac:(lia)) ltac:(lra)) in J.
  unfold multiple_exact, x_0 in J. cbn [sum] in J. unfold dv, dV, dW, value_left, value_right in J.
  repeat match type of J with context [Rgt_dec ?x ?y] =>
    first [ destruct (Rgt_dec x y); [|exfalso; lra] | destruct (Rgt_dec x y); [exfalso; lra|] ] end.
  revert J. generalize dependent (/ sqrt 2). intros s Hh J. nra.
Qed.
Print Assumptions C117_multiple_refuted.

(** C117: what holds: if the rows are left eigenvectors (as the program means them to be), then it solves the system for
    every matrix and every two states. *)
Theorem C117_multiple_partial : forall K A values L Inv left right, left_vectors K A values L Inv ->
  linear_riemann K A (multiple_exact K values L Inv left right).
Proof. exact multiple_right. Qed.
Print Assumptions C117_multiple_partial.

(** C117: in any case it starts as the initial condition and is right beyond the fastest waves. *)
Theorem C117_multiple_start_partial : forall K A values V W left right x t j, eigen_contract K A values V W ->
  (j < K)%nat -> 0 <= t -> t = 0 \/ (forall i, (i < K)%nat -> Rabs (values i) * t < Rabs x) ->
  multiple_exact K values V W left right x t j = multiple_ic left right x j.
Proof.
  intros K A values V W left right x t j (_ & _ & H) Hj T C. apply multiple_start; [exact Hj|exact H|].
  intros i Hi. destruct C as [->|C].
  - rewrite Rmult_0_r. reflexivity.
  - specialize (C i Hi). rewrite <- (Rabs_right t) in C at 1 by lra. rewrite <- Rabs_mult in C.
    unfold Rabs in C. destruct (Rcase_abs (values i * t)), (Rcase_abs x); split; lra.
Qed.
Print Assumptions C117_multiple_start_partial.

(** the symmetric matrix of eigenvectors of the same matrix has them in its rows, too *)
Definition sv : Col := fun i => match i with 0%nat => 4 | _ => 8 end.
Definition sV : Mat := fun i j => match i, j with 1%nat, 1%nat => - / sqrt 2 | _, _ => / sqrt 2 end.
Example C117_multiple_example : left_vectors 2 multiple_a_x sv sV sV /\ eigen_contract 2 multiple_a_x sv sV sV
  /\ multiple_exact 2 sv sV sV value_left value_right 6 1 0%nat = 4
  /\ multiple_exact 2 sv sV sV value_left value_right 6 1 1%nat = 4.
Proof.
  pose proof half as H. split; [|split; [|split]].
  1,2: unfold left_vectors, eigen_contract; split; [|split]; intros i j Hi Hj; destruct i as [|[|i]], j as [|[|j]]; try lia;
    cbn [sum]; unfold multiple_a_x, sv, sV; try (destruct (Nat.eq_dec _ _); try lia); lra.
  all: unfold multiple_exact, x_0; cbn [sum]; unfold sv, sV, value_left, value_right;
    repeat match goal with |- context [Rgt_dec ?x ?y] =>
      first [ destruct (Rgt_dec x y); [|exfalso; lra] | destruct (Rgt_dec x y); [exfalso; lra|] ] end; lra.
Qed.
