(** Derivatives of the combinations of Lagrange polynomials on a hexahedron. *)
From Coq Require Import Reals List Arith Lia Lra.
From Verif Require Import Vec3 RSum Poly Model_Basis Spec_Basis Proof_Lagrange Proof_Vincent Proof_Geometry Spec_Shapes Model_Nodal Spec_Nodal Proof_Chain.
Import ListNotations.
Open Scope R_scope.

Lemma dpow_deriv k j x : derivable_pt_lim (dpow k j) x (dpow (S k) j x).
Proof.
  unfold dpow. destruct (Nat.ltb_spec j k).
  - destruct (Nat.ltb_spec j (S k)); [|lia]. exact (derivable_pt_lim_const 0 x).
  - destruct (Nat.ltb_spec j (S k)).
    + replace (j - k)%nat with 0%nat by lia. exact (derivable_pt_lim_const (INR (fact j) / INR (fact 0) * 1) x).
    + replace (j - k)%nat with (S (j - S k)) by lia. set (n := (j - S k)%nat).
      apply (derivable_equal _ _ (INR (fact j) / INR (fact (S n)) * (INR (S n) * x ^ pred (S n)))).
      * apply (derivable_pt_lim_scal (fun x => x ^ S n)). apply derivable_pt_lim_pow.
      * cbn [pred]. change (fact (S n)) with (S n * fact n)%nat. rewrite mult_INR. field.
        split; [apply INR_fact_neq_0|apply not_0_INR; lia].
Qed.
Lemma derivable_rsum n (f : nat -> R -> R) (d : nat -> R) x : (forall i, (i < n)%nat -> derivable_pt_lim (f i) x (d i)) ->
  derivable_pt_lim (fun t => rsum n (fun i => f i t)) x (rsum n d).
Proof.
  induction n; intros H; cbn [rsum]; [exact (derivable_pt_lim_const 0 x)|].
  apply (derivable_pt_lim_plus (fun t => rsum n (fun i => f i t)) (f n)); [apply IHn; intros; apply H; lia|apply H; lia].
Qed.

Section Line.
Variables (nodes : list R) (M : nat -> nat -> R).
Definition dL (k i : nat) (x : R) : R := nth i (Line_GetDerivatives nodes M k x) 0.
Lemma dL_sum k i x : (k < length nodes)%nat -> (i < length nodes)%nat -> dL k i x = rsum (length nodes) (fun j => dpow k j x * M j i).
Proof.
  intros Hk Hi. unfold dL, Line_GetDerivatives.
  set (F := fun i => rsum (length nodes) (fun j => nth j (Taylor1_GetDerivatives (length nodes - 1) k x) 0 * M j i)).
  rewrite (nth_indep _ 0 (F 0%nat)) by (rewrite map_length, seq_length; exact Hi).
  rewrite (map_nth F), seq_nth by exact Hi. unfold F. apply rsum_ext. intros j Lj.
  rewrite Taylor1_derivatives_nth by lia. reflexivity.
Qed.
Lemma dL_deriv k i x : (S k < length nodes)%nat -> (i < length nodes)%nat -> derivable_pt_lim (dL k i) x (dL (S k) i x).
Proof.
  intros Hk Hi. rewrite dL_sum by lia.
  apply (derivable_ext (fun x => rsum (length nodes) (fun j => dpow k j x * M j i))); [intros; symmetry; apply dL_sum; lia|].
  apply (derivable_rsum _ (fun j t => dpow k j t * M j i)). intros j Hj.
  apply (derivable_equal _ _ (dpow (S k) j x * M j i + dpow k j x * 0)); [|ring].
  apply (derivable_pt_lim_mult (dpow k j) (fct_cte (M j i))); [apply dpow_deriv|apply derivable_pt_lim_const].
Qed.
Lemma Line_GetDerivatives_length k x : length (Line_GetDerivatives nodes M k x) = length nodes.
Proof. unfold Line_GetDerivatives. rewrite map_length, seq_length. reflexivity. Qed.
Hypothesis D : NoDup nodes.
Hypothesis MI : forall i j, (i < length nodes)%nat -> (j < length nodes)%nat ->
  rsum (length nodes) (fun k => taylor_to_lagrange nodes i k * M k j) = if Nat.eqb i j then 1 else 0.
Lemma dL_0 i x : (i < length nodes)%nat -> dL 0 i x = Line_value nodes x i.
Proof. intros H. exact (Line_derivatives nodes D M MI 0 x i ltac:(lia) H). Qed.
End Line.

Section Basis.
Variable b : Basis.
Let nx := b_x b. Let ny := b_y b. Let nz := b_z b.
Let I3 n := Hexa_index_inv (length ny) (length nz) n.
(** the derivative of order (i, j, k) of the basis function [n] *)
Definition dB (i j k n : nat) (x y z : R) : R :=
  let '(p, q, r) := I3 n in dL nx (b_mx b) i p x * dL ny (b_my b) j q y * dL nz (b_mz b) k r z.
Lemma Hexa_GetDerivatives_nth i j k n x y z : (n < b_N b)%nat ->
  nth n (Hexa_GetDerivatives nx ny nz (b_mx b) (b_my b) (b_mz b) i j k x y z) 0 = dB i j k n x y z.
Proof.
  intros Hn. pose proof (Hexa_index_inv_range (length nx) (length ny) (length nz) n Hn) as H. unfold dB, I3.
  destruct (Hexa_index_inv (length ny) (length nz) n) as [[p q] r]. destruct H as (Hp & Hq & Hr & E).
  rewrite <- E at 1. unfold Hexa_GetDerivatives.
  rewrite <- (Line_GetDerivatives_length ny (b_my b) j y) at 1. rewrite <- (Line_GetDerivatives_length nz (b_mz b) k z) at 1.
  rewrite Hexa_products_nth by (rewrite Line_GetDerivatives_length; assumption). reflexivity.
Qed.
Lemma dB_partial i j k a n : (n < b_N b)%nat -> (a < 3)%nat ->
  let i' := match a with 0%nat => S i | _ => i end in
  let j' := match a with 1%nat => S j | _ => j end in
  let k' := match a with 2%nat => S k | _ => k end in
  (i' < length nx)%nat -> (j' < length ny)%nat -> (k' < length nz)%nat ->
  is_partial1 (axis_of a) (dB i j k n) (dB i' j' k' n).
Proof.
  intros Hn Ha. pose proof (Hexa_index_inv_range (length nx) (length ny) (length nz) n Hn) as H. unfold dB, I3.
  destruct (Hexa_index_inv (length ny) (length nz) n) as [[p q] r]. destruct H as (Hp & Hq & Hr & _). cbv zeta.
  destruct a as [|[|[|a]]]; [..|lia]; intros Hi Hj Hk x y z; cbn [axis_of].
  - apply (derivable_ext (fun t => (dL ny (b_my b) j q y * dL nz (b_mz b) k r z) * dL nx (b_mx b) i p t)); [intros; ring|].
    apply (derivable_equal _ _ ((dL ny (b_my b) j q y * dL nz (b_mz b) k r z) * dL nx (b_mx b) (S i) p x)); [|ring].
    apply derivable_pt_lim_scal, dL_deriv; auto.
  - apply (derivable_ext (fun t => (dL nx (b_mx b) i p x * dL nz (b_mz b) k r z) * dL ny (b_my b) j q t)); [intros; ring|].
    apply (derivable_equal _ _ ((dL nx (b_mx b) i p x * dL nz (b_mz b) k r z) * dL ny (b_my b) (S j) q y)); [|ring].
    apply derivable_pt_lim_scal, dL_deriv; auto.
  - apply derivable_pt_lim_scal, dL_deriv; auto.
Qed.
Hypothesis Dx : NoDup nx. Hypothesis Dy : NoDup ny. Hypothesis Dz : NoDup nz.
Hypothesis Mx : inverse_of nx (b_mx b). Hypothesis My : inverse_of ny (b_my b). Hypothesis Mz : inverse_of nz (b_mz b).
Lemma GetValues_nth n x y z : (n < b_N b)%nat -> nth n (GetValues b x y z) 0 = dB 0 0 0 n x y z.
Proof.
  intros Hn. pose proof (Hexa_index_inv_range (length nx) (length ny) (length nz) n Hn) as H. unfold dB, I3.
  destruct (Hexa_index_inv (length ny) (length nz) n) as [[p q] r]. destruct H as (Hp & Hq & Hr & E).
  rewrite <- E at 1. unfold GetValues, Hexa_GetValues. fold nx ny nz.
  rewrite <- (Line_GetValues_length ny y) at 1. rewrite <- (Line_GetValues_length nz z) at 1.
  rewrite Hexa_products_nth by (rewrite Line_GetValues_length; assumption).
  rewrite !Line_GetValues_nth, !dL_0 by assumption. reflexivity.
Qed.
Lemma GetValues_at n m : (n < b_N b)%nat -> (m < b_N b)%nat ->
  nth n (GetValues b (vx (local_coord b m)) (vy (local_coord b m)) (vz (local_coord b m))) 0 = if Nat.eqb n m then 1 else 0.
Proof.
  intros Hn Hm. unfold local_coord.
  pose proof (Hexa_index_inv_range (length nx) (length ny) (length nz) n Hn) as H.
  pose proof (Hexa_index_inv_range (length nx) (length ny) (length nz) m Hm) as H'.
  fold ny nz.
  destruct (Hexa_index_inv (length ny) (length nz) n) as [[p q] r] eqn:En. destruct (Hexa_index_inv (length ny) (length nz) m) as [[p' q'] r'] eqn:Em.
  destruct H as (Hp & Hq & Hr & E). destruct H' as (Hp' & Hq' & Hr' & E'). cbn [vx vy vz].
  rewrite GetValues_nth by exact Hn. unfold dB, I3. rewrite En, !dL_0 by assumption.
  rewrite !Line_nodal by assumption.
  destruct (Nat.eqb_spec p p'), (Nat.eqb_spec q q'), (Nat.eqb_spec r r'), (Nat.eqb_spec n m); subst; try congruence; ring.
Qed.
End Basis.
