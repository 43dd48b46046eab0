(** Cells for the examples of damping matrices. *)
From Coq Require Import Reals List Arith Lia Lra.
From Verif Require Import Vec3 Arrays RSum Model_Geometry Model_Basis Model_Nodal Model_Dofs Model_DG Model_Gauss Model_Diffusive Model_Schemes
  Model_Damping Spec_Basis Spec_Shapes Spec_Nodal Proof_Geometry Proof_Vincent Proof_Nodal Proof_NodalMain Proof_Box Spec_Damping Proof_DampingMain.
Import ListNotations.
Open Scope R_scope.

(** a cell with the basis 1, x - center and one quadrature point of weight 8 in its center *)
Definition line (id : nat) : cell :=
  Cell id 1 (fun _ => V (2 * INR id) 0 0) (fun _ => 8)
    (fun x j => match j with 0%nat => 1 | _ => vx x - 2 * INR id end)
    (fun _ j => match j with 0%nat => v0 | _ => V 1 0 0 end)
    (fun _ _ => 0) (fun _ _ => v0).
Definition line_cell (ptr : nat) (adj : list nat) : dcell := dg_cell 2 2 ptr adj (line ptr).
(** the neighbour 2 of the second cell is a ghost cell *)
Definition line_cells : list dcell := [line_cell 0 [1]%nat; line_cell 1 [0; 2]%nat].
Definition line_state : state := State (fun _ _ _ => 5) (V 2 2 2).
Lemma line_ok : cells_ok 2 2 line_cells.
Proof.
  split; [|reflexivity]. intros c [<-|[<-|[]]]; left.
  - exists 0%nat, [1]%nat, (line 0). reflexivity.
  - exists 1%nat, [0; 2]%nat, (line 1). reflexivity.
Qed.

Definition cube : Nodal := box_nodal 2 0 0 (fun _ _ => 0).
Lemma cube_points : two_points 8 cube.
Proof. split; [|reflexivity]. cbn. lia. Qed.
Lemma cube_built : well_built cube.
Proof.
  assert (B : inverse_of (Lobatto_points 2) (box_matrix 2)) by (apply box_inverse; left; reflexivity).
  assert (D : NoDup (Lobatto_points 2)) by (cbn; repeat constructor; cbn; intuition lra).
  split; [left; reflexivity|]. split; [apply box_built|].
  split; [exact D|]. split; [exact D|]. split; [exact D|]. split; [exact B|]. split; [exact B|exact B].
Qed.
Lemma cube_flat q : (q < 8)%nat -> jacobian_det cube q <> 0 /\ jacobian_det_grad cube q = v0.
Proof.
  intros Q. split; [apply (box_det_nz 2 ltac:(left; reflexivity) 0 0 _ q); [left; reflexivity|exact Q]|].
  unfold jacobian_det_grad. assert (J : forall l, Jd cube l = 1).
  { intros l. change (Jd cube l) with (mdet (jacobian cube l)). unfold cube. rewrite box_jacobian.
    unfold mdet, det3, dot, cross. cbn [r0 r1 r2 vx vy vz]. ring. }
  rewrite (det_gradient_J1 cube) by (rewrite J; lra).
  assert (Z : forall a, (a < 3)%nat -> J1 cube a (point cube q) = 0).
  { intros a A. pose proof (J_along cube cube_built a (point cube q) A) as P. unfold along in P.
    refine (derivative_zero _ _ _ _ P). intros t. apply J. }
  rewrite !Z by lia. reflexivity.
Qed.
