(** The gradients of the basis of a cell with an orthonormal Taylor basis are the gradients of its values. *)
From Coq Require Import Reals Lra Lia List Arith.
From Verif Require Import Vec3 RSum Model_Basis Spec_Basis Proof_Vincent Prop_Basis Model_Projection Spec_Projection Proof_Projection
  Model_Dofs Model_DG Model_Reconstruct Model_Simulation Model_Taylor_cell.
Import ListNotations.
Open Scope R_scope.

Lemma shift_lim f a x d : derivable_pt_lim f (x - a) d -> derivable_pt_lim (fun t => f (t - a)) x d.
Proof.
  intros H eps E. destruct (H eps E) as [del D]. exists del. intros h Z L.
  replace (x + h - a) with (x - a + h) by ring. apply D; assumption.
Qed.
Lemma ext_lim f g x d : (forall t, f t = g t) -> derivable_pt_lim f x d -> derivable_pt_lim g x d.
Proof. intros E H eps P. destruct (H eps P) as [del D]. exists del. intros h Z L. rewrite <- !E. apply D; assumption. Qed.

Lemma partial_shift a f g x y z d cx cy cz : (forall x y z, g x y z = f (x - cx) (y - cy) (z - cz)) ->
  is_partial [a] f (x - cx) (y - cy) (z - cz) d -> is_partial [a] g x y z d.
Proof.
  intros E (h & H & ->). exists (fun x y z => h (x - cx) (y - cy) (z - cz)). split; [|reflexivity].
  intros x' y' z'. specialize (H (x' - cx) (y' - cy) (z' - cz)). destruct a.
  - apply (ext_lim (fun t => f (t - cx) (y' - cy) (z' - cz))); [intros; symmetry; apply E|].
    apply (shift_lim (fun t => f t (y' - cy) (z' - cz))). exact H.
  - apply (ext_lim (fun t => f (x' - cx) (t - cy) (z' - cz))); [intros; symmetry; apply E|].
    apply (shift_lim (fun t => f (x' - cx) t (z' - cz))). exact H.
  - apply (ext_lim (fun t => f (x' - cx) (y' - cy) (t - cz))); [intros; symmetry; apply E|].
    apply (shift_lim (fun t => f (x' - cx) (y' - cy) t)). exact H.
Qed.

Lemma taylor_cell_gradient k id b j x y z : (k <= 3)%nat -> (j < Taylor3_N k)%nat ->
  let f x y z := g_basis (taylor_cell k id b) (V x y z) j in
  let g := g_gradients (taylor_cell k id b) (V x y z) j in
  is_partial [AX] f x y z (vx g) /\ is_partial [AY] f x y z (vy g) /\ is_partial [AZ] f x y z (vz g).
Proof.
  intros Lk Lj f g.
  assert (E : forall x y z, f x y z = combination k (o_coeff b j) (x - vx (o_center b)) (y - vy (o_center b)) (z - vz (o_center b))).
  { intros x' y' z'. unfold f. cbn [taylor_cell g_basis].
    rewrite (proj1 (proj2 (C51_taylor_values_and_gradient k (o_coeff b j) _ _ _ Lk))).
    unfold OrthoNormal_at, OrthoNormal_call. rewrite mat_vec_nth by exact Lj. reflexivity. }
  destruct (C51_taylor_values_and_gradient k (o_coeff b j) (x - vx (o_center b)) (y - vy (o_center b)) (z - vz (o_center b)) Lk)
    as (_ & _ & PX & PY & PZ).
  split; [|split]; (eapply partial_shift; [exact E|]); [exact PX|exact PY|exact PZ].
Qed.
