(** Property theorems C97-C99: the damping matrices of artificial viscosity. *)
From Coq Require Import Reals List Arith Lia Lra.
From Verif Require Import Vec3 Arrays RSum Model_Geometry Model_Basis Model_Nodal Model_Dofs Model_DG Model_Gauss Model_Diffusive Model_Schemes
  Model_Damping Spec_Basis Spec_Shapes Spec_Nodal Spec_Damping Proof_Damping Proof_DampingMain Sample_Damping.
Import ListNotations.
Open Scope R_scope.

(** C97: whatever the solution, the coefficient and the initial content of the matrices, the call returns a matrix for every
    local cell, which turns the coefficients of any function into what the scheme adds to the residual for
    the flux of diffusion with coefficient 1, for every component. *)
Theorem C97_matrices : forall K N garbage cells s, (0 < K)%nat -> cells_ok K N cells ->
  exists s' ms, BuildDampingMatrices K N garbage cells s = Some (s', ms)
    /\ List.length ms = List.length cells
    /\ forall c, In c cells -> exists D, nth_error ms (d_id c) = Some D /\ damps K N c D.
Proof.
  intros K N garbage cells s K0 C. destruct (build_total K N K0 garbage cells s C) as (s' & ms & E & _ & L & D & _).
  exists s', ms. split; [exact E|]. split; [exact L|exact D].
Qed.
Print Assumptions C97_matrices.

(** C97: there is only one such matrix, so that the matrices depend on the geometry alone: not on the solution, the
    coefficient of diffusion, the other cells, or the order of the cells. *)
Theorem C97_only_geometry : forall K N garbage garbage' cells cells' s s' t t' ms ms' c D D',
  (0 < K)%nat -> cells_ok K N cells -> cells_ok K N cells' ->
  BuildDampingMatrices K N garbage cells s = Some (t, ms) ->
  BuildDampingMatrices K N garbage' cells' s' = Some (t', ms') ->
  In c cells -> In c cells' ->
  nth_error ms (d_id c) = Some D -> nth_error ms' (d_id c) = Some D' ->
  forall j i, (j < N)%nat -> (i < N)%nat -> D j i = D' j i.
Proof.
  intros K N garbage garbage' cells cells' s s' t t' ms ms' c D D' K0 C C' B B' I I' E E' j i J Li.
  destruct (C97_matrices K N garbage cells s K0 C) as (x & y & B1 & _ & M). rewrite B in B1. injection B1 as <- <-.
  destruct (C97_matrices K N garbage' cells' s' K0 C') as (x & y & B1 & _ & M'). rewrite B' in B1. injection B1 as <- <-.
  destruct (M c I) as (d & E1 & A). rewrite E in E1. injection E1 as <-.
  destruct (M' c I') as (d & E1 & A'). rewrite E' in E1. injection E1 as <-.
  destruct C as [S _]. exact (damps_unique K N K0 c D D' (S c I) A A' j i J Li).
Qed.
Print Assumptions C97_only_geometry.

(** C98: the matrix does not damp functions without gradients, in any scheme. *)
Theorem C98_constants : forall K N c D u r, (0 < K)%nat -> scheme_cell K N c -> damps K N c D -> (r < K)%nat ->
  (forall q, (q < d_points c)%nat -> exists g, d_gradient c u q = Some g /\ g r = v0) ->
  forall j, (j < N)%nat -> rsum N (fun i => D j i * u r i) = 0.
Proof. exact (fun K N c D u r K0 => gradient_free K N c D u r). Qed.
Print Assumptions C98_constants.

(** C98, discontinuous Galerkin with modes: the matrix is symmetric, the energy it takes away is the integral of the square
    of the gradient, and the mean is not changed. *)
Theorem C98_modal : forall K N ptr adj c D, (0 < K)%nat -> damps K N (dg_cell K N ptr adj c) D ->
  (forall j i, (j < N)%nat -> (i < N)%nat -> D j i = D i j)
  /\ (forall u r g, (forall q, (q < c_points c)%nat -> d_gradient (dg_cell K N ptr adj c) u q = Some (g q)) ->
        quadratic N D (u r) = - energy (c_points c) (c_weight c) (fun q => g q r))
  /\ ((forall x, c_gradients c x 0%nat = v0) -> forall i, (0 < N)%nat -> (i < N)%nat -> D 0%nat i = 0).
Proof. exact (fun K N ptr adj c D K0 => dg_energy K N K0 ptr adj c D). Qed.
Print Assumptions C98_modal.

(** C98, discontinuous Galerkin with values at Gauss-Lobatto points: the same; where the basis is transformed with the
    Jacobian determinant, this needs a determinant that does not vary in the cell. *)
Theorem C98_nodal : forall K N kLocal ptr adj id w p D, (0 < K)%nat -> two_points N p ->
  damps K N (lobatto_cell K N kLocal ptr adj id w p) D ->
  (kLocal = true -> forall q, (q < N)%nat -> jacobian_det p q <> 0 /\ jacobian_det_grad p q = v0) ->
  (forall j i, (j < N)%nat -> (i < N)%nat -> D j i = D i j)
  /\ (forall u r g, (forall q, (q < N)%nat -> d_gradient (lobatto_cell K N kLocal ptr adj id w p) u q = Some (g q)) ->
        quadratic N D (u r)
        = - energy N (fun q => w q * jacobian_det p q * if kLocal then jacobian_det p q else 1) (fun q => g q r)).
Proof.
  intros K N kLocal ptr adj id w p D K0 T A F. destruct (lobatto_energy K N K0 kLocal ptr adj id w p D T A F) as [S E].
  split; [exact S|]. intros u r g G. rewrite (E u r g G). f_equal. unfold energy. apply rsum_ext. intros q _.
  unfold lobatto_weight. destruct kLocal; ring.
Qed.
Print Assumptions C98_nodal.

(** C98: what is taken from one point is given to others, on every hexahedron. *)
Theorem C98_nodal_sum : forall K N kLocal ptr adj id w p D, (0 < K)%nat -> well_built p -> two_points N p ->
  damps K N (lobatto_cell K N kLocal ptr adj id w p) D ->
  forall i, (i < N)%nat -> rsum N (fun j => D j i) = 0.
Proof. exact (fun K N kLocal ptr adj id w p D K0 => lobatto_conserves K N K0 kLocal ptr adj id w p D). Qed.
Print Assumptions C98_nodal_sum.

(** the energy is never negative for positive weights, and is zero only if the gradient is zero at all points *)
Theorem C98_energy_sign : forall n weight g, (forall q, (q < n)%nat -> 0 < weight q) ->
  0 <= energy n weight g /\ (energy n weight g = 0 -> forall q, (q < n)%nat -> g q = v0).
Proof.
  intros n weight g P.
  assert (Z : forall q, (q < n)%nat -> 0 <= weight q * dot (g q) (g q)).
  { intros q Q. apply Rmult_le_pos; [apply Rlt_le, P, Q|]. unfold dot. nra. }
  split; [apply rsum_nonneg; exact Z|]. intros E q Q.
  pose proof (rsum_zero_each n _ Z E q Q) as H. cbv beta in H. pose proof (P q Q).
  assert (D0 : dot (g q) (g q) = 0) by (apply Rmult_integral in H; destruct H; [lra|assumption]).
  destruct (g q) as [x y z]. unfold dot in D0. cbn [vx vy vz] in D0.
  assert (x = 0) by nra. assert (y = 0) by nra. assert (z = 0) by nra. subst. reflexivity.
Qed.
Print Assumptions C98_energy_sign.

(** C99 is false: the call destroys the solution of the cells and sets the coefficient of diffusion to 1, though the function
    is a constant member function that returns its results. *)
Theorem C99_side_effects_refuted : exists K N garbage cells s s' ms, (0 < K)%nat /\ cells_ok K N cells
  /\ BuildDampingMatrices K N garbage cells s = Some (s', ms)
  /\ nu_ s' <> nu_ s
  /\ exists c r j, In c cells /\ (r < K)%nat /\ (j < N)%nat /\ coeffs s' (d_ptr c) r j <> coeffs s (d_ptr c) r j.
Proof.
  destruct (build_total 2 2 ltac:(lia) (fun _ _ => 0) line_cells line_state line_ok) as (s' & ms & E & Nu & _ & _ & _ & La).
  exists 2%nat, 2%nat, (fun _ _ => 0), line_cells, line_state, s', ms. split; [lia|]. split; [exact line_ok|]. split; [exact E|].
  split.
  - rewrite Nu. intros X. apply (f_equal vx) in X. cbn in X. lra.
  - exists (line_cell 1 [0; 2]%nat), 0%nat, 1%nat. split; [right; left; reflexivity|]. split; [lia|]. split; [lia|].
    rewrite (La [line_cell 0 [1]%nat] (line_cell 1 [0; 2]%nat) [] (d_ptr (line_cell 1 [0; 2]%nat)) eq_refl);
      [|intros c []|left; reflexivity|lia].
    cbn. lra.
Qed.
Print Assumptions C99_side_effects_refuted.

(** C99, what holds instead: cells that are neither local nor neighbours of local cells keep their solution; all others lose it:
    the last cell in the loop that touches a cell leaves zeros there, except for ones in its own last column. *)
Theorem C99_side_effects_partial : forall K N garbage cells s, (0 < K)%nat -> cells_ok K N cells ->
  exists s' ms, BuildDampingMatrices K N garbage cells s = Some (s', ms)
    /\ nu_ s' = V 1 1 1
    /\ (forall p, (forall c, In c cells -> p <> d_ptr c /\ ~ In p (d_adj c)) -> coeffs s' p = coeffs s p)
    /\ (forall before c after p, cells = before ++ c :: after ->
          (forall c', In c' after -> p <> d_ptr c' /\ ~ In p (d_adj c')) ->
          p = d_ptr c \/ In p (d_adj c) ->
          forall r j, (j < N)%nat -> coeffs s' p r j = if ((p =? d_ptr c) && (S j =? N))%nat%bool then 1 else 0).
Proof.
  intros K N garbage cells s K0 C. destruct (build_total K N K0 garbage cells s C) as (s' & ms & E & Nu & _ & _ & U & La).
  exists s', ms. split; [exact E|]. split; [exact Nu|]. split.
  - intros p H. apply U. intros c I [X|X]; destruct (H c I); contradiction.
  - intros l1 c l2 p El H T. apply (La l1 c l2 p El); [|exact T]. intros c' I [X|X]; destruct (H c' I); contradiction.
Qed.
Print Assumptions C99_side_effects_partial.

(** two cells in a row with the basis 1, x and a ghost cell at the end: the matrix is 0, 0; 0, -8 for a volume of 8 *)
Example C97_C98_C99_example : cells_ok 2 2 line_cells
  /\ (forall garbage, exists s' ms D, BuildDampingMatrices 2 2 garbage line_cells line_state = Some (s', ms)
        /\ nth_error ms 1 = Some D
        /\ D 0%nat 0%nat = 0 /\ D 0%nat 1%nat = 0 /\ D 1%nat 0%nat = 0 /\ D 1%nat 1%nat = -8
        /\ coeffs s' 0%nat 1%nat 1%nat = 0 /\ coeffs s' 1%nat 0%nat 1%nat = 1 /\ coeffs s' 2%nat 0%nat 0%nat = 0)
  /\ quadratic 2 (fun j i => if ((j =? 1) && (i =? 1))%nat%bool then -8 else 0) (fun _ => 3) = -72.
Proof.
  split; [exact line_ok|]. split.
  - intros garbage.
    destruct (build_total 2 2 ltac:(lia) garbage line_cells line_state line_ok) as (s' & ms & E & Nu & _ & Ds & _ & La).
    destruct (Ds (line_cell 1 [0; 2]%nat)) as (D & ED & A); [right; left; reflexivity|].
    exists s', ms, D. split; [exact E|]. split; [exact ED|].
    assert (X : forall j i, (j < 2)%nat -> (i < 2)%nat -> D j i = entry (line_cell 1 [0; 2]%nat) (dg_G (line 1)) (dg_W (line 1)) j i).
    { intros j i J I. exact (damps_entry 2 2 _ _ _ (dg_linear 2 2 1 [0; 2]%nat (line 1)) D j i ltac:(lia) A J I). }
    split; [rewrite X by lia; unfold entry, dg_W, dot, vscale, v0; cbn; lra|]. split; [rewrite X by lia; unfold entry, dg_W, dot, vscale, v0; cbn; lra|]. split; [rewrite X by lia; unfold entry, dg_W, dot, vscale, v0; cbn; lra|].
    split; [rewrite X by lia; unfold entry, dg_W, dot, vscale, v0; cbn; lra|].
    pose proof (La [line_cell 0 [1]%nat] (line_cell 1 [0; 2]%nat) []) as L.
    split; [|split].
    + rewrite (L 0%nat eq_refl); [reflexivity|intros c []|right; left; reflexivity|lia].
    + rewrite (L 1%nat eq_refl); [reflexivity|intros c []|left; reflexivity|lia].
    + rewrite (L 2%nat eq_refl); [reflexivity|intros c []|right; right; left; reflexivity|lia].
  - unfold quadratic. cbn. lra.
Qed.

(** a cube with two points on every line: the hypotheses of C98_nodal and C98_nodal_sum hold, and the cells of the
    other two schemes on it are accepted by C97 *)
Example C97_C98_cube : well_built cube /\ two_points 8 cube
  /\ (forall q, (q < 8)%nat -> jacobian_det cube q <> 0 /\ jacobian_det_grad cube q = v0)
  /\ forall kLocal w, cells_ok 3 8 [lobatto_cell 3 8 kLocal 0 [] 0 w cube; fr_cell 3 8 1 [] 1 w cube].
Proof.
  split; [exact cube_built|]. split; [exact cube_points|]. split; [exact cube_flat|].
  intros kLocal w. split; [|reflexivity]. intros c [<-|[<-|[]]].
  - right. left. exists kLocal, 0%nat, [], 0%nat, w, cube. split; [reflexivity|exact cube_points].
  - right. right. exists 1%nat, [], 1%nat, w, cube. split; [reflexivity|exact cube_points].
Qed.
