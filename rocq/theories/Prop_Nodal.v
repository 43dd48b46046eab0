(** Properties C53, C76, C77: functions interpolated at the Gauss points of a hexahedron. *)
From Coq Require Import Reals List Arith Lia Lra.
From Verif Require Import Vec3 RSum Model_Basis Model_Shapes Model_Geometry Model_Nodal Spec_Shapes Spec_Nodal Proof_Shapes Proof_Geometry Proof_Maps Prop_Shapes Proof_NodalMain.
Import ListNotations.
Open Scope R_scope.

(** C53: if a function [f] of the global coordinates is, near a Gauss point, the value divided by the determinant,
    then [GetGlobalGradient] is its gradient; the same at any other point for [LocalToGlobalGradient], *)
Theorem C53_gradient p k f ijk g : well_built p -> orders_ok (n_basis p) 1 1 1 = true -> (ijk < b_N (n_basis p))%nat ->
  jacobian_det p ijk <> 0 -> represented (to_global p) (fun l => LocalToValue p l k) f (point p ijk) ->
  has_gradient f (to_global p (point p ijk)) g -> GetGlobalGradient p ijk k = Some g.
Proof. intros W O. exact (global_gradient p k W O f ijk g). Qed.
Print Assumptions C53_gradient.
Theorem C53_gradient_anywhere p k f l g : well_built p -> orders_ok (n_basis p) 1 1 1 = true ->
  mdet (jacobian p l) <> 0 -> represented (to_global p) (fun l => LocalToValue p l k) f l ->
  has_gradient f (to_global p l) g -> LocalToGlobalGradient p l k = Some g.
Proof. intros W O. exact (local_to_global_gradient p k W O f l g). Qed.
Print Assumptions C53_gradient_anywhere.
(** for the representation without the determinant, *)
Theorem C53_gradient_unweighted p k f ijk g : well_built p -> orders_ok (n_basis p) 1 1 1 = true -> (ijk < b_N (n_basis p))%nat ->
  mdet (jacobian p (point p ijk)) <> 0 -> represented (to_global p) (fun l => LocalToValue_global p l k) f (point p ijk) ->
  has_gradient f (to_global p (point p ijk)) g -> GetGlobalGradient_global p ijk k = Some g.
Proof. intros W O. exact (global_gradient_global p k W O f ijk g). Qed.
Print Assumptions C53_gradient_unweighted.
(** and [GetGlobalHessian] is the Hessian if there are three points in each direction *)
Theorem C53_hessian p k f ijk hx hy hz : well_built p -> orders_ok (n_basis p) 2 2 2 = true -> (ijk < b_N (n_basis p))%nat ->
  jacobian_det p ijk <> 0 -> represented (to_global p) (fun l => LocalToValue p l k) f (point p ijk) ->
  has_hessian (to_global p) f (point p ijk) hx hy hz ->
  GetGlobalHessian p ijk k = Some [vx hx; vx hy; vx hz; vy hy; vy hz; vz hz] /\
  vy hx = vx hy /\ vz hx = vx hz /\ vz hy = vy hz.
Proof.
  intros W O. refine (hessian_main p k W _ O f ijk hx hy hz).
  unfold orders_ok in *. apply andb_prop in O. destruct O as [O O3]. apply andb_prop in O. destruct O as [O1 O2].
  apply Nat.ltb_lt in O1, O2, O3. rewrite !(proj2 (Nat.ltb_lt _ _)) by lia. reflexivity.
Qed.
Print Assumptions C53_hessian.

(** C76: the rows of [GlobalFluxToLocalFlux] are the fluxes through the parallelograms of the coordinate lines *)
Theorem C76_local_flux p f ijk : jacobian_det p ijk <> 0 ->
  let row a := LocalToJacobian (h_element (n_cell p)) (n_nodes p) (vx (point p ijk)) (vy (point p ijk)) (vz (point p ijk)) a in
  GlobalFluxToLocalFlux p f ijk =
  V (dot f (cross (row 1%nat) (row 2%nat))) (dot f (cross (row 2%nat) (row 0%nat))) (dot f (cross (row 0%nat) (row 1%nat))).
Proof.
  intros N. cbv zeta. unfold GlobalFluxToLocalFlux, jacobian_det_inv, minv, jacobian, rows in *.
  change (mdet (jacobian p (point p ijk))) with (jacobian_det p ijk).
  unfold jacobian_det, jacobian, rows in *.
  set (a := LocalToJacobian _ _ _ _ _ 0) in *. set (b := LocalToJacobian _ _ _ _ _ 1) in *. set (c := LocalToJacobian _ _ _ _ _ 2) in *.
  generalize dependent (mdet (M3 a b c)). intros d N. cbn [r0 r1 r2].
  generalize (cross b c) (cross c a) (cross a b). intros [x0 x1 x2] [y0 y1 y2] [z0 z1 z2].
  unfold rmul, mscale, of_columns, vadd, vscale, dot. cbn [r0 r1 r2 vx vy vz]. apply vec_eq; cbn [vx vy vz]; field; exact N.
Qed.
Print Assumptions C76_local_flux.

(** C77: [Approximate] followed by [GetValue], or by [LocalToValue] at the Gauss point, gives the value of the function there *)
Theorem C77_approximate p u ijk k : well_built p -> (ijk < b_N (n_basis p))%nat ->
  (jacobian_det p ijk <> 0 ->
   GetValue (Approximate p u) ijk k = u (to_global p (point p ijk)) k /\
   LocalToValue (Approximate p u) (point p ijk) k = u (to_global p (point p ijk)) k) /\
  GetValue_global (Approximate_global p u) ijk k = u (to_global p (point p ijk)) k /\
  LocalToValue_global (Approximate_global p u) (point p ijk) k = u (to_global p (point p ijk)) k.
Proof.
  intros W L. split; [|split; [reflexivity|]].
  - intros N. assert (GetValue (Approximate p u) ijk k = u (to_global p (point p ijk)) k) as E.
    { unfold GetValue, Approximate. cbn [n_coeff].
      change (u (to_global p (point p ijk)) k * jacobian_det p ijk / jacobian_det p ijk = u (to_global p (point p ijk)) k). field. exact N. }
    split; [exact E|]. rewrite <- E. exact (value_of_GetValue (Approximate p u) k W ijk L).
  - exact (value_of_GetValue_global (Approximate_global p u) k W ijk L).
Qed.
Print Assumptions C77_approximate.

(** ** examples *)
(** the hexahedron that is the image of the cube under (x, y, z) -> (2 x + y, y, z) *)
Definition ex_nodes : list vec := image Hexahedron8 (affine v0 (V 2 0 0) (V 1 1 0) (V 0 0 1)).
Definition ex_M3 : nat -> nat -> R := fun k i => nth i (nth k [[0; 1; 0]; [- (1/2); 0; 1/2]; [1/2; -1; 1/2]] []) 0.
Definition ex_M2 : nat -> nat -> R := fun k i => nth i (nth k [[1/2; 1/2]; [- (1/2); 1/2]] []) 0.
Definition ex_basis3 : Basis := mkBasis [-1; 0; 1] [-1; 0; 1] [-1; 0; 1] ex_M3 ex_M3 ex_M3.
Definition ex_basis2 : Basis := mkBasis [-1; 1] [-1; 1] [-1; 1] ex_M2 ex_M2 ex_M2.
Definition ex (b : Basis) (u : vec -> nat -> R) : Nodal := Approximate (mkNodal Hexa8 ex_nodes b (fun _ _ => 0)) u.
Lemma ex_global b u l : to_global (ex b u) l = V (2 * vx l + vy l) (vy l) (vz l).
Proof.
  unfold to_global, ex, Approximate. cbn [n_cell n_nodes h_element Hexa8].
  rewrite (C44_affine_maps_reproduced Hexahedron8 ex_nodes v0 (V 2 0 0) (V 1 1 0) (V 0 0 1)).
  - unfold affine, vadd, vscale, v0. cbn. apply vec_eq; cbn [vx vy vz]; ring.
  - unfold linear_elements. cbn. tauto.
  - reflexivity.
  - intros i Hi. unfold ex_nodes. do 8 (destruct i as [|i]; [reflexivity|]). cbn in Hi. lia.
Qed.
Lemma ex_jacobian b u l : jacobian (ex b u) l = M3 (V 2 0 0) (V 1 1 0) (V 0 0 1).
Proof.
  unfold jacobian, ex, Approximate, rows. cbn [n_cell n_nodes h_element Hexa8].
  destruct l as [x y z]. cbn [vx vy vz].
  f_equal; apply vec_eq; cbn; unfold Q2R; cbn; field.
Qed.
Lemma ex_det b u l : mdet (jacobian (ex b u) l) = 2.
Proof. rewrite ex_jacobian. unfold mdet, det3, dot, cross. cbn [r0 r1 r2 vx vy vz]. ring. Qed.
Lemma ex_well3 u : well_built (ex ex_basis3 u).
Proof.
  assert (NoDup [-1; 0; 1]) as D by (repeat constructor; cbn; intuition lra).
  assert (inverse_of [-1; 0; 1] ex_M3) as I.
  { intros i j Li Lj. cbn [length] in Li, Lj. destruct i as [|[|[|i]]]; [| | |lia]; (destruct j as [|[|[|j]]]; [| | |lia]);
      unfold taylor_to_lagrange, Taylor1_GetValues, ex_M3; cbn [length Nat.sub powers nth rsum Nat.eqb]; field. }
  repeat split; auto. cbn. tauto.
Qed.
Lemma ex_well2 u : well_built (ex ex_basis2 u).
Proof.
  assert (NoDup [-1; 1]) as D by (repeat constructor; cbn; intuition lra).
  assert (inverse_of [-1; 1] ex_M2) as I.
  { intros i j Li Lj. cbn [length] in Li, Lj. destruct i as [|[|i]]; [| |lia]; (destruct j as [|[|j]]; [| |lia]);
      unfold taylor_to_lagrange, Taylor1_GetValues, ex_M2; cbn [length Nat.sub powers nth rsum Nat.eqb]; field. }
  repeat split; auto. cbn. tauto.
Qed.
(** the product of the first two coordinates, and its derivatives *)
Definition ex_u (q : vec) (_ : nat) : R := vx q * vy q.
Lemma ex_represented l : represented (to_global (ex ex_basis3 ex_u)) (fun l => LocalToValue (ex ex_basis3 ex_u) l 0) (fun q => ex_u q 0) l.
Proof.
  exists 1. split; [lra|]. intros l' _. rewrite ex_global. unfold LocalToValue. rewrite ex_det. destruct l' as [x y z]. unfold combine_with.
  cbn [vx vy vz]. change (ex_u (V (2 * x + y) y z) 0) with ((2 * x + y) * y).
  rewrite (rsum_ext _ _ (fun n => 2 * ex_u (to_global (ex ex_basis3 ex_u) (local_coord ex_basis3 n)) 0 * nth n (GetValues ex_basis3 x y z) 0)).
  2: { intros n _. f_equal. change (n_coeff (ex ex_basis3 ex_u) 0 n) with
       (ex_u (to_global (ex ex_basis3 ex_u) (local_coord ex_basis3 n)) 0 * mdet (jacobian (ex ex_basis3 ex_u) (local_coord ex_basis3 n))).
       rewrite ex_det. ring. }
  change (b_N (n_basis (ex ex_basis3 ex_u))) with 27%nat.
  rewrite (rsum_ext _ _ (fun n => 2 * ((2 * vx (local_coord ex_basis3 n) + vy (local_coord ex_basis3 n)) * vy (local_coord ex_basis3 n)) * nth n (GetValues ex_basis3 x y z) 0))
    by (intros n _; rewrite ex_global; reflexivity).
  assert (forall t, Line_GetValues [-1; 0; 1] t = [t * (t - 1) / 2; 1 - t * t; t * (t + 1) / 2]) as E.
  { intros t. unfold Line_GetValues, Line_value. cbn [length seq map fold_left nth Nat.eqb]. f_equal; [field|f_equal; [field|f_equal; field]]. }
  unfold GetValues, Hexa_GetValues, ex_basis3. cbn [b_x b_y b_z]. rewrite !E. unfold Hexa_products. cbn [flat_map map app].
  unfold local_coord. cbn [b_x b_y b_z length].
  cbn [rsum Hexa_index_inv Nat.modulo Nat.div Nat.divmod fst snd Nat.sub nth vx vy vz]. field.
Qed.
Lemma length3_component v : Rabs (vx v) <= length3 v /\ Rabs (vy v) <= length3 v /\ Rabs (vz v) <= length3 v.
Proof.
  unfold length3, dot. pose proof (Rle_0_sqr (vx v)). pose proof (Rle_0_sqr (vy v)). pose proof (Rle_0_sqr (vz v)). unfold Rsqr in *.
  rewrite <- !sqrt_Rsqr_abs. unfold Rsqr. repeat split; apply sqrt_le_1_alt; lra.
Qed.
Lemma linear_gradient g p : has_gradient (fun q => dot g q) p g.
Proof.
  intros eps He. exists 1. split; [lra|]. intros d _.
  replace (dot g (vadd p d) - dot g p - dot g d) with 0 by (unfold dot, vadd; cbn [vx vy vz]; ring).
  rewrite Rabs_R0. apply Rmult_le_pos; [lra|apply sqrt_pos].
Qed.
Lemma gradient_ext f f' p g : (forall q, f q = f' q) -> has_gradient f p g -> has_gradient f' p g.
Proof. intros E H eps He. destruct (H eps He) as (d & Hd & K). exists d. split; [exact Hd|]. intros v Hv. rewrite <- !E. apply K, Hv. Qed.
Lemma product_gradient p : has_gradient (fun q => ex_u q 0) p (V (vy p) (vx p) 0).
Proof.
  intros eps He. exists eps. split; [exact He|]. intros d Hd. unfold ex_u, vadd, dot. cbn [vx vy vz].
  replace ((vx p + vx d) * (vy p + vy d) - vx p * vy p - (vy p * vx d + vx p * vy d + 0 * vz d)) with (vx d * vy d) by ring.
  rewrite Rabs_mult. destruct (length3_component d) as (A & B & _). pose proof (Rabs_pos (vx d)). pose proof (Rabs_pos (vy d)). 
  apply Rle_trans with (length3 d * length3 d); [apply Rmult_le_compat; assumption|].
  apply Rmult_le_compat_r; lra.
Qed.
Lemma product_hessian X l : has_hessian X (fun q => ex_u q 0) l (V 0 1 0) (V 1 0 0) (V 0 0 0).
Proof.
  exists (fun q => V (vy q) (vx q) 0), 1. split; [lra|]. split; [intros; apply product_gradient|]. cbn [vx vy vz]. split; [|split].
  - apply (gradient_ext (dot (V 0 1 0))); [|apply linear_gradient]. intros q. unfold dot. cbn [vx vy vz]. ring.
  - apply (gradient_ext (dot (V 1 0 0))); [|apply linear_gradient]. intros q. unfold dot. cbn [vx vy vz]. ring.
  - apply (gradient_ext (dot (V 0 0 0))); [|apply linear_gradient]. intros q. unfold dot. cbn [vx vy vz]. ring.
Qed.
(** the function x y on the skew hexahedron, at the corner (3, 1, 1) *)
Example C53_nonvacuous :
  well_built (ex ex_basis3 ex_u) /\ to_global (ex ex_basis3 ex_u) (point (ex ex_basis3 ex_u) 26) = V 3 1 1 /\
  GetGlobalGradient (ex ex_basis3 ex_u) 26 0 = Some (V 1 3 0) /\
  GetGlobalHessian (ex ex_basis3 ex_u) 26 0 = Some [0; 1; 0; 0; 0; 0].
Proof.
  assert (to_global (ex ex_basis3 ex_u) (point (ex ex_basis3 ex_u) 26) = V 3 1 1) as E.
  { rewrite ex_global. cbn. apply vec_eq; cbn [vx vy vz]; ring. }
  split; [apply ex_well3|]. split; [exact E|]. split.
  - apply (C53_gradient _ _ (fun q => ex_u q 0)); [apply ex_well3|reflexivity|cbn; lia| |apply ex_represented|].
    + unfold jacobian_det. rewrite ex_det. lra.
    + rewrite E. exact (product_gradient (V 3 1 1)).
  - refine (proj1 (C53_hessian _ _ (fun q => ex_u q 0) _ (V 0 1 0) (V 1 0 0) (V 0 0 0) _ _ _ _ _ _)); [apply ex_well3|reflexivity|cbn; lia| |apply ex_represented|apply product_hessian].
    unfold jacobian_det. rewrite ex_det. lra.
Qed.

(** C53 is false for two points in each direction (polynomials of degree one): the second derivatives of the
    basis are read beyond the end of the array of lagrange.hpp line 188 *)
Theorem C53_hessian_refuted : exists p f ijk hx hy hz, well_built p /\ orders_ok (n_basis p) 1 1 1 = true /\ (ijk < b_N (n_basis p))%nat /\
  jacobian_det p ijk <> 0 /\ represented (to_global p) (fun l => LocalToValue p l 0) f (point p ijk) /\
  has_hessian (to_global p) f (point p ijk) hx hy hz /\ GetGlobalHessian p ijk 0 = None.
Proof.
  exists (ex ex_basis2 (fun _ _ => 1)), (fun _ => 1), 0%nat, v0, v0, v0. split; [apply ex_well2|]. split; [reflexivity|]. split; [cbn; lia|].
  split; [unfold jacobian_det; rewrite ex_det; lra|]. split; [|split; [|reflexivity]].
  - exists 1. split; [lra|]. intros l' _. unfold LocalToValue. rewrite ex_det. destruct l' as [x y z]. unfold combine_with. cbn [vx vy vz].
    rewrite (rsum_ext _ _ (fun n => 2 * nth n (GetValues ex_basis2 x y z) 0)).
    2: { intros n _. f_equal. change (n_coeff (ex ex_basis2 (fun _ _ => 1)) 0 n) with
       (1 * mdet (jacobian (ex ex_basis2 (fun _ _ => 1)) (local_coord ex_basis2 n))). rewrite ex_det. ring. }
    change (b_N (n_basis (ex ex_basis2 (fun _ _ => 1)))) with 8%nat.
    assert (forall t, Line_GetValues [-1; 1] t = [(1 - t) / 2; (1 + t) / 2]) as E.
    { intros t. unfold Line_GetValues, Line_value. cbn [length seq map fold_left nth Nat.eqb]. f_equal; [field|f_equal; field]. }
    unfold GetValues, Hexa_GetValues, ex_basis2. cbn [b_x b_y b_z]. rewrite !E. unfold Hexa_products. cbn [flat_map map app rsum nth]. field.
  - exists (fun _ => v0), 1. split; [lra|].
    assert (forall c p, has_gradient (fun _ => c) p v0) as Z.
    { intros c p. apply (gradient_ext (fun q => dot v0 q + c)); [intros q; unfold dot, v0; cbn [vx vy vz]; ring|].
      intros eps He. destruct (linear_gradient v0 p eps He) as (d & Hd & K). exists d. split; [exact Hd|]. intros v Hv.
      replace (dot v0 (vadd p v) + c - (dot v0 p + c) - dot v0 v) with (dot v0 (vadd p v) - dot v0 p - dot v0 v) by ring. apply K, Hv. }
    split; [intros; apply Z|]. split; [|split]; apply Z.
Qed.
Print Assumptions C53_hessian_refuted.

Example C76_nonvacuous : jacobian_det (ex ex_basis3 ex_u) 0 <> 0 /\ GlobalFluxToLocalFlux (ex ex_basis3 ex_u) (V 5 7 11) 0 = V (-2) 14 22.
Proof.
  assert (jacobian_det (ex ex_basis3 ex_u) 0 <> 0) as N by (unfold jacobian_det; rewrite ex_det; lra). split; [exact N|].
  rewrite C76_local_flux by exact N. cbv zeta. pose proof (ex_jacobian ex_basis3 ex_u (point (ex ex_basis3 ex_u) 0)) as E.
  pose proof (f_equal r0 E) as E0. pose proof (f_equal r1 E) as E1. pose proof (f_equal r2 E) as E2. unfold jacobian, rows in E0, E1, E2. cbn [r0 r1 r2] in E0, E1, E2.
  rewrite E0, E1, E2. unfold dot, cross. cbn [vx vy vz]. apply vec_eq; cbn [vx vy vz]; ring.
Qed.
Example C77_nonvacuous : GetValue (ex ex_basis3 ex_u) 26 0 = 3 /\ LocalToValue (ex ex_basis3 ex_u) (V (1/2) (1/3) 0) 0 = 4/9.
Proof.
  split.
  - unfold GetValue, jacobian_det. rewrite ex_det. change (n_coeff (ex ex_basis3 ex_u) 0 26) with
      (ex_u (to_global (ex ex_basis3 ex_u) (point (ex ex_basis3 ex_u) 26)) 0 * mdet (jacobian (ex ex_basis3 ex_u) (point (ex ex_basis3 ex_u) 26))).
    rewrite ex_det, ex_global. unfold ex_u. cbn. field.
  - destruct (ex_represented (V (1/2) (1/3) 0)) as (r & Hr & E). rewrite <- E.
    + rewrite ex_global. unfold ex_u. cbn [vx vy vz]. field.
    + unfold near. rewrite !Rminus_diag_eq, !Rabs_R0 by reflexivity. auto.
Qed.
