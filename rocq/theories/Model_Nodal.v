(** Model of the functions interpolated at the Gauss points of a hexahedron
    (/repo/include/mini/polynomial/hexahedron.hpp).

    Simplifications: [Scalar] is [R]; the rows of the matrix of coefficients are functions of the component and
    of the point; a matrix of gradients (3 rows) is a vector per component; the caches of the constructor are
    functions of the point that are evaluated when they are read (they depend on constants only). *)
From Coq Require Import Reals List Arith.
From Verif Require Import Vec3 RSum Model_Basis Model_Shapes Model_Geometry.
Import ListNotations.
Open Scope R_scope.

(** Eigen's [transpose], sums, multiples and matrix times column *)
Definition mtranspose (m : mat3) : mat3 := of_columns (r0 m) (r1 m) (r2 m).
Definition madd (m n : mat3) : mat3 := M3 (vadd (r0 m) (r0 n)) (vadd (r1 m) (r1 n)) (vadd (r2 m) (r2 n)).
Definition mscale (c : R) (m : mat3) : mat3 := M3 (vscale c (r0 m)) (vscale c (r1 m)) (vscale c (r2 m)).
Definition mcol (m : mat3) (v : vec) : vec := V (dot (r0 m) v) (dot (r1 m) v) (dot (r2 m) v).

(** the interpolation basis (line 126, lines 127-133): the points of the three rules, and the matrices
    [lagrange_to_taylor_] of the three lines *)
Record Basis := mkBasis {
  b_x : list R; b_y : list R; b_z : list R;
  b_mx : nat -> nat -> R; b_my : nat -> nat -> R; b_mz : nat -> nat -> R
}.
Definition b_N (b : Basis) : nat := (length (b_x b) * length (b_y b) * length (b_z b))%nat.
Definition GetValues (b : Basis) (x y z : R) : list R := Hexa_GetValues (b_x b) (b_y b) (b_z b) x y z.
(** lagrange.hpp lines 311-328 and taylor.hpp line 64: the assertion fails for an order above the degree *)
Definition orders_ok (b : Basis) (i j k : nat) : bool :=
  (Nat.ltb i (length (b_x b)) && Nat.ltb j (length (b_y b)) && Nat.ltb k (length (b_z b)))%bool.
Definition GetDerivatives (b : Basis) (i j k : nat) (x y z : R) : option (list R) :=
  if orders_ok b i j k then Some (Hexa_GetDerivatives (b_x b) (b_y b) (b_z b) (b_mx b) (b_my b) (b_mz b) i j k x y z) else None.
(** gauss/hexahedron.hpp line 104 [GetLocalCoord]; lagrange.hpp lines 223-226 and 258-262: the same points *)
Definition local_coord (b : Basis) (ijk : nat) : vec :=
  let '(i, j, k) := Hexa_index_inv (length (b_y b)) (length (b_z b)) ijk in
  V (nth i (b_x b) 0) (nth j (b_y b) 0) (nth k (b_z b) 0).
(** lagrange.hpp lines 188-208 and 356-358: the derivatives cached at the nodes in an array of
    I x J x K x ... entries; reading it outside its bounds is undefined *)
Definition GetDerivatives_at (b : Basis) (i j k : nat) (ijk : nat) : option (list R) :=
  let l := local_coord b ijk in GetDerivatives b i j k (vx l) (vy l) (vz l).

(** the column [abc] of a matrix with three rows *)
Definition column3 (rows : list R * list R * list R) (abc : nat) : vec :=
  let '(x, y, z) := rows in V (nth abc x 0) (nth abc y 0) (nth abc z 0).
(** lines 136-147 [BuildBasisLocalGradients], entry [ijk] *)
Definition gradients_at (b : Basis) (x y z : R) : option (list R * list R * list R) :=
  match GetDerivatives b 1 0 0 x y z, GetDerivatives b 0 1 0 x y z, GetDerivatives b 0 0 1 x y z with
  | Some gx, Some gy, Some gz => Some (gx, gy, gz)
  | _, _, _ => None
  end.
Definition basis_local_gradients (b : Basis) (ijk : nat) : option (list R * list R * list R) :=
  match GetDerivatives_at b 1 0 0 ijk, GetDerivatives_at b 0 1 0 ijk, GetDerivatives_at b 0 0 1 ijk with
  | Some gx, Some gy, Some gz => Some (gx, gy, gz)
  | _, _, _ => None
  end.
(** lines 149-163 [BuildBasisLocalHessians], entry [ijk]: the rows XX, XY, XZ, YY, YZ, ZZ *)
Definition basis_local_hessians (b : Basis) (ijk : nat) : option (list (list R)) :=
  match GetDerivatives_at b 2 0 0 ijk, GetDerivatives_at b 1 1 0 ijk, GetDerivatives_at b 1 0 1 ijk,
        GetDerivatives_at b 0 2 0 ijk, GetDerivatives_at b 0 1 1 ijk, GetDerivatives_at b 0 0 2 ijk with
  | Some xx, Some xy, Some xz, Some yy, Some yz, Some zz => Some [xx; xy; xz; yy; yz; zz]
  | _, _, _, _, _, _ => None
  end.

(** lines 82-83: an object on the hexahedron [n_cell] with the global coordinates [n_nodes] *)
Record Nodal := mkNodal { n_cell : Hexa; n_nodes : list vec; n_basis : Basis; n_coeff : nat -> nat -> R }.
Section Nodal.
Variable p : Nodal.
Let e := h_element (n_cell p).
Let N := b_N (n_basis p).

(** lines 496-498 [lagrange()] with the functions of geometry::Cell *)
Definition to_global (l : vec) : vec := LocalToGlobal e (n_nodes p) (vx l) (vy l) (vz l).
Definition jacobian (l : vec) : mat3 := rows (LocalToJacobian e (n_nodes p) (vx l) (vy l) (vz l)).
Definition det_gradient (l : vec) : vec :=
  V (LocalToJacobianDeterminantGradient (n_cell p) (n_nodes p) (vx l) (vy l) (vz l) 0)
    (LocalToJacobianDeterminantGradient (n_cell p) (n_nodes p) (vx l) (vy l) (vz l) 1)
    (LocalToJacobianDeterminantGradient (n_cell p) (n_nodes p) (vx l) (vy l) (vz l) 2).
Definition jacobian_gradient (l : vec) (a : nat) : mat3 :=
  rows (LocalToJacobianGradient (n_cell p) (n_nodes p) (vx l) (vy l) (vz l) a).
Definition det_hessian (l : vec) (k : nat) : R :=
  LocalToJacobianDeterminantHessian (n_cell p) (n_nodes p) (vx l) (vy l) (vz l) k.

(** lines 166-214: the caches of the constructor for [kLocal], at the point [ijk] *)
Definition point (ijk : nat) : vec := local_coord (n_basis p) ijk.
Definition jacobian_det (ijk : nat) : R := mdet (jacobian (point ijk)).
Definition jacobian_det_inv (ijk : nat) : mat3 := mscale (jacobian_det ijk) (minv (jacobian (point ijk))).
Definition jacobian_det_grad (ijk : nat) : vec := det_gradient (point ijk).
Definition inv_T (ijk : nat) : mat3 := mtranspose (minv (jacobian (point ijk))).
Definition mat_after_hess_of_U (ijk : nat) : mat3 := mscale (/ jacobian_det ijk) (inv_T ijk).
Definition inv_T_grad (ijk a : nat) : mat3 :=
  let inv := minv (jacobian (point ijk)) in
  mscale (-1) (mtranspose (mmul (mmul inv (jacobian_gradient (point ijk) a)) inv)).
Definition component (v : vec) (a : nat) : R := match a with 0%nat => vx v | 1%nat => vy v | _ => vz v end.
Definition mat_after_grad_of_U (ijk a : nat) : mat3 :=
  let det := jacobian_det ijk in let det2 := det * det in
  madd (mscale (/ det) (inv_T_grad ijk a)) (mscale (- component (jacobian_det_grad ijk) a / det2) (inv_T ijk)).
Definition mat_before_grad_of_U (ijk : nat) : vec :=
  let det := jacobian_det ijk in let det2 := det * det in
  vscale (/ det2) (rmul (jacobian_det_grad ijk) (inv_T ijk)).
Definition mat_before_U (ijk : nat) : mat3 :=
  let det := jacobian_det ijk in let det2 := det * det in let det3 := det2 * det in
  let h k := det_hessian (point ijk) k in
  let g := jacobian_det_grad ijk in
  let m := M3 (V (h 0%nat) (h 1%nat) (h 2%nat)) (V (h 1%nat) (h 3%nat) (h 4%nat)) (V (h 2%nat) (h 4%nat) (h 5%nat)) in
  let m := mmul m (mscale (/ det2) (inv_T ijk)) in
  let row a := rmul g (madd (mscale (/ det2) (inv_T_grad ijk a)) (mscale (-2 * component g a / det3) (inv_T ijk))) in
  M3 (vadd (r0 m) (row 0%nat)) (vadd (r1 m) (row 1%nat)) (vadd (r2 m) (row 2%nat)).

(** the component [k] of [coeff_ * values.transpose()] *)
Definition combine_with (values : list R) (k : nat) : R := rsum N (fun n => n_coeff p k n * nth n values 0).
(** lines 231-235 and 236-238 [LocalToValue], for [kLocal] and for [!kLocal] *)
Definition LocalToValue (l : vec) (k : nat) : R :=
  combine_with (GetValues (n_basis p) (vx l) (vy l) (vz l)) k / mdet (jacobian l).
Definition LocalToValue_global (l : vec) (k : nat) : R := combine_with (GetValues (n_basis p) (vx l) (vy l) (vz l)) k.
(** lines 257-259 and 268-270 [GetValue] *)
Definition GetValue (i k : nat) : R := n_coeff p k i / jacobian_det i.
Definition GetValue_global (i k : nat) : R := n_coeff p k i.

(** lines 313-315 and 325-327: the sum over the basis functions; starts from zero *)
Definition sum_columns (rows : list R * list R * list R) (k : nat) : vec :=
  V (rsum N (fun abc => vx (column3 rows abc) * n_coeff p k abc))
    (rsum N (fun abc => vy (column3 rows abc) * n_coeff p k abc))
    (rsum N (fun abc => vz (column3 rows abc) * n_coeff p k abc)).
(** lines 310-317 [GetLocalGradient] *)
Definition GetLocalGradient (ijk k : nat) : option vec :=
  option_map (fun rows => sum_columns rows k) (basis_local_gradients (n_basis p) ijk).
(** lines 318-329 [LocalToLocalGradient] *)
Definition LocalToLocalGradient (l : vec) (k : nat) : option vec :=
  option_map (fun rows => sum_columns rows k) (gradients_at (n_basis p) (vx l) (vy l) (vz l)).
(** lines 330-338 [LocalToGlobalGradient] *)
Definition LocalToGlobalGradient (l : vec) (k : nat) : option vec :=
  match LocalToLocalGradient l k with
  | Some grad =>
    let mat := jacobian l in
    let det := mdet mat in
    let det_grad := det_gradient l in
    let value := combine_with (GetValues (n_basis p) (vx l) (vy l) (vz l)) k in
    let grad := vsub grad (vscale value (vscale (/ det) det_grad)) in
    Some (mcol (mscale (/ det) (minv mat)) grad)
  | None => None
  end.
(** lines 362-369 [GetGlobalGradient(value, local_grad, ijk)] *)
Definition GetGlobalGradient_with (value : R) (local_grad : vec) (ijk : nat) : vec :=
  let value_grad := vsub local_grad (vscale value (jacobian_det_grad ijk)) in
  let jacobian_det := jacobian_det ijk in
  let value_grad := vscale (/ (jacobian_det * jacobian_det)) value_grad in
  mcol (jacobian_det_inv ijk) value_grad.
(** lines 359-361 [GetGlobalGradient(ijk)] for [kLocal] *)
Definition GetGlobalGradient (ijk k : nat) : option vec :=
  option_map (fun g => GetGlobalGradient_with (GetValue ijk k) g ijk) (GetLocalGradient ijk k).

(** lines 446-449 [LocalGradientsToGlobalGradients], for one column: the solution of [jacobian * v = local_grad]
    (Eigen's [fullPivLu().solve], for a regular matrix) *)
Definition LocalGradientsToGlobalGradients (jac : mat3) (local_grad : vec) : vec := mcol (minv jac) local_grad.
(** lines 215-223: the cache for [!kLocal] *)
Definition basis_global_gradients (ijk : nat) : option (nat -> vec) :=
  option_map (fun rows abc => LocalGradientsToGlobalGradients (jacobian (point ijk)) (column3 rows abc))
    (basis_local_gradients (n_basis p) ijk).
(** lines 349-352 [GetGlobalGradient(ijk)] for [!kLocal] *)
Definition GetGlobalGradient_global (ijk k : nat) : option vec :=
  option_map (fun grads =>
    V (rsum N (fun abc => vx (grads abc) * n_coeff p k abc)) (rsum N (fun abc => vy (grads abc) * n_coeff p k abc))
      (rsum N (fun abc => vz (grads abc) * n_coeff p k abc)))
    (basis_global_gradients ijk).

(** lines 385-392 [GetLocalHessian]: XX, XY, XZ, YY, YZ, ZZ *)
Definition GetLocalHessian (ijk k : nat) : option (nat -> R) :=
  option_map (fun rows xy => rsum N (fun abc => nth abc (nth xy rows []) 0 * n_coeff p k abc))
    (basis_local_hessians (n_basis p) ijk).
(** lines 400-435 [GetGlobalHessian(local_grad, ijk)], for the component [k] *)
Definition GetGlobalHessian_with (local_grad : vec) (local_hess : nat -> R) (ijk k : nat) : list R :=
  let h := local_hess in
  let scalar_hess :=
    M3 (V (h 0%nat) (h 1%nat) (h 2%nat)) (V (h 1%nat) (h 3%nat) (h 4%nat)) (V (h 2%nat) (h 4%nat) (h 5%nat)) in
  let scalar_hess := mmul scalar_hess (mat_after_hess_of_U ijk) in
  let row a := vsub (rmul local_grad (mat_after_grad_of_U ijk a))
                 (vscale (component local_grad a) (mat_before_grad_of_U ijk)) in
  let scalar_hess := M3 (vadd (r0 scalar_hess) (row 0%nat)) (vadd (r1 scalar_hess) (row 1%nat))
                        (vadd (r2 scalar_hess) (row 2%nat)) in
  let scalar_local_val := n_coeff p k ijk in
  let scalar_hess := madd scalar_hess (mscale (- scalar_local_val) (mat_before_U ijk)) in
  let scalar_hess := mmul (jacobian_det_inv ijk) scalar_hess in
  let s := mscale (/ jacobian_det ijk) scalar_hess in
  [vx (r0 s); vy (r0 s); vz (r0 s); vy (r1 s); vz (r1 s); vz (r2 s)].
(** lines 397-399 [GetGlobalHessian(ijk)] *)
Definition GetGlobalHessian (ijk k : nat) : option (list R) :=
  match GetLocalGradient ijk k, GetLocalHessian ijk k with
  | Some g, Some h => Some (GetGlobalHessian_with g h ijk k)
  | _, _ => None
  end.

(** lines 461-466 [GlobalFluxToLocalFlux], for one row of the flux *)
Definition GlobalFluxToLocalFlux (global_flux : vec) (ijk : nat) : vec := rmul global_flux (jacobian_det_inv ijk).
(** lines 499-506 and 507-513 [Approximate], for [kLocal] and for [!kLocal]: the coefficients *)
Definition Approximate (global_to_value : vec -> nat -> R) : Nodal :=
  mkNodal (n_cell p) (n_nodes p) (n_basis p) (fun k ijk => global_to_value (to_global (point ijk)) k * jacobian_det ijk).
Definition Approximate_global (global_to_value : vec -> nat -> R) : Nodal :=
  mkNodal (n_cell p) (n_nodes p) (n_basis p) (fun k ijk => global_to_value (to_global (point ijk)) k).
End Nodal.
