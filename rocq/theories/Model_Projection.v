(** Model of the discrete inner product and of OrthoNormalize (include/mini/gauss/function.hpp), of
    basis::OrthoNormal (include/mini/basis/linear.hpp), of Projection and ProjectionWrapper
    (include/mini/polynomial/projection.hpp) and of the WENO limiters (include/mini/limiter/weno.hpp).

    Simplifications: [Scalar] is [R]; a Gauss object is the list of its points with their global weights;
    matrices are functions of their indices, read only inside their sizes; a division by zero is the total
    division of [R] (the theorems keep it out by their hypotheses). *)
From Coq Require Import Reals List Arith.
From Verif Require Import Vec3 RSum Model_Basis.
Import ListNotations.
Open Scope R_scope.

(** gauss/element.hpp: GetGlobalWeight(i), GetGlobalCoord(i) for i < CountPoints() *)
Definition Gauss := list (R * vec).

(** gauss/function.hpp lines 50-63 [Integrate], for one entry of the value *)
Definition Integrate (f : vec -> R) (gauss : Gauss) : R :=
  fold_left (fun sum p => sum + f (snd p) * fst p) gauss 0.
(** gauss/function.hpp lines 76-84 [Innerprod], 95-100 [Norm] *)
Definition Innerprod (f1 f2 : vec -> R) (gauss : Gauss) : R := Integrate (fun xyz => f1 xyz * f2 xyz) gauss.
Definition Norm (f : vec -> R) (gauss : Gauss) : R := sqrt (Innerprod f f gauss).

(** ** OrthoNormalize, gauss/function.hpp lines 110-144 *)

(** lines 117-121: the matrix of inner products of the basis [b] *)
Definition gram (b : vec -> list R) (gauss : Gauss) : MatNxN :=
  fun i j => Integrate (fun xyz => nth i (b xyz) 0 * nth j (b xyz) 0) gauss.
(** lines 124-132: one pass of the loop over [j] for the row [i] *)
Definition ortho_step (a s : MatNxN) (i : nat) (row : nat -> R) (j : nat) : nat -> R :=
  let temp := rsum (S j) (fun k => s j k * a k i) in
  fun l => if Nat.leb l j then row l - temp * s j l else row l.
(** lines 133-140 *)
Definition ortho_norm_sq (a : MatNxN) (i : nat) (row : nat -> R) : R :=
  rsum (S i) (fun j => let sum := rsum j (fun k => 2 * row k * a k j) in row j * (row j * a j j + sum)).
(** lines 124-141: the row [i], which starts as the row of the identity matrix *)
Definition ortho_row (a s : MatNxN) (i : nat) : nat -> R :=
  let row := fold_left (ortho_step a s i) (seq 0 i) (identity i) in
  fun l => row l / sqrt (ortho_norm_sq a i row).
(** lines 116, 122-142: the matrix S after the rows 0, ..., [i] *)
Fixpoint ortho_matrix (a : MatNxN) (i : nat) : MatNxN :=
  match i with
  | O => fun r l => if andb (Nat.eqb r 0) (Nat.eqb l 0) then 1 / sqrt (a 0%nat 0%nat) else identity r l
  | S m => let s := ortho_matrix a m in fun r l => if Nat.eqb r i then ortho_row a s i l else s r l
  end.

(** ** The bases, basis/linear.hpp; [taylor] stands for Taylor::GetValue *)

(** lines 82-83 *)
Record Linear := mkLinear { l_center : vec; l_coeff : MatNxN }.
(** lines 57-61 *)
Definition Linear_at (N : nat) (taylor : vec -> list R) (b : Linear) (point : vec) : list R :=
  Linear_call N (l_coeff b) (taylor (vsub point (l_center b))).
(** lines 43-46 *)
Definition Linear_new (center : vec) : Linear := mkLinear center identity.
(** lines 110-144 of gauss/function.hpp, [N] > 0 *)
Definition OrthoNormalize (N : nat) (taylor : vec -> list R) (b : Linear) (gauss : Gauss) : Linear :=
  let s := ortho_matrix (gram (Linear_at N taylor b) gauss) (N - 1) in
  mkLinear (l_center b) (Transform_lower N s (l_coeff b)).
(** linear.hpp lines 137-138 *)
Record OrthoNormal := mkOrthoNormal { o_gauss : Gauss; o_basis : Linear }.
(** lines 99-103; [center] is gauss.center() *)
Definition OrthoNormal_new (N : nat) (taylor : vec -> list R) (gauss : Gauss) (center : vec) : OrthoNormal :=
  mkOrthoNormal gauss (OrthoNormalize N taylor (Linear_new center) gauss).
(** lines 114-116, 111-113 *)
Definition o_coeff (b : OrthoNormal) : MatNxN := l_coeff (o_basis b).
Definition o_center (b : OrthoNormal) : vec := l_center (o_basis b).
(** lines 120-125 *)
Definition OrthoNormal_at (N : nat) (taylor : vec -> list R) (b : OrthoNormal) (global : vec) : list R :=
  OrthoNormal_call N (o_coeff b) (taylor (vsub global (o_center b))).
(** lines 126-129 *)
Definition Measure (b : OrthoNormal) : R := let v := o_coeff b 0%nat 0%nat in 1 / (v * v).

(** ** Projection and ProjectionWrapper, polynomial/projection.hpp *)

(** lines 80-81: a coefficient matrix by component and basis function, a value by component *)
Definition Coeff := nat -> nat -> R.
Definition Value := nat -> R.
(** lines 87-88 and 217-218 *)
Record Projection := mkProjection { p_coeff : Coeff; p_basis : OrthoNormal }.

(** lines 25-39 [Project] *)
Definition Project (N : nat) (taylor : vec -> list R) (b : OrthoNormal) (func : vec -> Value) : Projection :=
  mkProjection (fun r c => Integrate (fun xyz => func xyz r * nth c (OrthoNormal_at N taylor b xyz) 0) (o_gauss b)) b.
(** lines 41-47 [GetAverage] *)
Definition average (p : Projection) : Value := fun r => p_coeff p r 0%nat * o_coeff (p_basis p) 0%nat 0%nat.
(** lines 104-109 [GlobalToValue], [operator()] *)
Definition GlobalToValue (N : nat) (taylor : vec -> list R) (p : Projection) (global : vec) : Value :=
  fun r => rsum N (fun c => p_coeff p r c * nth c (OrthoNormal_at N taylor (p_basis p) global) 0).
(** lines 125-127 *)
Definition GetCoeffOnTaylorBasis (N : nat) (p : Projection) : Coeff :=
  fun r c => rsum N (fun j => p_coeff p r j * o_coeff (p_basis p) j c).
(** lines 146-148 and 153-157 [GetGlobalGradient], at any global point; [axis] < 3; [grad] stands for
    Taylor::GetGradValue of one row of coefficients *)
Definition GlobalGradient (N : nat) (grad : vec -> (nat -> R) -> list R) (p : Projection) (global : vec)
    (axis : nat) : Value :=
  fun r => rsum N (fun c => nth axis (grad (vsub global (o_center (p_basis p))) (o_coeff (p_basis p) c)) 0 * p_coeff p r c).

(** lines 263-267 [LeftMultiply], [K] components *)
Definition LeftMultiply (K : nat) (left : MatNxN) (p : Projection) : Projection :=
  mkProjection (fun r c => rsum K (fun k => left r k * p_coeff p k c)) (p_basis p).
(** lines 268-271, 272-275, 276-281 *)
Definition pscale (ratio : R) (p : Projection) : Projection := mkProjection (fun r c => p_coeff p r c * ratio) (p_basis p).
Definition unscale (ratio : R) (p : Projection) : Projection := mkProjection (fun r c => p_coeff p r c / ratio) (p_basis p).
Definition scale_rows (ratio : Value) (p : Projection) : Projection := mkProjection (fun r c => p_coeff p r c * ratio r) (p_basis p).
(** lines 282-286 *)
Definition shift (offset : Value) (p : Projection) : Projection :=
  mkProjection (fun r c => if Nat.eqb c 0 then p_coeff p r c + offset r / o_coeff (p_basis p) 0%nat 0%nat else p_coeff p r c) (p_basis p).
(** lines 287-291 (the assertion that both have the same basis always holds below) *)
Definition accumulate (that p : Projection) : Projection := mkProjection (fun r c => p_coeff p r c + p_coeff that r c) (p_basis p).

(** ** limiter/weno.hpp *)

Definition Taylor3_N (k : nat) : nat := match k with 0%nat => 1%nat | 1%nat => 4%nat | 2%nat => 10%nat | _ => 20%nat end.
Definition taylor3 (k : nat) (local : vec) : list R := Taylor3_GetValue k (vx local) (vy local) (vz local).

(** basis/taylor.hpp lines 154-160, 195-203, 279-298, 476-507 [Taylor<3,k>::GetSmoothness], one component *)
Definition Taylor3_GetSmoothness (k : nat) (integral : nat -> R) (volume : R) : R :=
  match k with
  | 0%nat => 0
  | 1%nat => integral 1%nat + integral 2%nat + integral 3%nat
  | 2%nat =>
      let w1 := Rpower volume (2 / 3 - 1) in let w2 := Rpower volume (4 / 3 - 1) in
      (integral 1%nat + integral 2%nat + integral 3%nat) * w1 + integral 4%nat * w2 + integral 5%nat * w2 +
      integral 6%nat * w2 + integral 7%nat * w2 + integral 8%nat * w2 + integral 9%nat * w2
  | _ =>
      let w1 := Rpower volume (2 / 3 - 1) in let w2 := Rpower volume (4 / 3 - 1) in let w3 := volume in
      (integral 1%nat + integral 2%nat + integral 3%nat) * w1 + integral 4%nat * w2 + integral 5%nat * w2 +
      integral 6%nat * w2 + integral 7%nat * w2 + integral 8%nat * w2 + integral 9%nat * w2 +
      integral 10%nat * w3 + integral 11%nat * w3 + integral 12%nat * w3 + integral 13%nat * w3 + integral 14%nat * w3 +
      integral 15%nat * w3 + integral 16%nat * w3 + integral 17%nat * w3 + integral 18%nat * w3 + integral 19%nat * w3
  end.
(** weno.hpp lines 20-34 [GetSmoothness] *)
Definition GetSmoothness (k : nat) (proj : Projection) : Value :=
  fun r =>
    let pdv xyz c :=
      let local := vsub xyz (o_center (p_basis proj)) in
      nth c (Taylor3_GetPdvValue k (vx local) (vy local) (vz local) (GetCoeffOnTaylorBasis (Taylor3_N k) proj r)) 0 in
    Taylor3_GetSmoothness k (fun c => Integrate (fun xyz => pdv xyz c * pdv xyz c) (o_gauss (p_basis proj)))
      (Measure (p_basis proj)).

(** lines 74-98 and 193-203 [Borrow]: the candidates, the cell's own projection last *)
Definition Borrow (k : nat) (mine : Projection) (adj : list Projection) : list Projection :=
  map (fun a =>
    let p := Project (Taylor3_N k) (taylor3 k) (p_basis mine) (GlobalToValue (Taylor3_N k) (taylor3 k) a) in
    shift (fun r => average mine r - average p r) p) adj ++ [mine].
(** lines 102-104 and 216-218: the linear weights *)
Definition linear_weights (w0 : R) (adj_cnt : nat) : list R := repeat w0 adj_cnt ++ [w0 * - INR adj_cnt + 1].
(** lines 105-118 and 219-235: the nonlinear weights; [betas] are the smoothnesses of the candidates *)
Definition smooth_weights (w0 eps : R) (adj_cnt : nat) (betas : list Value) : list Value :=
  map (B := Value) (fun wb => fun r => let beta := snd wb r + eps in fst wb / (beta * beta)) (combine (linear_weights w0 adj_cnt) betas).
Definition weights_sum (weights : list Value) : Value := fun r => fold_left (fun s (w : Value) => s + w r) weights 0.
Definition nonlinear_weights (w0 eps : R) (adj_cnt : nat) (betas : list Value) : list Value :=
  let weights := smooth_weights w0 eps adj_cnt betas in
  map (B := Value) (fun (w : Value) => fun r => w r / weights_sum weights r) weights.
(** lines 119-125 and 236-242: the last candidate is scaled, then the others are scaled and added to it *)
Definition combine_candidates (candidates : list Projection) (weights : list Value) (default : Projection) : Projection :=
  let n := (length candidates - 1)%nat in
  fold_left (fun acc pw => accumulate (scale_rows (snd pw) (fst pw)) acc)
    (combine (firstn n candidates) (firstn n weights))
    (scale_rows (nth n weights (fun _ => 0)) (nth n candidates default)).

(** lines 61-67 and 99-126 [Lazy::operator()] *)
Definition Lazy_call (k : nat) (w0 eps : R) (mine : Projection) (adj : list Projection) : Projection :=
  let old := Borrow k mine adj in
  combine_candidates old (nonlinear_weights w0 eps (length adj) (map (GetSmoothness k) old)) mine.

(** What [ReconstructOnFace] reads of a face: the matrices L() and R() of its Riemann solver after
    UpdateEigenMatrices(big_u), and the volume of the cell on its other side *)
Record FaceData := mkFaceData { f_L : Value -> MatNxN; f_R : Value -> MatNxN; f_volume : R }.
(** lines 208-247: the contribution of one face, [K] components *)
Definition ReconstructOnFace (k K : nat) (w0 eps : R) (mine : Projection) (old : list Projection) (face : FaceData) : Projection :=
  let big_u := average mine in
  let rotated := map (LeftMultiply K (f_L face big_u)) old in
  let adj_cnt := (length old - 1)%nat in
  let new := combine_candidates rotated (nonlinear_weights w0 eps adj_cnt (map (GetSmoothness k) rotated)) mine in
  pscale (f_volume face) (LeftMultiply K (f_R face big_u) new).
(** lines 181-186, 255-263 [Eigen::operator()]; one face for each adjacent cell (line 209); [None] when the
    last step divides by zero, which makes every coefficient not a number *)
Definition Eigen_call (k K : nat) (w0 eps : R) (mine : Projection) (adj : list Projection) (faces : list FaceData) : option Projection :=
  let old := Borrow k mine adj in
  let zero := mkProjection (fun _ _ => 0) (p_basis mine) in
  let new := fold_left (fun acc face => accumulate (ReconstructOnFace k K w0 eps mine old face) acc) faces zero in
  let total_volume := fold_left (fun v face => v + f_volume face) faces 0 in
  if Req_EM_T total_volume 0 then None else Some (unscale total_volume new).

(** lines 278-280 [Dummy::operator()] *)
Definition Dummy_call (mine : Projection) : Projection := mine.

(** lines 152-180 [Eigen::IsNotSmooth], [P] is Cell::P and the dimension is 3; [my_value] and the pairs of
    [adj] are the values at the centre of this cell, and the averages *)
Definition IsNotSmooth (P K : nat) (volume : R) (my_average my_value : Value) (adj : list (Value * Value)) : bool :=
  let divisor := Rpower volume ((INR P + 1) / 2 / 3) * INR (length adj) in
  let reference := if Nat.ltb P 3 then 1 else 3 in
  existsb (fun i =>
    let biggest := fold_left (fun m a => Rmax m (Rabs (snd a i))) adj (Rmax (1 / 1000000000) (Rabs (my_average i))) in
    let difference := fold_left (fun s a => s + Rabs (my_value i - fst a i)) adj 0 in
    if Rlt_dec reference (difference / biggest / divisor) then true else false) [0%nat; (K - 1)%nat].
