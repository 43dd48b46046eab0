(** Model of the simple Riemann solvers: /repo/include/mini/riemann/simple/ (single.hpp,
    burgers.hpp, double.hpp, multiple.hpp) and /repo/include/mini/riemann/rotated/ (simple.hpp,
    burgers.hpp).  Scalars are real numbers. *)
From Coq Require Import Reals.
Open Scope R_scope.

(** ** One linear equation *)

(** single.hpp lines 45-47 [GetFlux] *)
Definition Single_GetFlux (a state : R) : R := state * a.

(** single.hpp lines 33-40 [GetFluxUpwind] *)
Definition Single_GetFluxUpwind (a left right : R) : R :=
  if Rlt_dec 0 a then left * a else right * a.

(** ** Burgers *)

(** burgers.hpp lines 53-55 [GetFlux] *)
Definition Burgers_GetFlux (k state : R) : R := state * state * k / 2.

(** burgers.hpp lines 32-48 [GetFluxUpwind] *)
Definition Burgers_GetFluxUpwind (k left right : R) : R :=
  if Req_EM_T k 0 then 0
  else
    let left_ := k * left in
    let right_ := k * right in
    let (left_, right_) :=
      if Rge_dec left_ right_
      then ((left_ + right_) / 2, (left_ + right_) / 2)
      else (left_, right_) in
    if Rle_dec 0 left_ then Burgers_GetFlux k left
    else if Rge_dec 0 right_ then Burgers_GetFlux k right
    else Burgers_GetFlux k (0 / k).

(** ** Two linear equations *)

(** the 2x2 matrices [(0,0) (0,1) (1,0) (1,1)] and columns of double.hpp lines 23-27 *)
Record Mat2 := mat2 { m00 : R; m01 : R; m10 : R; m11 : R }.
Definition Col2 : Type := (R * R)%type.

(** Eigen's product [a * v] *)
Definition mul2 (a : Mat2) (v : Col2) : Col2 :=
  (m00 a * fst v + m01 a * snd v, m10 a * fst v + m11 a * snd v).

(** double.hpp lines 73-80 [GetEigenValues] *)
Definition GetEigenValues (a : Mat2) : R * R :=
  let b := m00 a + m11 a in
  let c := m00 a * m11 a - m01 a * m10 a in
  let delta := sqrt (b * b - 4 * c) in
  ((b - delta) / 2, (b + delta) / 2).

(** double.hpp lines 82-92 and 93-101: one eigenvector *)
Definition GetEigenVector (m : Mat2) (lambda : R) : Col2 :=
  let a := m00 m - lambda in
  let b := m01 m in
  let c := m10 m in
  let d := m11 m - lambda in
  if Req_EM_T a 0 then
    if Req_EM_T b 0 then (d, - c) else (b, - a)
  else (b, - a).

(** double.hpp lines 81-102 [GetEigenVectors]: the columns are the eigenvectors *)
Definition GetEigenVectors (m : Mat2) : Mat2 :=
  let (l0, l1) := GetEigenValues m in
  let r0 := GetEigenVector m l0 in
  let r1 := GetEigenVector m l1 in
  mat2 (fst r0) (fst r1) (snd r0) (snd r1).

(** double.hpp lines 103-110 [GetInverseEigenVectors] *)
Definition GetInverseEigenVectors (r : Mat2) : Mat2 :=
  let det := m00 r * m11 r - m01 r * m10 r in
  mat2 (m11 r / det) (- m01 r / det) (- m10 r / det) (m00 r / det).

(** double.hpp lines 44-46 [GetFlux] *)
Definition Double_GetFlux (a : Mat2) (state : Col2) : Col2 := mul2 a state.

(** double.hpp lines 49-66 [FluxInsideSector] with [k] = 1 *)
Definition FluxInsideSector (a : Mat2) (left right : Col2) : Col2 :=
  let (l0, l1) := GetEigenValues a in
  let r := GetEigenVectors a in
  let l := GetInverseEigenVectors r in
  let temp0 := (m00 l * fst right + m01 l * snd right) * l0 in
  let flux := (0 + temp0 * m00 r, 0 + temp0 * m10 r) in
  let temp1 := (m10 l * fst left + m11 l * snd left) * l1 in
  (fst flux + temp1 * m01 r, snd flux + temp1 * m11 r).

(** double.hpp lines 31-43 [GetFluxUpwind] *)
Definition Double_GetFluxUpwind (a : Mat2) (left right : Col2) : Col2 :=
  let (l0, l1) := GetEigenValues a in
  if Rle_dec 0 l0 then Double_GetFlux a left
  else if Rge_dec 0 l1 then Double_GetFlux a right
  else FluxInsideSector a left right.

(** double.hpp lines 122-127 [L], [R] *)
Definition Double_L (a : Mat2) : Mat2 := GetInverseEigenVectors (GetEigenVectors a).
Definition Double_R (a : Mat2) : Mat2 := GetEigenVectors a.

(** ** Any number of linear equations *)

(** sum of [f 0 .. f (n-1)] *)
Fixpoint sum (n : nat) (f : nat -> R) : R :=
  match n with O => 0 | S m => sum m f + f m end.

(** columns and matrices of multiple.hpp lines 22-24, by their components *)
Definition Col := nat -> R.
Definition Mat := nat -> nat -> R.
Definition mulMV (K : nat) (a : Mat) (v : Col) : Col := fun i => sum K (fun j => a i j * v j).

(** multiple.hpp lines 43-45 [GetFlux] *)
Definition Multiple_GetFlux (K : nat) (a : Mat) (state : Col) : Col := mulMV K a state.

(** multiple.hpp lines 32-41 [GetFluxUpwind]; [eigen_values], [eigen_rows] and [eigen_cols]
    are what [Decompose] (lines 48-53) gets from Eigen: eigenvalues, eigenvectors (as the columns
    of [eigen_rows]) and the inverse of [eigen_rows] *)
Definition Multiple_GetFluxUpwind (K : nat) (eigen_values : Col) (eigen_rows eigen_cols : Mat)
    (left right : Col) : Col :=
  fun i => sum K (fun k =>
    let state := if Rgt_dec (eigen_values k) 0 then left else right in
    let temp := sum K (fun j => eigen_cols k j * state j) * eigen_values k in
    eigen_rows i k * temp).

(** multiple.hpp lines 65-70: what [L] and [R] return *)
Definition Multiple_L (eigen_rows eigen_cols : Mat) : Mat := eigen_rows.
Definition Multiple_R (eigen_rows eigen_cols : Mat) : Mat := eigen_cols.

(** ** Rotated solvers *)

(** simple.hpp lines 49-51: the coefficient along the normal, for a scalar coefficient *)
Definition normal_coefficient (c nu : R * R * R) : R :=
  let '(cx, cy, cz) := c in let '(nx, ny, nz) := nu in cx * nx + cy * ny + cz * nz.

(** the same for matrix coefficients *)
Definition normal_mat2 (c : Mat2 * Mat2 * Mat2) (nu : R * R * R) : Mat2 :=
  let '(cx, cy, cz) := c in
  mat2 (normal_coefficient (m00 cx, m00 cy, m00 cz) nu) (normal_coefficient (m01 cx, m01 cy, m01 cz) nu)
       (normal_coefficient (m10 cx, m10 cy, m10 cz) nu) (normal_coefficient (m11 cx, m11 cy, m11 cz) nu).
Definition normal_mat (c : Mat * Mat * Mat) (nu : R * R * R) : Mat :=
  let '(cx, cy, cz) := c in fun i j => normal_coefficient (cx i j, cy i j, cz i j) nu.

(** simple.hpp lines 88-94 [GetFluxMatrix]: the three columns, for one equation *)
Definition Simple_GetFluxMatrix1 (c : R * R * R) (state : R) : R * R * R :=
  let '(cx, cy, cz) := c in (cx * state, cy * state, cz * state).

(** the same for two and for [K] equations *)
Definition Simple_GetFluxMatrix2 (c : Mat2 * Mat2 * Mat2) (state : Col2) : Col2 * Col2 * Col2 :=
  let '(cx, cy, cz) := c in (mul2 cx state, mul2 cy state, mul2 cz state).
Definition Simple_GetFluxMatrixK (K : nat) (c : Mat * Mat * Mat) (state : Col) : Col * Col * Col :=
  let '(cx, cy, cz) := c in (mulMV K cx state, mulMV K cy state, mulMV K cz state).

(** rotated/burgers.hpp lines 25-32 [Burgers::GetFluxMatrix] *)
Definition Burgers_GetFluxMatrix (c : R * R * R) (state : R) : R * R * R :=
  let '(cx, cy, cz) := c in
  (state * state * (cx / 2), state * state * (cy / 2), state * state * (cz / 2)).
