(** Coordinate maps of cells and faces, built from the shape functions of [Model_Shapes]. *)
From Coq Require Import Reals QArith List Arith Bool.
From Verif Require Import Vec3 Model_Shapes.
Import ListNotations.
Open Scope R_scope.

(** the sum over the nodes of [GetGlobalCoord(i) * weights[i]]; the order of the additions does not
    matter over the reals *)
Fixpoint weighted (nodes : list vec) (weights : list R) : vec :=
  match nodes, weights with
  | p :: nodes, w :: weights => vadd (vscale w p) (weighted nodes weights)
  | _, _ => v0
  end.
Definition column (k : nat) (rows : list (list R)) : list R := map (fun r => nth k r 0) rows.

(** element.hpp lines 69-77 [_Build]: an element of type [e] holds one global coordinate per node *)
Definition built (e : Element) (nodes : list vec) : Prop := length nodes = length (e_coords e).

(** cell.hpp lines 67-75 and face.hpp lines 72-79 [LocalToGlobal] *)
Definition LocalToGlobal (e : Element) (nodes : list vec) (x y z : R) : vec :=
  weighted nodes (e_shapes e R RealOps x y z).

(** cell.hpp lines 80-88 and face.hpp lines 84-91 [LocalToJacobian]: row [a] *)
Definition LocalToJacobian (e : Element) (nodes : list vec) (x y z : R) (a : nat) : vec :=
  weighted nodes (column a (e_grads e R RealOps x y z)).

(** Eigen's [normalized], which leaves the zero vector as it is *)
Definition normalized (v : vec) : vec :=
  if Rlt_dec 0 (dot v v) then vscale (/ sqrt (dot v v)) v else v.

(** face.hpp lines 60-63 [LocalToNormalVector] *)
Definition LocalToNormalVector (e : Element) (nodes : list vec) (x y : R) : vec :=
  normalized (cross (LocalToJacobian e nodes x y 0 0) (LocalToJacobian e nodes x y 0 1)).

(** face.hpp lines 98-110 [_NormalFrameBuilder::Build]: normal, tangent, bitangent *)
Definition LocalToNormalFrame (e : Element) (nodes : list vec) (x y : R) : vec * vec * vec :=
  let normal := normalized (cross (LocalToJacobian e nodes x y 0 0) (LocalToJacobian e nodes x y 0 1)) in
  let tangent := normalized (LocalToJacobian e nodes x y 0 0) in
  (normal, tangent, cross normal tangent).

(** hexahedron.hpp lines 41-73 [GetOutwardNormalVector] *)
Definition GetOutwardNormalVector (e : Element) (nodes : list vec) (i_face : nat) : option vec :=
  let J := LocalToJacobian e nodes in
  match i_face with
  | 0%nat => Some (vneg (normalized (J 0 0 (-1) 2%nat)))
  | 1%nat => Some (vneg (normalized (J 0 (-1) 0 1%nat)))
  | 2%nat => Some (normalized (J 1 0 0 0%nat))
  | 3%nat => Some (normalized (J 0 1 0 1%nat))
  | 4%nat => Some (vneg (normalized (J (-1) 0 0 0%nat)))
  | 5%nat => Some (normalized (J 0 0 1 2%nat))
  | _ => None
  end.

(** ** Derivatives of the Jacobian of hexahedra *)
(** hexahedra override [LocalToShapeHessians] and [LocalToShape3rdOrderDerivatives]; in cell.hpp lines
    46-56 they return nothing *)
Record Hexa := mkHexa {
  h_element : Element;
  h_hessians : forall T, Ops T -> T -> T -> T -> list (list T);
  h_tensors : forall T, Ops T -> T -> T -> T -> list (list T) }.
Definition Hexa8 := mkHexa Hexahedron8 (@Hexahedron8_hessians) (@Hexahedron8_tensors).
Definition Hexa20 := mkHexa Hexahedron20 (@Hexahedron20_hessians) (@Hexahedron20_tensors).
Definition Hexa26 := mkHexa Hexahedron26 (@Hexahedron26_hessians) (@Hexahedron26_tensors).
Definition Hexa27 := mkHexa Hexahedron27 (@Hexahedron27_hessians) (@Hexahedron27_tensors).

(** cell.hpp lines 98-117 [LocalToJacobianGradient]: row [b] of component [a]; the columns of the Hessians
    are XX, XY, XZ, YY, YZ, ZZ *)
Definition LocalToJacobianGradient (h : Hexa) (nodes : list vec) (x y z : R) (a b : nat) : vec :=
  let sum k := weighted nodes (column k (h_hessians h R RealOps x y z)) in
  match a, b with
  | 0, 0 => sum 0
  | 0, 1 | 1, 0 => sum 1
  | 0, 2 | 2, 0 => sum 2
  | 1, 1 => sum 3
  | 1, 2 | 2, 1 => sum 4
  | 2, 2 => sum 5
  | _, _ => v0
  end%nat.

(** cell.hpp lines 118-147 [LocalToJacobianHessian]: row [b] of component [k] (0 = XX, … 5 = ZZ) *)
Definition LocalToJacobianHessian (h : Hexa) (nodes : list vec) (x y z : R) (k b : nat) : vec :=
  let sum c := weighted nodes (column c (h_tensors h R RealOps x y z)) in
  match k, b with
  | 0, 0 => sum 0 | 0, 1 => sum 1 | 0, 2 => sum 2
  | 1, 0 => sum 1 | 1, 1 => sum 3 | 1, 2 => sum 4
  | 2, 0 => sum 2 | 2, 1 => sum 4 | 2, 2 => sum 5
  | 3, 0 => sum 3 | 3, 1 => sum 6 | 3, 2 => sum 7
  | 4, 0 => sum 4 | 4, 1 => sum 7 | 4, 2 => sum 8
  | 5, 0 => sum 5 | 5, 1 => sum 8 | 5, 2 => sum 9
  | _, _ => v0
  end%nat.

(** matrices of three rows *)
Record mat3 := M3 { r0 : vec; r1 : vec; r2 : vec }.
Definition mdet (m : mat3) : R := det3 (r0 m) (r1 m) (r2 m).
(** the matrix with these columns *)
Definition of_columns (a b c : vec) : mat3 :=
  M3 (V (vx a) (vx b) (vx c)) (V (vy a) (vy b) (vy c)) (V (vz a) (vz b) (vz c)).
(** Eigen's [inverse] *)
Definition minv (m : mat3) : mat3 :=
  of_columns (vscale (/ mdet m) (cross (r1 m) (r2 m))) (vscale (/ mdet m) (cross (r2 m) (r0 m)))
    (vscale (/ mdet m) (cross (r0 m) (r1 m))).
(** row times matrix *)
Definition rmul (r : vec) (m : mat3) : vec :=
  vadd (vscale (vx r) (r0 m)) (vadd (vscale (vy r) (r1 m)) (vscale (vz r) (r2 m))).
Definition mmul (m n : mat3) : mat3 := M3 (rmul (r0 m) n) (rmul (r1 m) n) (rmul (r2 m) n).
Definition mtrace (m : mat3) : R := vx (r0 m) + vy (r1 m) + vz (r2 m).
Definition rows (f : nat -> vec) : mat3 := M3 (f 0%nat) (f 1%nat) (f 2%nat).

(** cell.hpp lines 155-165 [LocalToJacobianDeterminantGradient]: component [a] *)
Definition LocalToJacobianDeterminantGradient (h : Hexa) (nodes : list vec) (x y z : R) (a : nat) : R :=
  let mat_grad := rows (LocalToJacobianGradient h nodes x y z a) in
  let mat := rows (LocalToJacobian (h_element h) nodes x y z) in
  let det := mdet mat in
  let inv := minv mat in
  det * mtrace (mmul inv mat_grad).

(** cell.hpp lines 172-198 [LocalToJacobianDeterminantHessian]: component [k] (0 = XX, … 5 = ZZ) *)
Definition pair_of (k : nat) : nat * nat :=
  match k with 0 => (0, 0) | 1 => (0, 1) | 2 => (0, 2) | 3 => (1, 1) | 4 => (1, 2) | _ => (2, 2) end%nat.
Definition LocalToJacobianDeterminantHessian (h : Hexa) (nodes : list vec) (x y z : R) (k : nat) : R :=
  let mat_hess := rows (LocalToJacobianHessian h nodes x y z k) in
  let mat := rows (LocalToJacobian (h_element h) nodes x y z) in
  let inv := minv mat in
  let mat_grad a := mmul inv (rows (LocalToJacobianGradient h nodes x y z a)) in
  let trace a := mtrace (mat_grad a) in
  let '(a, b) := pair_of k in
  (mtrace (mmul inv mat_hess) + (trace a * trace b - mtrace (mmul (mat_grad a) (mat_grad b)))) * mdet mat.

(** ** GlobalToLocal *)
(** the solution of [transpose m * v = b] by LU decomposition (Eigen's [partialPivLu().solve]), which is
    [inverse (transpose m) * b] for a regular matrix *)
Definition solve_transposed (m : mat3) (b : vec) : vec := rmul b (minv m).
(** cell.hpp lines 242-252 [root]: Newton's method with at most [fuel] steps; [None] if it does not stop;
    [func] and [matj] as in lines 200-212 *)
Fixpoint root (fuel : nat) (func : vec -> vec) (matj : vec -> mat3) (xtol : R) (x : vec) : option vec :=
  match fuel with
  | O => None
  | S fuel =>
    let res := solve_transposed (matj x) (func x) in
    let x := vsub x res in
    if Rlt_dec xtol (sqrt (dot res res)) then root fuel func matj xtol x else Some x
  end.
Definition GlobalToLocal (fuel : nat) (e : Element) (nodes : list vec) (global hint : vec) : option vec :=
  root fuel (fun l => vsub (LocalToGlobal e nodes (vx l) (vy l) (vz l)) global)
    (fun l => rows (LocalToJacobian e nodes (vx l) (vy l) (vz l))) (1 / 100000) hint.

(** ** SortNodesOnFace: global node numbers are natural numbers; [None] if an assertion fails or an array is
    read outside its bounds *)
Section Faces.
Local Open Scope nat_scope.
Definition has (n : nat) (l : list nat) : bool := existsb (Nat.eqb n) l.
(** [face_nodes[f] = cell_nodes[face[f]]] *)
Definition take (cell : list nat) (face : list nat) : option (list nat) :=
  if forallb (fun k => Nat.ltb k (length cell)) face then Some (map (fun k => nth k cell 0%nat) face) else None.

(** tetrahedron.hpp lines 80-91 and hexahedron.hpp lines 84-96: the sum of the positions of the first three
    nodes of the cell that are on the face; [c] is the current position *)
Fixpoint first_three (cell face : list nat) (cnt c sum : nat) : option nat :=
  match cnt with
  | O => Some sum
  | S cnt' =>
    match cell with
    | [] => None
    | n :: cell => if has n face then first_three cell face cnt' (S c) (sum + c)%nat
                   else first_three cell face cnt (S c) sum
    end
  end.

(** tetrahedron.hpp lines 145-150 *)
Definition Tetrahedron4_faces : list (list nat) := [[0; 2; 1]; [0; 1; 3]; [0; 3; 2]; [1; 2; 3]]%nat.
(** tetrahedron.hpp lines 76-95 *)
Definition Tetrahedron4_Sort (cell face : list nat) : option (list nat) :=
  if Nat.eqb 3 (length face) then
    match first_three cell face 3 0 0 with
    | Some sum =>
      if (Nat.leb 3 sum && Nat.ltb sum 7)%bool then take cell (nth (sum - 3) Tetrahedron4_faces []) else None
    | None => None
    end
  else None.
(** tetrahedron.hpp lines 310-316 *)
Definition Tetrahedron10_faces : list (list nat) :=
  [[0; 2; 1; 6; 5; 4]; [0; 1; 3; 4; 8; 7]; [0; 3; 2; 7; 9; 6]; [1; 2; 3; 5; 9; 8]]%nat.
(** tetrahedron.hpp lines 180-212; [cnt[c]] is whether node [c] of the cell is on the face
    (the nodes of a cell are distinct; otherwise the [break] of line 191 would matter) *)
Definition Tetrahedron10_Sort (cell face : list nat) : option (list nat) :=
  let cnt c := has (nth c cell 0%nat) face in
  if Nat.eqb 6 (length face) then
    match
      (if cnt 0%nat then
         if cnt 1%nat then
           if cnt 2%nat then Some 0%nat else if cnt 3%nat then Some 1%nat else None
         else if (cnt 2%nat && cnt 3%nat)%bool then Some 2%nat else None
       else if (cnt 1%nat && cnt 2%nat && cnt 3%nat)%bool then Some 3%nat else None)
    with
    | Some i => take cell (nth i Tetrahedron10_faces [])
    | None => None
    end
  else None.

(** hexahedron.hpp lines 371-381 *)
Definition Hexahedron27_faces : list (list nat) :=
  [[0; 3; 2; 1; 11; 10; 9; 8; 20]; [0; 1; 5; 4; 8; 13; 16; 12; 21]; [1; 2; 6; 5; 9; 14; 17; 13; 22];
   [2; 3; 7; 6; 10; 15; 18; 14; 23]; [0; 4; 7; 3; 12; 19; 15; 11; 24]; [4; 5; 6; 7; 16; 17; 18; 19; 25]]%nat.
(** hexahedron.hpp lines 82-114 [GetFaceId] *)
Definition Hexahedron_GetFaceId (cell face : list nat) : option nat :=
  match first_three cell face 3 0 0 with
  | Some 3 => Some 0 | Some 5 => Some 1 | Some 7 => Some 4
  | Some 8 => Some 2 | Some 11 => Some 3 | Some 15 => Some 5
  | _ => None
  end%nat.
(** hexahedron.hpp lines 409-416 ([n] = 4), 556-563 ([n] = 8), 837-844 and 173-180 ([n] = 9); the faces of the
    smaller elements are the first nodes of those of the 27-node element *)
Definition Hexahedron_Sort (n : nat) (cell face : list nat) : option (list nat) :=
  if Nat.eqb n (length face) then
    match Hexahedron_GetFaceId cell face with
    | Some i => take cell (firstn n (nth i Hexahedron27_faces []))
    | None => None
    end
  else None.

(** wedge.hpp lines 204-216 *)
Definition Wedge6_triangles : list (list nat) := [[0; 2; 1]; [3; 4; 5]]%nat.
Definition Wedge6_quadrangles : list (list nat) := [[0; 1; 4; 3]; [1; 2; 5; 4]; [0; 3; 5; 2]]%nat.
(** wedge.hpp lines 425-437 *)
Definition Wedge15_triangles : list (list nat) := [[0; 2; 1; 8; 7; 6]; [3; 4; 5; 12; 13; 14]]%nat.
Definition Wedge15_quadrangles : list (list nat) :=
  [[0; 1; 4; 3; 6; 10; 12; 9]; [1; 2; 5; 4; 7; 11; 13; 10]; [0; 3; 5; 2; 9; 14; 11; 8]]%nat.
(** wedge.hpp lines 661-667 *)
Definition Wedge18_quadrangles : list (list nat) :=
  [[0; 1; 4; 3; 6; 10; 12; 9; 15]; [1; 2; 5; 4; 7; 11; 13; 10; 16]; [0; 3; 5; 2; 9; 14; 11; 8; 17]]%nat.
(** wedge.hpp lines 48-58 [GetTriangleId] *)
Definition GetTriangleId (cell face : list nat) : nat := if has (nth 4 cell 0%nat) face then 1%nat else 0%nat.
(** wedge.hpp lines 60-79 [GetQuadrangleId]; each node of the face adds the first position of it among the
    first three nodes of the cell, if any *)
Definition GetQuadrangleId (cell face : list nat) : option nat :=
  let add n :=
    if Nat.eqb (nth 0 cell 0) n then 0 else if Nat.eqb (nth 1 cell 0) n then 1
    else if Nat.eqb (nth 2 cell 0) n then 2 else 0 in
  match fold_left (fun s n => (s + add n)%nat) face 0 with
  | 1 => Some 0 | 2 => Some 2 | 3 => Some 1 | _ => None
  end%nat.
(** wedge.hpp lines 109-123, 247-263 and 464-479; [nt] and [nq] are the numbers of nodes on triangles and
    on quadrangles *)
Definition Wedge_Sort (nt nq : nat) (triangles quadrangles : list (list nat)) (cell face : list nat) : option (list nat) :=
  if Nat.eqb (length face) nt then take cell (nth (GetTriangleId cell face) triangles [])
  else if Nat.eqb (length face) nq then
    match GetQuadrangleId cell face with Some i => take cell (nth i quadrangles []) | None => None end
  else None.
Definition Wedge6_Sort := Wedge_Sort 3 4 Wedge6_triangles Wedge6_quadrangles.
Definition Wedge15_Sort := Wedge_Sort 6 8 Wedge15_triangles Wedge15_quadrangles.
Definition Wedge18_Sort := Wedge_Sort 6 9 Wedge15_triangles Wedge18_quadrangles.

(** pyramid.hpp lines 193-203 *)
Definition Pyramid5_faces : list (list nat) := [[0; 1; 4]; [1; 2; 4]; [2; 3; 4]; [3; 0; 4]]%nat.
(** pyramid.hpp lines 387-397 *)
Definition Pyramid13_faces : list (list nat) :=
  [[0; 1; 4; 5; 10; 9]; [1; 2; 4; 6; 11; 10]; [2; 3; 4; 7; 12; 11]; [3; 0; 4; 8; 9; 12]]%nat.
(** pyramid.hpp lines 48-78 [GetFaceId]; the assertion on the sum of [cnt] (the apex counts as present) *)
Definition Pyramid_GetFaceId (cell face : list nat) : option nat :=
  let cnt c := has (nth c cell 0%nat) face in
  let one (b : bool) := if b then 1%nat else 0%nat in
  if Nat.eqb 3 (one (cnt 0) + one (cnt 1) + one (cnt 2) + one (cnt 3) + 1) then
    if cnt 0 then if cnt 1 then Some 0 else if cnt 3 then Some 3 else None
    else if cnt 2 then if cnt 1 then Some 1 else if cnt 3 then Some 2 else None
    else None
  else None%nat.
(** pyramid.hpp lines 107-121 (the 5-node element does not check the number of nodes of a bottom), 231-252
    and 422-443 *)
Definition Pyramid_Sort (nt : nat) (nq : option nat) (faces : list (list nat)) (bottom : list nat)
    (cell face : list nat) : option (list nat) :=
  if Nat.eqb (length face) nt then
    match Pyramid_GetFaceId cell face with Some i => take cell (nth i faces []) | None => None end
  else if match nq with Some nq => Nat.eqb (length face) nq | None => true end then take cell bottom
  else None.
Definition Pyramid5_Sort := Pyramid_Sort 3 None Pyramid5_faces [0; 3; 2; 1]%nat.
Definition Pyramid13_Sort := Pyramid_Sort 6 (Some 8%nat) Pyramid13_faces [0; 3; 2; 1; 8; 7; 6; 5]%nat.
Definition Pyramid14_Sort := Pyramid_Sort 6 (Some 9%nat) Pyramid13_faces [0; 3; 2; 1; 8; 7; 6; 5; 13]%nat.
End Faces.
