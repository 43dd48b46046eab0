(** Shape functions of the elements in include/mini/geometry, and the maps built from them.

    The C++ code is a template over the type [Scalar]; so is the model: it is written over any type [T]
    with [+], [-], [*], negation and rational constants.  Instantiated with the real numbers ([RealOps])
    it is the model of the code; division, which only occurs by literals, is multiplication by the
    reciprocal.  Rounding is not modelled.  The pointer versions of the functions, which fill an array
    from its start, return the list of what they fill in.

    Static arrays ([local_coords_], [old_shapes_on_new_nodes_]) are taken to be initialised before they
    are used. *)
From Coq Require Import Reals QArith List Arith Bool.
Import ListNotations.

Record Ops (T : Type) := mkOps {
  o_add : T -> T -> T; o_sub : T -> T -> T; o_mul : T -> T -> T; o_opp : T -> T; o_cst : Q -> T }.
Arguments mkOps {T}. Arguments o_add {T}. Arguments o_sub {T}. Arguments o_mul {T}.
Arguments o_opp {T}. Arguments o_cst {T}.

Definition RealOps : Ops R := mkOps Rplus Rminus Rmult Ropp Q2R.

(** index.hpp lines 21-31: positions of the components [XX], [XY] … in a Hessian are
    [XX; XY; XZ; YY; YZ; ZZ]; lines 37-68: those of a tensor of rank three are
    [XXX; XXY; XXZ; XYY; XYZ; XZZ; YYY; YYZ; YZZ; ZZZ]. *)

(** a local coordinate; faces have third component 0 *)
Definition Local := (Q * Q * Q)%type.
Definition lX (l : Local) : Q := fst (fst l).
Definition lY (l : Local) : Q := snd (fst l).
Definition lZ (l : Local) : Q := snd l.
Definition at_ (coords : list Local) (i : nat) : Local := nth i coords (0, 0, 0)%Q.
Definition mem (i : nat) (l : list nat) : bool := existsb (Nat.eqb i) l.

(** ** The coordinates of the nodes *)
Section Coordinates.
Local Open Scope Q_scope.
Definition half : Q := 1 # 2.
(** triangle.hpp lines 109-112 *)
Definition Triangle3_coords : list Local := [(1, 0, 0); (0, 1, 0); (0, 0, 0)].
(** triangle.hpp lines 198-202 *)
Definition Triangle6_coords : list Local :=
  [(1, 0, 0); (0, 1, 0); (0, 0, 0); (half, half, 0); (0, half, 0); (half, 0, 0)].
(** quadrangle.hpp lines 138-141 *)
Definition Quadrangle4_coords : list Local := [(-1, -1, 0); (1, -1, 0); (1, 1, 0); (-1, 1, 0)].
(** quadrangle.hpp lines 257-262 *)
Definition Quadrangle8_coords : list Local :=
  [(-1, -1, 0); (1, -1, 0); (1, 1, 0); (-1, 1, 0); (0, -1, 0); (1, 0, 0); (0, 1, 0); (-1, 0, 0)].
(** quadrangle.hpp lines 380-385 *)
Definition Quadrangle9_coords : list Local :=
  [(-1, -1, 0); (1, -1, 0); (1, 1, 0); (-1, 1, 0); (0, -1, 0); (1, 0, 0); (0, 1, 0); (-1, 0, 0); (0, 0, 0)].
(** tetrahedron.hpp lines 138-141 *)
Definition Tetrahedron4_coords : list Local := [(1, 0, 0); (0, 1, 0); (0, 0, 1); (0, 0, 0)].
(** tetrahedron.hpp lines 296-307 *)
Definition Tetrahedron10_coords : list Local :=
  [(1, 0, 0); (0, 1, 0); (0, 0, 1); (0, 0, 0); (half, half, 0); (0, half, half); (half, 0, half);
   (half, 0, 0); (0, half, 0); (0, 0, half)].
(** pyramid.hpp lines 188-192 *)
Definition Pyramid5_coords : list Local := [(-1, -1, -1); (1, -1, -1); (1, 1, -1); (-1, 1, -1); (0, 0, 1)].
(** pyramid.hpp lines 378-386 *)
Definition Pyramid13_coords : list Local :=
  [(-1, -1, -1); (1, -1, -1); (1, 1, -1); (-1, 1, -1); (0, 0, 1);
   (0, -1, -1); (1, 0, -1); (0, 1, -1); (-1, 0, -1); (-1, -1, 0); (1, -1, 0); (1, 1, 0); (-1, 1, 0)].
(** pyramid.hpp lines 529-538 *)
Definition Pyramid14_coords : list Local :=
  [(-1, -1, -1); (1, -1, -1); (1, 1, -1); (-1, 1, -1); (0, 0, 1);
   (0, -1, -1); (1, 0, -1); (0, 1, -1); (-1, 0, -1); (-1, -1, 0); (1, -1, 0); (1, 1, 0); (-1, 1, 0); (0, 0, -1)].
(** wedge.hpp lines 199-202 *)
Definition Wedge6_coords : list Local :=
  [(1, 0, -1); (0, 1, -1); (0, 0, -1); (1, 0, 1); (0, 1, 1); (0, 0, 1)].
(** wedge.hpp lines 409-422 *)
Definition Wedge15_coords : list Local :=
  [(1, 0, -1); (0, 1, -1); (0, 0, -1); (1, 0, 1); (0, 1, 1); (0, 0, 1);
   (half, half, -1); (0, half, -1); (half, 0, -1); (1, 0, 0); (0, 1, 0); (0, 0, 0);
   (half, half, 1); (0, half, 1); (half, 0, 1)].
(** wedge.hpp lines 641-657 *)
Definition Wedge18_coords : list Local :=
  [(1, 0, -1); (0, 1, -1); (0, 0, -1); (1, 0, 1); (0, 1, 1); (0, 0, 1);
   (half, half, -1); (0, half, -1); (half, 0, -1); (1, 0, 0); (0, 1, 0); (0, 0, 0);
   (half, half, 1); (0, half, 1); (half, 0, 1); (half, half, 0); (0, half, 0); (half, 0, 0)].
(** hexahedron.hpp lines 345-368; the other hexahedra use the first 8, 20 and 26 of them (lines 505-508 …) *)
Definition Hexahedron27_coords : list Local :=
  [(-1, -1, -1); (1, -1, -1); (1, 1, -1); (-1, 1, -1); (-1, -1, 1); (1, -1, 1); (1, 1, 1); (-1, 1, 1);
   (0, -1, -1); (1, 0, -1); (0, 1, -1); (-1, 0, -1); (-1, -1, 0); (1, -1, 0); (1, 1, 0); (-1, 1, 0);
   (0, -1, 1); (1, 0, 1); (0, 1, 1); (-1, 0, 1);
   (0, 0, -1); (0, -1, 0); (1, 0, 0); (0, 1, 0); (-1, 0, 0); (0, 0, 1); (0, 0, 0)].
End Coordinates.

Declare Scope shape_scope.
Delimit Scope shape_scope with shape.

Section Shapes.
Context {T : Type} (ops : Ops T).

Notation "a + b" := (o_add ops a b) : shape_scope.
Notation "a - b" := (o_sub ops a b) : shape_scope.
Notation "a * b" := (o_mul ops a b) : shape_scope.
Notation "- a" := (o_opp ops a) : shape_scope.
Definition cst (q : Q) : T := o_cst ops q.
Definition int (z : Z) : T := cst (inject_Z z).
Definition over (a : T) (p : positive) : T := o_mul ops a (cst (1 # p)).
Notation "a / p" := (over a p) : shape_scope.
Notation "0" := (int 0) : shape_scope.
Notation "1" := (int 1) : shape_scope.
Notation "2" := (int 2) : shape_scope.
Notation "4" := (int 4) : shape_scope.
Notation "'-2'" := (int (-2)) : shape_scope.
Notation "'0.5'" := (cst (1 # 2)) : shape_scope.
Notation "'-0.5'" := (cst (-1 # 2)) : shape_scope.
Notation "'0.25'" := (cst (1 # 4)) : shape_scope.
Local Open Scope shape_scope.

(** ** Correction of the functions of an element with fewer nodes, e.g. quadrangle.hpp lines 192-202

    [for b in bs: for a in 0..n_old-1: shapes[a] -= old(b)[a] * shapes[b]], where an entry may be a scalar
    or a vector; [comb s k t] is [s - k * t]. *)
Definition correct {E : Type} (comb : E -> T -> E -> E) (n_old : nat) (old : nat -> list T) (bs : list nat)
    (shapes : list E) (d : E) : list E :=
  fold_left (fun shapes b =>
    map (fun a => if Nat.ltb a n_old then comb (nth a shapes d) (nth a (old b) 0) (nth b shapes d) else nth a shapes d)
      (seq 0 (length shapes))) bs shapes.
Definition comb1 (s k t : T) : T := s - k * t.
Definition combN (s : list T) (k : T) (t : list T) : list T :=
  map (fun p => fst p - k * snd p) (combine s t).
Definition correct_shapes n_old old bs shapes := correct comb1 n_old old bs shapes 0.
Definition correct_vectors n_old old bs vs := correct combN n_old old bs vs [].

(** ** Triangles *)
(** triangle.hpp lines 78-83 *)
Definition Triangle3_shapes (x y : T) : list T := [x; y; 1 - x - y].
(** triangle.hpp lines 84-89 *)
Definition Triangle3_grads (x y : T) : list (list T) := [[1; 0]; [0; 1]; [int (-1); int (-1)]].
(** triangle.hpp lines 142-153 *)
Definition Triangle6_shapes (x y : T) : list T :=
  let z := 1 - x - y in
  [x * (x - 0.5) * 2; y * (y - 0.5) * 2; z * (z - 0.5) * 2; x * y * 4; y * z * 4; z * x * 4].
(** triangle.hpp lines 154-178 *)
Definition Triangle6_grads (x y : T) : list (list T) :=
  let factor_x := 4 * x in let factor_y := 4 * y in let factor_z := 4 - factor_x - factor_y in
  [[factor_x - 1; 0]; [0; factor_y - 1]; [1 - factor_z; 1 - factor_z]; [factor_y; factor_x];
   [- factor_y; - factor_y + factor_z]; [- factor_x + factor_z; - factor_x]].

(** ** Quadrangles *)
Definition qx (i : nat) : T := cst (lX (at_ Quadrangle9_coords i)).
Definition qy (i : nat) : T := cst (lY (at_ Quadrangle9_coords i)).
(** quadrangle.hpp lines 76-83; the coordinates of the first nodes are the same in the three tables *)
Definition Quadrangle4_shapes (x y : T) : list T :=
  map (fun i => (1 + qx i * x) * (1 + qy i * y) / 4) (seq 0 4).
(** quadrangle.hpp lines 90-104 *)
Definition Quadrangle4_grads (x y : T) : list (list T) :=
  map (fun i => [qx i * ((1 + qy i * y) / 4); qy i * ((1 + qx i * x) / 4)]) (seq 0 4).
(** quadrangle.hpp lines 170-178 [LocalToNewShapeFunctions] *)
Definition Quadrangle8_new_shapes (x y : T) : list T :=
  let factor_x := (1 - x * x) / 2 in let factor_y := (1 - y * y) / 2 in
  [factor_x * (1 + qy 4 * y); (1 + qx 5 * x) * factor_y; factor_x * (1 + qy 6 * y); (1 + qx 7 * x) * factor_y].
(** quadrangle.hpp lines 179-191 [LocalToNewShapeGradients] *)
Definition Quadrangle8_new_grads (x y : T) : list (list T) :=
  let factor_x := (1 - x * x) / 2 in let factor_y := (1 - y * y) / 2 in
  [[- x * (1 + qy 4 * y); factor_x * qy 4]; [factor_y * qx 5; - y * (1 + qx 5 * x)];
   [- x * (1 + qy 6 * y); factor_x * qy 6]; [factor_y * qx 7; - y * (1 + qx 7 * x)]].
(** quadrangle.hpp lines 194-208 *)
Definition Quadrangle4_on (b : nat) : list T := Quadrangle4_shapes (qx b) (qy b).
Definition Quadrangle8_shapes (x y : T) : list T :=
  correct_shapes 4 Quadrangle4_on (seq 4 4) (Quadrangle4_shapes x y ++ Quadrangle8_new_shapes x y).
(** quadrangle.hpp lines 215-231 *)
Definition Quadrangle8_grads (x y : T) : list (list T) :=
  correct_vectors 4 Quadrangle4_on (seq 4 4) (Quadrangle4_grads x y ++ Quadrangle8_new_grads x y).
(** quadrangle.hpp lines 291-303 *)
Definition Quadrangle9_new_shapes (x y : T) : list T := [(1 - x * x) * (1 - y * y)].
Definition Quadrangle9_new_grads (x y : T) : list (list T) :=
  [[-2 * x * (1 - y * y); (1 - x * x) * (-2 * y)]].
(** quadrangle.hpp lines 306-341 *)
Definition Quadrangle8_on (b : nat) : list T := Quadrangle8_shapes (qx b) (qy b).
Definition Quadrangle9_shapes (x y : T) : list T :=
  correct_shapes 8 Quadrangle8_on (seq 8 1) (Quadrangle8_shapes x y ++ Quadrangle9_new_shapes x y).
Definition Quadrangle9_grads (x y : T) : list (list T) :=
  correct_vectors 8 Quadrangle8_on (seq 8 1) (Quadrangle8_grads x y ++ Quadrangle9_new_grads x y).

(** ** Tetrahedra *)
(** tetrahedron.hpp lines 98-110 *)
Definition Tetrahedron4_shapes (x y z : T) : list T := [x; y; z; 1 - x - y - z].
Definition Tetrahedron4_grads (x y z : T) : list (list T) :=
  [[1; 0; 0]; [0; 1; 0]; [0; 0; 1]; [int (-1); int (-1); int (-1)]].
(** tetrahedron.hpp lines 215-233; the nodes are A, B, C, D, AB, BC, CA, DA, DB, DC (lines 168-177) *)
Definition Tetrahedron10_shapes (a b c : T) : list T :=
  let d := 1 - a - b - c in
  let a4 := a * 4 in let b4 := b * 4 in
  [a * (a - 0.5) * 2; b * (b - 0.5) * 2; c * (c - 0.5) * 2; d * (d - 0.5) * 2;
   b * a4; c * b4; c * a4; d * a4; d * b4; d * c * 4].
(** tetrahedron.hpp lines 234-276 *)
Definition Tetrahedron10_grads (a b c : T) : list (list T) :=
  let fa := 4 * a in let fb := 4 * b in let fc := 4 * c in let fd := 4 - fa - fb - fc in
  [[fa - 1; 0; 0]; [0; fb - 1; 0]; [0; 0; fc - 1]; [1 - fd; 1 - fd; 1 - fd];
   [fb; fa; 0]; [0; fc; fb]; [fc; 0; fa];
   [fd - fa; - fa; - fa]; [- fb; fd - fb; - fb]; [- fc; - fc; fd - fc]].

(** ** Pyramids *)
Definition yx (i : nat) : T := cst (lX (at_ Pyramid14_coords i)).
Definition yy (i : nat) : T := cst (lY (at_ Pyramid14_coords i)).
Definition yz (i : nat) : T := cst (lZ (at_ Pyramid14_coords i)).
(** pyramid.hpp lines 124-134 *)
Definition Pyramid5_shapes (x y z : T) : list T :=
  map (fun i => (1 + yx i * x) * (1 + yy i * y) * (1 + yz i * z) / 8) (seq 0 4) ++ [(1 + z) / 2].
(** pyramid.hpp lines 141-162 *)
Definition Pyramid5_grads (x y z : T) : list (list T) :=
  map (fun i =>
    let factor_x := 1 + yx i * x in let factor_y := 1 + yy i * y in let factor_z := 1 + yz i * z in
    [yx i * (factor_y * factor_z / 8); yy i * (factor_z * factor_x / 8); yz i * (factor_x * factor_y / 8)]) (seq 0 4)
  ++ [[0; 0; 0.5]].
(** pyramid.hpp lines 256-276 *)
Definition Pyramid13_new_shapes (x y z : T) : list T :=
  let quadratic_x := 1 - x * x in let quadratic_y := 1 - y * y in let quadratic_z := (1 - z * z) / 4 in
  map (fun i =>
    if mem i [5; 7]%nat then
      quadratic_x * ((1 + yy i * y) / 2) * ((1 + yz i * z) / 2 - quadratic_z)
    else if mem i [6; 8]%nat then
      (1 + yx i * x) / 2 * quadratic_y * ((1 + yz i * z) / 2 - quadratic_z)
    else
      (1 + yx i * x) * (1 + yy i * y) * quadratic_z) (seq 5 8).
(** pyramid.hpp lines 277-310 *)
Definition Pyramid13_new_grads (x y z : T) : list (list T) :=
  let quadratic_x := 1 - x * x in let quadratic_y := 1 - y * y in let quadratic_z := (1 - z * z) / 4 in
  map (fun i =>
    if mem i [5; 7]%nat then
      let factor_y := (1 + yy i * y) / 2 in
      let factor_z := (1 + yz i * z) / 2 - quadratic_z in
      let grad_z := (yz i + z) / 2 in
      [-2 * x * factor_y * factor_z; yy i / 2 * quadratic_x * factor_z; quadratic_x * factor_y * grad_z]
    else if mem i [6; 8]%nat then
      let factor_x := (1 + yx i * x) / 2 in
      let factor_z := (1 + yz i * z) / 2 - quadratic_z in
      let grad_z := (yz i + z) / 2 in
      [yx i / 2 * quadratic_y * factor_z; -2 * y * factor_x * factor_z; factor_x * quadratic_y * grad_z]
    else
      let factor_x := 1 + yx i * x in let factor_y := 1 + yy i * y in
      [yx i * factor_y * quadratic_z; yy i * factor_x * quadratic_z; factor_x * factor_y * (- z / 2)]) (seq 5 8).
(** pyramid.hpp lines 313-352 *)
Definition Pyramid5_on (b : nat) : list T := Pyramid5_shapes (yx b) (yy b) (yz b).
Definition Pyramid13_shapes (x y z : T) : list T :=
  correct_shapes 5 Pyramid5_on (seq 5 8) (Pyramid5_shapes x y z ++ Pyramid13_new_shapes x y z).
Definition Pyramid13_grads (x y z : T) : list (list T) :=
  correct_vectors 5 Pyramid5_on (seq 5 8) (Pyramid5_grads x y z ++ Pyramid13_new_grads x y z).
(** pyramid.hpp lines 446-461 *)
Definition Pyramid14_new_shapes (x y z : T) : list T :=
  [(1 - x * x) * (1 - y * y) * ((1 - z) / 2)].
Definition Pyramid14_new_grads (x y z : T) : list (list T) :=
  let quadratic_x := 1 - x * x in let quadratic_y := 1 - y * y in let factor_z := 1 - z in
  [[- x * quadratic_y * factor_z; - y * quadratic_x * factor_z; quadratic_x * quadratic_y * -0.5]].
(** pyramid.hpp lines 464-503 *)
Definition Pyramid13_on (b : nat) : list T := Pyramid13_shapes (yx b) (yy b) (yz b).
Definition Pyramid14_shapes (x y z : T) : list T :=
  correct_shapes 13 Pyramid13_on (seq 13 1) (Pyramid13_shapes x y z ++ Pyramid14_new_shapes x y z).
Definition Pyramid14_grads (x y z : T) : list (list T) :=
  correct_vectors 13 Pyramid13_on (seq 13 1) (Pyramid13_grads x y z ++ Pyramid14_new_grads x y z).

(** ** Wedges *)
Definition wx (i : nat) : T := cst (lX (at_ Wedge18_coords i)).
Definition wy (i : nat) : T := cst (lY (at_ Wedge18_coords i)).
Definition wz (i : nat) : T := cst (lZ (at_ Wedge18_coords i)).
(** wedge.hpp lines 126-138 *)
Definition Wedge6_shapes (a b z : T) : list T :=
  let c := 1 - a - b in let lower := (1 - z) / 2 in let upper := lower + z in
  [a * lower; b * lower; c * lower; a * upper; b * upper; c * upper].
(** wedge.hpp lines 145-173 *)
Definition Wedge6_grads (a b z : T) : list (list T) :=
  let c := 1 - a - b in let lower := (1 - z) / 2 in let upper := lower + z in
  [[lower; 0; -0.5 * a]; [0; lower; -0.5 * b]; [- lower; - lower; -0.5 * c];
   [upper; 0; 0.5 * a]; [0; upper; 0.5 * b]; [- upper; - upper; 0.5 * c]].
(** wedge.hpp lines 267-289 *)
Definition Wedge15_new_shapes (a b z : T) : list T :=
  let c := 1 - a - b in
  let factor_ab := a * b * 4 in let factor_bc := b * c * 4 in let factor_ca := c * a * 4 in
  let lower := (1 - z) / 2 in let middle := 1 - z * z in let upper := (1 + z) / 2 in
  [factor_ab * lower; factor_bc * lower; factor_ca * lower; a * middle; b * middle; c * middle;
   factor_ab * upper; factor_bc * upper; factor_ca * upper].
(** wedge.hpp lines 290-344 *)
Definition Wedge15_new_grads (a b z : T) : list (list T) :=
  let c := 1 - a - b in
  let factor_a := 4 * a in let factor_b := 4 * b in let factor_c := 4 * c in
  let factor_ab := factor_a * b in let factor_bc := factor_b * c in let factor_ca := factor_c * a in
  let edges f g := [[factor_b * f; factor_a * f; factor_ab * g];
    [- factor_b * f; (factor_c - factor_b) * f; factor_bc * g];
    [(factor_c - factor_a) * f; - factor_a * f; factor_ca * g]] in
  let middle := 1 - z * z in let grad := -2 * z in
  edges ((1 - z) / 2) -0.5 ++
  [[middle; 0; a * grad]; [0; middle; b * grad]; [- middle; - middle; c * grad]] ++
  edges ((1 + z) / 2) 0.5.
(** wedge.hpp lines 347-383 *)
Definition Wedge6_on (j : nat) : list T := Wedge6_shapes (wx j) (wy j) (wz j).
Definition Wedge15_shapes (a b z : T) : list T :=
  correct_shapes 6 Wedge6_on (seq 6 9) (Wedge6_shapes a b z ++ Wedge15_new_shapes a b z).
Definition Wedge15_grads (a b z : T) : list (list T) :=
  correct_vectors 6 Wedge6_on (seq 6 9) (Wedge6_grads a b z ++ Wedge15_new_grads a b z).
(** wedge.hpp lines 482-515 *)
Definition Wedge18_shapes (a b z : T) : list T :=
  let c := 1 - a - b in
  let quadratic_a := a * (2 * a - 1) in let quadratic_b := b * (2 * b - 1) in let quadratic_c := c * (2 * c - 1) in
  let factor_ab := a * b * 4 in let factor_bc := b * c * 4 in let factor_ca := c * a * 4 in
  let lower := (z - 1) * z / 2 in let upper := lower + z in let middle := 1 - z * z in
  [quadratic_a * lower; quadratic_b * lower; quadratic_c * lower;
   quadratic_a * upper; quadratic_b * upper; quadratic_c * upper;
   factor_ab * lower; factor_bc * lower; factor_ca * lower;
   quadratic_a * middle; quadratic_b * middle; quadratic_c * middle;
   factor_ab * upper; factor_bc * upper; factor_ca * upper;
   factor_ab * middle; factor_bc * middle; factor_ca * middle].
(** wedge.hpp lines 522-615; [corners] and [edges] are the three corner and three edge nodes of one layer,
    which the code writes out for each of the three layers *)
Definition Wedge18_grads (a b z : T) : list (list T) :=
  let c := 1 - a - b in
  let quadratic_a := a * (2 * a - 1) in let quadratic_b := b * (2 * b - 1) in let quadratic_c := c * (2 * c - 1) in
  let factor_a := a * 4 in let factor_b := b * 4 in let factor_c := c * 4 in
  let factor_ab := factor_a * b in let factor_bc := factor_b * c in let factor_ca := factor_c * a in
  let corners f g := [[(factor_a - 1) * f; 0; quadratic_a * g]; [0; (factor_b - 1) * f; quadratic_b * g];
    [(1 - factor_c) * f; (1 - factor_c) * f; quadratic_c * g]] in
  let edges f g := [[factor_b * f; factor_a * f; factor_ab * g];
    [- factor_b * f; (factor_c - factor_b) * f; factor_bc * g];
    [(factor_c - factor_a) * f; - factor_a * f; factor_ca * g]] in
  let lower := (z - 1) * z / 2 in let grad_lower := z - 0.5 in
  let upper := lower + z in let grad_upper := grad_lower + 1 in
  let middle := 1 - z * z in let grad_middle := -2 * z in
  corners lower grad_lower ++ corners upper grad_upper ++ edges lower grad_lower ++
  corners middle grad_middle ++ edges upper grad_upper ++ edges middle grad_middle.

(** ** Hexahedra *)
Definition hx (i : nat) : T := cst (lX (at_ Hexahedron27_coords i)).
Definition hy (i : nat) : T := cst (lY (at_ Hexahedron27_coords i)).
Definition hz (i : nat) : T := cst (lZ (at_ Hexahedron27_coords i)).
(** hexahedron.hpp lines 419-429 *)
Definition Hexahedron8_shapes (x y z : T) : list T :=
  map (fun i => (1 + hx i * x) * (1 + hy i * y) * (1 + hz i * z) / 8) (seq 0 8).
(** hexahedron.hpp lines 436-455 *)
Definition Hexahedron8_grads (x y z : T) : list (list T) :=
  map (fun i =>
    let factor_x := 1 + hx i * x in let factor_y := 1 + hy i * y in let factor_z := 1 + hz i * z in
    [hx i * (factor_y * factor_z / 8); hy i * (factor_z * factor_x / 8); hz i * (factor_x * factor_y / 8)]) (seq 0 8).
(** hexahedron.hpp lines 462-479 *)
Definition Hexahedron8_hessians (x y z : T) : list (list T) :=
  map (fun i =>
    let factor_x := (1 + hx i * x) / 8 in let factor_y := (1 + hy i * y) / 8 in let factor_z := (1 + hz i * z) / 8 in
    [0; hx i * hy i * factor_z; hx i * hz i * factor_y; 0; hy i * hz i * factor_x; 0]) (seq 0 8).
(** hexahedron.hpp lines 485-493 *)
Definition Hexahedron8_tensors (x y z : T) : list (list T) :=
  map (fun i => [0; 0; 0; 0; hx i * hy i * hz i / 8; 0; 0; 0; 0; 0]) (seq 0 8).

Definition along_x (a : nat) : bool := mem a [8; 10; 16; 18]%nat.
Definition along_y (a : nat) : bool := mem a [9; 11; 17; 19]%nat.
(** hexahedron.hpp lines 566-589 *)
Definition Hexahedron20_new_shapes (x y z : T) : list T :=
  let factor_x := (1 - x * x) / 4 in let factor_y := (1 - y * y) / 4 in let factor_z := (1 - z * z) / 4 in
  map (fun a =>
    if along_x a then factor_x * (1 + hy a * y) * (1 + hz a * z)
    else if along_y a then factor_y * (1 + hx a * x) * (1 + hz a * z)
    else factor_z * (1 + hx a * x) * (1 + hy a * y)) (seq 8 12).
(** hexahedron.hpp lines 590-628 *)
Definition Hexahedron20_new_grads (x y z : T) : list (list T) :=
  map (fun a =>
    if along_x a then
      let shape_x := (1 - x * x) / 4 in let grad_x := - x / 2 in
      let shape_y := 1 + hy a * y in let shape_z := 1 + hz a * z in
      [grad_x * shape_y * shape_z; shape_x * hy a * shape_z; shape_x * shape_y * hz a]
    else if along_y a then
      let shape_y := (1 - y * y) / 4 in let grad_y := - y / 2 in
      let shape_x := 1 + hx a * x in let shape_z := 1 + hz a * z in
      [hx a * shape_y * shape_z; shape_x * grad_y * shape_z; shape_x * shape_y * hz a]
    else
      let shape_z := (1 - z * z) / 4 in let grad_z := - z / 2 in
      let shape_x := 1 + hx a * x in let shape_y := 1 + hy a * y in
      [hx a * shape_y * shape_z; shape_x * hy a * shape_z; shape_x * shape_y * grad_z]) (seq 8 12).
(** hexahedron.hpp lines 629-670 *)
Definition Hexahedron20_new_hessians (x y z : T) : list (list T) :=
  map (fun a =>
    if along_x a then
      let factor_x := -0.5 * x in let factor_y := 1 + hy a * y in let factor_z := 1 + hz a * z in
      [-0.5 * factor_y * factor_z; factor_x * hy a * factor_z; factor_x * factor_y * hz a;
       0; (0.25 - factor_x * factor_x) * hy a * hz a; 0]
    else if along_y a then
      let factor_x := 1 + hx a * x in let factor_y := -0.5 * y in let factor_z := 1 + hz a * z in
      [0; factor_y * hx a * factor_z; (0.25 - factor_y * factor_y) * hx a * hz a;
       -0.5 * factor_x * factor_z; factor_y * factor_x * hz a; 0]
    else
      let factor_x := 1 + hx a * x in let factor_y := 1 + hy a * y in let factor_z := -0.5 * z in
      [0; (0.25 - factor_z * factor_z) * hx a * hy a; factor_z * hx a * factor_y;
       0; factor_z * factor_x * hy a; -0.5 * factor_x * factor_y]) (seq 8 12).
(** hexahedron.hpp lines 671-701 *)
Definition Hexahedron20_new_tensors (x y z : T) : list (list T) :=
  map (fun a =>
    if along_x a then
      [0; -0.5 * hy a * (1 + hz a * z); -0.5 * (1 + hy a * y) * hz a; 0; -0.5 * x * hy a * hz a; 0; 0; 0; 0; 0]
    else if along_y a then
      [0; 0; 0; -0.5 * hx a * (1 + hz a * z); -0.5 * y * hx a * hz a; 0; 0; -0.5 * (1 + hx a * x) * hz a; 0; 0]
    else
      [0; 0; 0; 0; -0.5 * z * hx a * hy a; -0.5 * hx a * (1 + hy a * y); 0; 0; -0.5 * (1 + hx a * x) * hy a; 0])
    (seq 8 12).
(** hexahedron.hpp lines 533-542 [BuildOldShapesOnNewNodes] *)
Definition Hexahedron8_on (b : nat) : list T := Hexahedron8_shapes (hx b) (hy b) (hz b).
(** hexahedron.hpp lines 704-715, 722-733, 740-751, 758-769 *)
Definition Hexahedron20_shapes (x y z : T) : list T :=
  correct_shapes 8 Hexahedron8_on (seq 8 12) (Hexahedron8_shapes x y z ++ Hexahedron20_new_shapes x y z).
Definition Hexahedron20_grads (x y z : T) : list (list T) :=
  correct_vectors 8 Hexahedron8_on (seq 8 12) (Hexahedron8_grads x y z ++ Hexahedron20_new_grads x y z).
Definition Hexahedron20_hessians (x y z : T) : list (list T) :=
  correct_vectors 8 Hexahedron8_on (seq 8 12) (Hexahedron8_hessians x y z ++ Hexahedron20_new_hessians x y z).
Definition Hexahedron20_tensors (x y z : T) : list (list T) :=
  correct_vectors 8 Hexahedron8_on (seq 8 12) (Hexahedron8_tensors x y z ++ Hexahedron20_new_tensors x y z).

Definition normal_x (a : nat) : bool := mem a [22; 24]%nat.
Definition normal_y (a : nat) : bool := mem a [21; 23]%nat.
(** hexahedron.hpp lines 847-870 *)
Definition Hexahedron26_new_shapes (x y z : T) : list T :=
  let quadratic_x := 1 - x * x in let quadratic_y := 1 - y * y in let quadratic_z := 1 - z * z in
  map (fun a =>
    if normal_x a then quadratic_y * quadratic_z / 2 * (1 + hx a * x)
    else if normal_y a then quadratic_z * quadratic_x / 2 * (1 + hy a * y)
    else quadratic_x * quadratic_y / 2 * (1 + hz a * z)) (seq 20 6).
(** hexahedron.hpp lines 871-903 *)
Definition Hexahedron26_new_grads (x y z : T) : list (list T) :=
  let quadratic_x := 1 - x * x in let quadratic_y := 1 - y * y in let quadratic_z := 1 - z * z in
  map (fun a =>
    if normal_x a then
      let factor_x := 1 + hx a * x in
      [hx a / 2 * quadratic_y * quadratic_z; factor_x * (- y) * quadratic_z; factor_x * (- z) * quadratic_y]
    else if normal_y a then
      let factor_y := 1 + hy a * y in
      [factor_y * (- x) * quadratic_z; hy a / 2 * quadratic_z * quadratic_x; factor_y * (- z) * quadratic_x]
    else
      let factor_z := 1 + hz a * z in
      [factor_z * (- x) * quadratic_y; factor_z * (- y) * quadratic_x; hz a / 2 * quadratic_x * quadratic_y])
    (seq 20 6).
(** hexahedron.hpp lines 904-949 *)
Definition Hexahedron26_new_hessians (x y z : T) : list (list T) :=
  let quadratic_x := 1 - x * x in let quadratic_y := 1 - y * y in let quadratic_z := 1 - z * z in
  map (fun a =>
    if normal_x a then
      let linear_x := 1 + hx a * x in
      [0; hx a * (- y) * quadratic_z; hx a * (- z) * quadratic_y;
       linear_x * (- quadratic_z); linear_x * y * z * 2; linear_x * (- quadratic_y)]
    else if normal_y a then
      let linear_y := 1 + hy a * y in
      [linear_y * (- quadratic_z); hy a * (- x) * quadratic_z; linear_y * x * z * 2;
       0; hy a * (- z) * quadratic_x; linear_y * (- quadratic_x)]
    else
      let linear_z := 1 + hz a * z in
      [linear_z * (- quadratic_y); linear_z * x * y * 2; hz a * (- x) * quadratic_y;
       linear_z * (- quadratic_x); hz a * (- y) * quadratic_x; 0]) (seq 20 6).
(** hexahedron.hpp lines 950-997 *)
Definition Hexahedron26_new_tensors (x y z : T) : list (list T) :=
  let quadratic_x := 1 - x * x in let quadratic_y := 1 - y * y in let quadratic_z := 1 - z * z in
  map (fun a =>
    if normal_x a then
      let linear_x := 1 + hx a * x in
      [0; 0; 0; - hx a * quadratic_z; hx a * y * z * 2; - hx a * quadratic_y; 0; linear_x * z * 2; linear_x * y * 2; 0]
    else if normal_y a then
      let linear_y := 1 + hy a * y in
      [0; - hy a * quadratic_z; linear_y * z * 2; 0; hy a * x * z * 2; linear_y * x * 2; 0; 0; - hy a * quadratic_x; 0]
    else
      let linear_z := 1 + hz a * z in
      [0; linear_z * y * 2; - hz a * quadratic_y; linear_z * x * 2; hz a * x * y * 2; 0; 0; - hz a * quadratic_x; 0; 0])
    (seq 20 6).
(** hexahedron.hpp lines 812-823 [BuildOldShapesOnNewNodes] *)
Definition Hexahedron20_on (b : nat) : list T := Hexahedron20_shapes (hx b) (hy b) (hz b).
(** hexahedron.hpp lines 1000-1063 *)
Definition Hexahedron26_shapes (x y z : T) : list T :=
  correct_shapes 20 Hexahedron20_on (seq 20 6) (Hexahedron20_shapes x y z ++ Hexahedron26_new_shapes x y z).
Definition Hexahedron26_grads (x y z : T) : list (list T) :=
  correct_vectors 20 Hexahedron20_on (seq 20 6) (Hexahedron20_grads x y z ++ Hexahedron26_new_grads x y z).
Definition Hexahedron26_hessians (x y z : T) : list (list T) :=
  correct_vectors 20 Hexahedron20_on (seq 20 6) (Hexahedron20_hessians x y z ++ Hexahedron26_new_hessians x y z).
Definition Hexahedron26_tensors (x y z : T) : list (list T) :=
  correct_vectors 20 Hexahedron20_on (seq 20 6) (Hexahedron20_tensors x y z ++ Hexahedron26_new_tensors x y z).

(** hexahedron.hpp lines 183-204; [int i_x = local_i[X] + 1] is the position of the factor *)
Definition position (q : Q) : nat := if Qeq_bool q (-1)%Q then 0%nat else if Qeq_bool q 0%Q then 1%nat else 2%nat.
Definition factors (t : T) : list T := [(t - 1) * t / 2; 1 - t * t; (t + 1) * t / 2].
Definition slopes (t : T) : list T := [t - 0.5; -2 * t; t + 0.5].
Definition pick (l : list T) (q : Q) : T := nth (position q) l 0.
Definition Hexahedron27_shapes (x y z : T) : list T :=
  map (fun i => pick (factors x) (lX i) * pick (factors y) (lY i) * pick (factors z) (lZ i)) Hexahedron27_coords.
(** hexahedron.hpp lines 211-237 *)
Definition Hexahedron27_grads (x y z : T) : list (list T) :=
  map (fun i =>
    [pick (slopes x) (lX i) * pick (factors y) (lY i) * pick (factors z) (lZ i);
     pick (factors x) (lX i) * pick (slopes y) (lY i) * pick (factors z) (lZ i);
     pick (factors x) (lX i) * pick (factors y) (lY i) * pick (slopes z) (lZ i)]) Hexahedron27_coords.
(** hexahedron.hpp lines 246-264 *)
Definition Hexahedron27_new_hessians (x y z : T) : list (list T) :=
  let quadratic_x := 1 - x * x in let quadratic_y := 1 - y * y in let quadratic_z := 1 - z * z in
  let linear_x := -2 * x in let linear_y := -2 * y in let linear_z := -2 * z in
  [[-2 * quadratic_y * quadratic_z; linear_x * linear_y * quadratic_z; linear_x * linear_z * quadratic_y;
    -2 * quadratic_x * quadratic_z; linear_y * linear_z * quadratic_x; -2 * quadratic_x * quadratic_y]].
(** hexahedron.hpp lines 265-285; [/ (-8)] *)
Definition Hexahedron27_new_tensors (x y z : T) : list (list T) :=
  let quadratic_x := 1 - x * x in let quadratic_y := 1 - y * y in let quadratic_z := 1 - z * z in
  let linear_x := 4 * x in let linear_y := 4 * y in let linear_z := 4 * z in
  [[0; linear_y * quadratic_z; linear_z * quadratic_y; linear_x * quadratic_z;
    linear_x * linear_y * linear_z * cst (-1 # 8); linear_x * quadratic_y;
    0; linear_z * quadratic_x; linear_y * quadratic_x; 0]].
(** hexahedron.hpp lines 153-165 [BuildOldShapesOnNewNodes] *)
Definition Hexahedron26_on (b : nat) : list T := Hexahedron26_shapes (hx b) (hy b) (hz b).
(** hexahedron.hpp lines 288-319 *)
Definition Hexahedron27_hessians (x y z : T) : list (list T) :=
  correct_vectors 26 Hexahedron26_on (seq 26 1) (Hexahedron26_hessians x y z ++ Hexahedron27_new_hessians x y z).
Definition Hexahedron27_tensors (x y z : T) : list (list T) :=
  correct_vectors 26 Hexahedron26_on (seq 26 1) (Hexahedron26_tensors x y z ++ Hexahedron27_new_tensors x y z).

End Shapes.

(** ** The element types, with their functions of the three local coordinates (the third is ignored on faces) *)
Record Element := mkElement {
  e_dim : nat;
  e_coords : list Local;
  e_shapes : forall T, Ops T -> T -> T -> T -> list T;
  e_grads : forall T, Ops T -> T -> T -> T -> list (list T) }.

Definition on_face {T A : Type} (f : Ops T -> T -> T -> A) (ops : Ops T) (x y _z : T) : A := f ops x y.

Definition Triangle3 := mkElement 2 Triangle3_coords (fun T => on_face (@Triangle3_shapes T)) (fun T => on_face (@Triangle3_grads T)).
Definition Triangle6 := mkElement 2 Triangle6_coords (fun T => on_face (@Triangle6_shapes T)) (fun T => on_face (@Triangle6_grads T)).
Definition Quadrangle4 := mkElement 2 Quadrangle4_coords (fun T => on_face (@Quadrangle4_shapes T)) (fun T => on_face (@Quadrangle4_grads T)).
Definition Quadrangle8 := mkElement 2 Quadrangle8_coords (fun T => on_face (@Quadrangle8_shapes T)) (fun T => on_face (@Quadrangle8_grads T)).
Definition Quadrangle9 := mkElement 2 Quadrangle9_coords (fun T => on_face (@Quadrangle9_shapes T)) (fun T => on_face (@Quadrangle9_grads T)).
Definition Tetrahedron4 := mkElement 3 Tetrahedron4_coords (@Tetrahedron4_shapes) (@Tetrahedron4_grads).
Definition Tetrahedron10 := mkElement 3 Tetrahedron10_coords (@Tetrahedron10_shapes) (@Tetrahedron10_grads).
Definition Pyramid5 := mkElement 3 Pyramid5_coords (@Pyramid5_shapes) (@Pyramid5_grads).
Definition Pyramid13 := mkElement 3 Pyramid13_coords (@Pyramid13_shapes) (@Pyramid13_grads).
Definition Pyramid14 := mkElement 3 Pyramid14_coords (@Pyramid14_shapes) (@Pyramid14_grads).
Definition Wedge6 := mkElement 3 Wedge6_coords (@Wedge6_shapes) (@Wedge6_grads).
Definition Wedge15 := mkElement 3 Wedge15_coords (@Wedge15_shapes) (@Wedge15_grads).
Definition Wedge18 := mkElement 3 Wedge18_coords (@Wedge18_shapes) (@Wedge18_grads).
Definition Hexahedron8 := mkElement 3 (firstn 8 Hexahedron27_coords) (@Hexahedron8_shapes) (@Hexahedron8_grads).
Definition Hexahedron20 := mkElement 3 (firstn 20 Hexahedron27_coords) (@Hexahedron20_shapes) (@Hexahedron20_grads).
Definition Hexahedron26 := mkElement 3 (firstn 26 Hexahedron27_coords) (@Hexahedron26_shapes) (@Hexahedron26_grads).
Definition Hexahedron27 := mkElement 3 Hexahedron27_coords (@Hexahedron27_shapes) (@Hexahedron27_grads).
