(** What it means for a quadrature rule to be exact: polynomials and their (iterated) Riemann integrals.
    [is_RInt f a b I] is Coquelicot's "the Riemann integral of [f] from [a] to [b] is [I]". *)
From Coq Require Import Reals.
From Coquelicot Require Import Coquelicot.
From Verif Require Import RSum.
Open Scope R_scope.

(** polynomials of degree at most [d], of degree at most [dx], [dy], [dz] in the variables, and of total
    degree at most [d], with the coefficients [c] *)
Definition poly1 (d : nat) (c : nat -> R) (x : R) : R := rsum (S d) (fun i => c i * x ^ i).
Definition poly2 (dx dy : nat) (c : nat -> nat -> R) (x y : R) : R :=
  rsum (S dx) (fun i => rsum (S dy) (fun j => c i j * (x ^ i * y ^ j))).
Definition poly3 (dx dy dz : nat) (c : nat -> nat -> nat -> R) (x y z : R) : R :=
  rsum (S dx) (fun i => rsum (S dy) (fun j => rsum (S dz) (fun k => c i j k * (x ^ i * y ^ j * z ^ k)))).
Definition total2 (d : nat) (c : nat -> nat -> R) (x y : R) : R :=
  rsum (S d) (fun i => rsum (S (d - i)) (fun j => c i j * (x ^ i * y ^ j))).
Definition total3 (d : nat) (c : nat -> nat -> nat -> R) (x y z : R) : R :=
  rsum (S d) (fun i => rsum (S (d - i)) (fun j => rsum (S (d - i - j)) (fun k => c i j k * (x ^ i * y ^ j * z ^ k)))).
(** of total degree at most [d] in [x] and [y], and at most [dz] in [z] *)
Definition prism3 (d dz : nat) (c : nat -> nat -> nat -> R) (x y z : R) : R :=
  rsum (S d) (fun i => rsum (S (d - i)) (fun j => rsum (S dz) (fun k => c i j k * (x ^ i * y ^ j * z ^ k)))).

(** the sums of the absolute values of the coefficients *)
Definition size1 (d : nat) (c : nat -> R) : R := rsum (S d) (fun i => Rabs (c i)).
Definition size2 (d : nat) (c : nat -> nat -> R) : R :=
  rsum (S d) (fun i => rsum (S (d - i)) (fun j => Rabs (c i j))).
Definition size3 (d : nat) (c : nat -> nat -> nat -> R) : R :=
  rsum (S d) (fun i => rsum (S (d - i)) (fun j => rsum (S (d - i - j)) (fun k => Rabs (c i j k)))).
Definition prism_size (d dz : nat) (c : nat -> nat -> nat -> R) : R :=
  rsum (S d) (fun i => rsum (S (d - i)) (fun j => rsum (S dz) (fun k => Rabs (c i j k)))).
Definition box_size (dx dy dz : nat) (c : nat -> nat -> nat -> R) : R :=
  rsum (S dx) (fun i => rsum (S dy) (fun j => rsum (S dz) (fun k => Rabs (c i j k)))).

(** iterated integrals: [y] from [a x] to [b x], then [x] from 0 or -1 to 1, and the same in space *)
Definition integral2 (a0 b0 : R) (a b : R -> R) (f : R -> R -> R) (I : R) : Prop :=
  exists g, (forall x, is_RInt (f x) (a x) (b x) (g x)) /\ is_RInt g a0 b0 I.
Definition integral3 (a0 b0 : R) (a b : R -> R) (a' b' : R -> R -> R) (f : R -> R -> R -> R) (I : R) : Prop :=
  exists g, (forall x y, is_RInt (f x y) (a' x y) (b' x y) (g x y)) /\ integral2 a0 b0 a b g I.

(** over the square, the cube, the triangle, the tetrahedron and the wedge of reference *)
Definition over_square := integral2 (-1) 1 (fun _ => -1) (fun _ => 1).
Definition over_cube := integral3 (-1) 1 (fun _ => -1) (fun _ => 1) (fun _ _ => -1) (fun _ _ => 1).
Definition over_triangle := integral2 0 1 (fun _ => 0) (fun x => 1 - x).
Definition over_tetrahedron := integral3 0 1 (fun _ => 0) (fun x => 1 - x) (fun _ _ => 0) (fun x y => 1 - x - y).
Definition over_wedge := integral3 0 1 (fun _ => 0) (fun x => 1 - x) (fun _ _ => -1) (fun _ _ => 1).

(** [q] is the value of the integral of [f]; [q] is within [err] of the value of the integral of [f] *)
Definition exactly {F} (over : F -> R -> Prop) (f : F) (q : R) : Prop := forall I, over f I <-> I = q.
Definition within {F} (over : F -> R -> Prop) (f : F) (q err : R) : Prop :=
  exists I, exactly over f I /\ Rabs (q - I) <= err.
Definition from_to (a b : R) (f : R -> R) (I : R) : Prop := is_RInt f a b I.

(** the numbers of points of the rules on the triangle and on the tetrahedron, their degrees, and the error of
    the decimal constants *)
Inductive triangle_rule : nat -> nat -> Prop :=
| T1 : triangle_rule 1 1 | T3 : triangle_rule 3 2 | T6 : triangle_rule 6 4 | T12 : triangle_rule 12 6 | T16 : triangle_rule 16 8.
Inductive tetrahedron_rule : nat -> nat -> R -> Prop :=
| TT1 : tetrahedron_rule 1 1 (/ 10 ^ 20) | TT4 : tetrahedron_rule 4 2 (/ 10 ^ 20) | TT14 : tetrahedron_rule 14 5 (/ 10 ^ 20)
| TT15 : tetrahedron_rule 15 5 (/ 10 ^ 17) | TT24 : tetrahedron_rule 24 6 (/ 10 ^ 20) | TT46 : tetrahedron_rule 46 8 (/ 10 ^ 20).
