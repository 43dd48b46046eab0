(** The one-dimensional Euler equations, written independently of the code. *)
From Coq Require Import Reals.
From Verif Require Import Model_PyEuler.
Open Scope R_scope.

(** pressure of conservative variables (density, momentum, energy) *)
Definition pressure1 (gamma : R) (U : Arr) : R := (gamma - 1) * (a2 U - a1 U ^ 2 / (2 * a0 U)).
Definition physical1 (gamma : R) (U : Arr) : Prop := 0 < a0 U /\ 0 < pressure1 gamma U.

(** (m, m^2/rho + p, (E + p) m/rho) *)
Definition flux1 (gamma : R) (U : Arr) : Arr :=
  arr (a1 U) (a1 U ^ 2 / a0 U + pressure1 gamma U) ((a2 U + pressure1 gamma U) * (a1 U / a0 U)).

Definition sound1 (gamma : R) (U : Arr) : R := sqrt (gamma * pressure1 gamma U / a0 U).
Definition speed1 (U : Arr) : R := a1 U / a0 U.

(** conservative variables of density, velocity and pressure, and their derivatives *)
Definition conserved (gamma rho u p : R) : Arr := arr rho (rho * u) (p / (gamma - 1) + rho * u ^ 2 / 2).
Definition conserved' (gamma rho u p rho' u' p' : R) : Arr :=
  arr rho' (rho' * u + rho * u') (p' / (gamma - 1) + (rho' * u ^ 2 + rho * (2 * u * u')) / 2).

Definition derivable3 (f : R -> Arr) (t : R) (f' : Arr) : Prop :=
  derivable_pt_lim (fun t => a0 (f t)) t (a0 f') /\
  derivable_pt_lim (fun t => a1 (f t)) t (a1 f') /\
  derivable_pt_lim (fun t => a2 (f t)) t (a2 f').

(** [A] is the Jacobian matrix of [F] at [U]. *)
Definition jacobian3 (F : Arr -> Arr) (U : Arr) (A : Mat3) : Prop :=
  forall D, derivable3 (fun t => F (add3 U (scale3 t D))) 0 (mul3 A D).

(** products and the unit matrix *)
Definition mmul3 (m n : Mat3) : Mat3 :=
  let row r := arr (dot3 r (column3 a0 n)) (dot3 r (column3 a1 n)) (dot3 r (column3 a2 n)) in
  mat3 (row (r0 m)) (row (r1 m)) (row (r2 m)).
Definition diag3 (d : Arr) : Mat3 := mat3 (arr (a0 d) 0 0) (arr 0 (a1 d) 0) (arr 0 0 (a2 d)).
Definition id3 : Mat3 := diag3 (arr 1 1 1).

Definition opp3 (u : Arr) : Arr := scale3 (-1) u.
(** look from the other side *)
Definition mirror1 (u : Arr) : Arr := arr (a0 u) (- a1 u) (a2 u).
