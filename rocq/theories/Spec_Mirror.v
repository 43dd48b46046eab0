(** Specification: the flux through a face does not depend on the side from which it is computed. *)
From Coq Require Import Reals List.
From Verif Require Import Model_Euler Spec_Euler Model_Simple.
Import ListNotations.
Open Scope R_scope.

(** the opposite matrices *)
Definition opp2 (a : Mat2) : Mat2 := mat2 (- m00 a) (- m01 a) (- m10 a) (- m11 a).
Definition oppK (a : Mat) : Mat := fun i j => - a i j.
Definition opp3 (nu : R * R * R) : R * R * R := let '(x, y, z) := nu in (- x, - y, - z).
Definition oppC (v : Col2) : Col2 := (- fst v, - snd v).

(** a map of the tangential velocities that keeps angles and lengths *)
Record isometry (n : nat) (T : list R -> list R) : Prop := {
  iso_length : forall l, length l = n -> length (T l) = n;
  iso_add : forall a b, length a = n -> length b = n -> T (addL a b) = addL (T a) (T b);
  iso_scale : forall c l, length l = n -> T (map (fun x => x * c) l) = map (fun x => x * c) (T l);
  iso_norm : forall l, length l = n -> sumsq (T l) = sumsq l
}.
Definition turn (T : list R -> list R) (t : Tuple) : Tuple := mkTuple (mass t) (mX t) (T (mT t)) (energy t).

(** a solver of the Riemann problem along the first axis does not prefer a tangential direction *)
Definition isotropic (n : nat) (solver : Tuple -> Tuple -> Tuple) : Prop :=
  forall T l r, isometry n T -> length (mT l) = n -> length (mT r) = n ->
  length (mT (solver l r)) = n /\ solver (turn T l) (turn T r) = turn T (solver l r).

(** it does not prefer a side for the states [l] and [r] *)
Definition mirrored (solver : Tuple -> Tuple -> Tuple) (l r : Tuple) : Prop :=
  solver (mirror r) (mirror l) = negT (mirror (solver l r)).

(** the left wave of HLLC moves to the right and its right wave to the left *)
Definition inverted (gamma : R) (l r : Tuple) : Prop :=
  let '(sl, _, sr) := Hllc_Initialize gamma l r in 0 <= sl /\ sr <= 0.
