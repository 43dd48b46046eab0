(** Similarity solutions of the one-dimensional Riemann problem, written independently of the code. *)
From Coq Require Import Reals List.
From Verif Require Import Model_Euler Spec_Euler Model_Exact Spec_Exact Model_PyEuler Spec_PyEuler.
Import ListNotations.
Open Scope R_scope.

(** the state of a side *)
Definition state (gamma : R) (U : Arr) : Tuple := mkTuple (a0 U) (speed1 U) [] (pressure1 gamma U).
(** seen by an observer who moves with speed [s] *)
Definition moving (s : R) (w : Tuple) : Tuple := mkTuple (mass w) (mX w - s) [] (energy w).

(** [w] is the state on the ray x = s t, if pressure [p] and velocity [u] are those between both waves: an
    observer who moves along the ray sees it through the wave of their side *)
Definition on_ray (gamma : R) (l r : Tuple) (p u s : R) (w : Tuple) : Prop :=
  (s < u -> seen_through gamma Wave1 (moving s l) p (u - s) (moving s w)) /\
  (u <= s -> seen_through gamma Wave3 (moving s r) p (u - s) (moving s w)).

(** ends of expansions into vacuum *)
Definition escape_left (gamma : R) (l : Tuple) : R := mX l + 2 / (gamma - 1) * GetSpeedOfSound gamma l.
Definition escape_right (gamma : R) (r : Tuple) : R := mX r - 2 / (gamma - 1) * GetSpeedOfSound gamma r.

(** the two numbers are equal or differ by more than [eps] *)
Definition resolved (eps p q : R) : Prop := p = q \/ q + eps < p \/ p < q - eps.
