(** Waves of the one-dimensional Euler equations, written independently of the code. *)
From Coq Require Import Reals List.
From Verif Require Import Model_Euler Spec_Euler Model_Exact.
Import ListNotations.
Open Scope R_scope.

(** [f'] gives tangents above [f] on the positive numbers *)
Definition below_tangents (f f' : R -> R) : Prop :=
  forall x y, 0 < x -> 0 < y -> f y <= f x + f' x * (y - x).

(** a 1-wave runs to the left, a 3-wave to the right *)
Definition shock_sign (k : field) : R := match k with Wave1 => -1 | Wave3 => 1 end.

(** mass, momentum and total energy of a one-dimensional state, relative to a shock of speed [s] *)
Definition jump_conditions (gamma s : R) (w0 w1 : Tuple) : Prop :=
  mass w0 * (mX w0 - s) = mass w1 * (mX w1 - s) /\
  mass w0 * (mX w0 - s) * mX w0 + energy w0 = mass w1 * (mX w1 - s) * mX w1 + energy w1 /\
  (energy w0 / (gamma - 1) + mass w0 * (mX w0 * mX w0) / 2) * (mX w0 - s) + energy w0 * mX w0 =
  (energy w1 / (gamma - 1) + mass w1 * (mX w1 * mX w1) / 2) * (mX w1 - s) + energy w1 * mX w1.

(** p / rho^gamma is the same *)
Definition same_entropy (gamma : R) (w0 w1 : Tuple) : Prop :=
  energy w1 * Rpower (mass w0) gamma = energy w0 * Rpower (mass w1) gamma.

(** u + 2 a / (gamma - 1) across a 1-wave, u - 2 a / (gamma - 1) across a 3-wave *)
Definition same_invariant (gamma : R) (k : field) (w0 w1 : Tuple) : Prop :=
  mX w0 - shock_sign k * (2 / (gamma - 1) * GetSpeedOfSound gamma w0) =
  mX w1 - shock_sign k * (2 / (gamma - 1) * GetSpeedOfSound gamma w1).

(** speed of the characteristic u -/+ a *)
Definition characteristic (gamma : R) (k : field) (w : Tuple) : R :=
  mX w + shock_sign k * GetSpeedOfSound gamma w.

(** [w1] is what is seen on the time axis when the [k]-wave between [w] and a star region with
    pressure [p] and velocity [u] has passed *)
Inductive seen_through (gamma : R) (k : field) (w : Tuple) (p u : R) : Tuple -> Prop :=
| seen_no_wave : p = energy w -> u = mX w -> seen_through gamma k w p u w
| seen_shock s w1 w2 : energy w < p -> mX w1 = u -> energy w1 = p -> mass w < mass w1 ->
    0 < shock_sign k * (s - mX w) -> jump_conditions gamma s w w1 ->
    (w2 = w /\ shock_sign k * s <= 0 \/ w2 = w1 /\ 0 < shock_sign k * s) ->
    seen_through gamma k w p u w2
| seen_expansion w2 : p < energy w -> physical w2 -> same_entropy gamma w w2 -> same_invariant gamma k w w2 ->
    (w2 = w /\ shock_sign k * characteristic gamma k w < 0 \/
     mX w2 = u /\ energy w2 = p /\ 0 < shock_sign k * characteristic gamma k w2 \/
     characteristic gamma k w2 = 0) ->
    seen_through gamma k w p u w2.

(** the states [w] and (pressure [p], velocity [u]) are joined by a [k]-wave: nothing, a compressing
    shock, or an expansion *)
Inductive joined (gamma : R) (k : field) (w : Tuple) (p u : R) : Prop :=
| joined_no_wave : p = energy w -> u = mX w -> joined gamma k w p u
| joined_shock s w1 : energy w < p -> mX w1 = u -> energy w1 = p -> mass w < mass w1 ->
    0 < shock_sign k * (s - mX w) -> jump_conditions gamma s w w1 -> joined gamma k w p u
| joined_expansion w1 : p < energy w -> physical w1 -> mX w1 = u -> energy w1 = p ->
    same_entropy gamma w w1 -> same_invariant gamma k w w1 -> joined gamma k w p u.

(** the expansions of both sides end before they meet *)
Definition vacuum_between (gamma : R) (l r : Tuple) : Prop :=
  mX l + 2 / (gamma - 1) * GetSpeedOfSound gamma l <= mX r - 2 / (gamma - 1) * GetSpeedOfSound gamma r.
