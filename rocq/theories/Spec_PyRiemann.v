(** What solutions of one-dimensional Riemann problems should be. *)
From Coq Require Import Reals.
From Verif Require Import Model_Simple Spec_Simple.
Open Scope R_scope.

(** The entropy solution of u_t + f(u)_x = 0 with the values [l] on the left and [r] on the right of
    0 (Osher's formula): along each ray x = s t, the value [w s] minimises f(u) - s u between the
    two given values if l <= r, and maximises it if r <= l. *)
Definition osher (f : R -> R) (l r : R) (w : R -> R) : Prop :=
  forall s,
    (l <= r -> l <= w s <= r /\ forall u, l <= u <= r -> f (w s) - s * w s <= f u - s * u) /\
    (r <= l -> r <= w s <= l /\ forall u, r <= u <= l -> f u - s * u <= f (w s) - s * w s).

(** the flux functions of the equations *)
Definition linear_flux (a : R) : R -> R := fun u => a * u.
Definition burgers_flux (k : R) : R -> R := fun u => k * u ^ 2 / 2.

(** [A] is the Jacobian matrix of [F] at [U]. *)
Definition jacobian2 (F : Col2 -> Col2) (U : Col2) (A : Mat2) : Prop :=
  forall D : Col2,
    derivable_pt_lim (fun t => fst (F (fst U + t * fst D, snd U + t * snd D))) 0 (fst (mul2 A D)) /\
    derivable_pt_lim (fun t => snd (F (fst U + t * fst D, snd U + t * snd D))) 0 (snd (mul2 A D)).

Definition col0 (m : Mat2) : Col2 := (m00 m, m10 m).
Definition col1 (m : Mat2) : Col2 := (m01 m, m11 m).
Definition det2 (m : Mat2) : R := m00 m * m11 m - m01 m * m10 m.

(** The gradient on an interface by the direct discontinuous Galerkin method, with the constants 3
    and 1/12: 3 [u] / d + {u'} + d [u''] / 12, where d is the distance of the two centres. *)
Definition ddg_gradient (h h' u u' du du' ddu ddu' : R) : R :=
  3 * (u' - u) / ((h + h') / 2) + (du + du') / 2 + (h + h') / 2 * (ddu' - ddu) / 12.
