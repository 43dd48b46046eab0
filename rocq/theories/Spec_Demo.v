(** What the data of the demonstrations should be: travelling shocks and solutions of the equations that are solved. *)
From Coq Require Import Reals List.
From Verif Require Import Vec3 Model_Euler Model_Simple Spec_Euler Model_Demo.
Import ListNotations.
Open Scope R_scope.

(** the constants belong together: the ratio of heats, the speed of sound of the gas before, a shock *)
Definition agrees (gamma : R) (c : Mach) : Prop :=
  1 < gamma /\ kGamma c = gamma /\ kGammaPlus c = gamma + 1 /\ kGammaMinus c = gamma - 1
  /\ 0 < rho_before c /\ 0 < p_before c /\ 0 < a_before c
  /\ rho_before c * (a_before c * a_before c) = gamma * p_before c /\ 1 < m_before c.

(** the unit normal of a front at 60 degrees to the x axis *)
Definition normal : list R := [cos_30; - sin_30; 0].

(** the Rankine-Hugoniot conditions of a discontinuity between [U] and [V] that travels along [n] with the speed [s] *)
Definition jump (gamma s : R) (n : list R) (U V : Tuple) : Prop :=
  exists F G, normal_flux gamma U n F /\ normal_flux gamma V n G
  /\ mass F - mass G = s * (mass U - mass V)
  /\ (forall k, nth k (momentum F) 0 - nth k (momentum G) 0 = s * (nth k (momentum U) 0 - nth k (momentum V) 0))
  /\ energy F - energy G = s * (energy U - energy V).

Definition normal_speed (n : list R) (U : Tuple) : R := dotL (momentum U) n / mass U.
Definition sound (gamma : R) (U : Tuple) : R := sqrt (gamma * pressure gamma U / mass U).

(** Lax's condition for a shock of the fastest family: faster than all waves ahead, slower than the sound waves behind,
    and faster than the gas behind *)
Definition lax (gamma s : R) (n : list R) (behind ahead : Tuple) : Prop :=
  normal_speed n ahead + sound gamma ahead < s < normal_speed n behind + sound gamma behind
  /\ normal_speed n behind < s.

(** [u] satisfies u_t + a u_x = nu u_xx at (x, t) in the classical sense *)
Definition solves (a nu : R) (u : R -> R -> R) (x t : R) : Prop :=
  exists (r : posreal) (ux : R -> R) ut uxx,
    derivable_pt_lim (fun s => u x s) t ut
    /\ (forall y, Rabs (y - x) < r -> derivable_pt_lim (fun z => u z t) y (ux y))
    /\ derivable_pt_lim ux x uxx
    /\ ut + a * ux x = nu * uxx.

(** [U] and [V] are the values of [u] at the time [t] just left and just right of [x] *)
Definition sides (K : nat) (u : R -> R -> Col) (x t : R) (U V : Col) : Prop :=
  exists r, 0 < r /\ forall y j, (j < K)%nat ->
    (x - r < y < x -> u y t j = U j) /\ (x < y < x + r -> u y t j = V j).

(** a piecewise constant self-similar [u] solves u_t + A u_x = 0: at every time and place it is constant on both sides,
    and the jump travels with its eigenvalue *)
Definition linear_riemann (K : nat) (A : Mat) (u : R -> R -> Col) : Prop :=
  forall lambda t, 0 < t -> exists U V, sides K u (lambda * t) t U V
  /\ forall i, (i < K)%nat -> sum K (fun j => A i j * (V j - U j)) = lambda * (V i - U i).

(** the rows of [L] are left eigenvectors of [A] and [Inv] is its inverse *)
Definition left_vectors (K : nat) (A : Mat) (values : Col) (L Inv : Mat) : Prop :=
  (forall i k, (i < K)%nat -> (k < K)%nat -> sum K (fun j => L i j * A j k) = values i * L i k) /\
  (forall i j, (i < K)%nat -> (j < K)%nat -> sum K (fun k => L i k * Inv k j) = if Nat.eq_dec i j then 1 else 0) /\
  (forall i j, (i < K)%nat -> (j < K)%nat -> sum K (fun k => Inv i k * L k j) = if Nat.eq_dec i j then 1 else 0).
