(** What the residuals of elements are for. *)
From Coq Require Import Reals.
From Coquelicot Require Import Coquelicot.
From Verif Require Import RSum Spec_PyPoly.
Open Scope R_scope.

(** what is assumed of [np.linalg.solve]: a solution is returned only if it is the only one *)
Definition solves (solve : nat -> (nat -> nat -> R) -> (nat -> R) -> option (nat -> R)) : Prop :=
  forall n a b x, solve n a b = Some x ->
  (forall i, (i < n)%nat -> rsum n (fun j => a i j * x j) = b i) /\
  forall y, (forall i, (i < n)%nat -> rsum n (fun j => a i j * y j) = b i) -> forall i, (i < n)%nat -> y i = x i.
(** the change per time of the integral over the element is what flows in at the left minus what flows out at the right *)
Definition conserves (a b : R) (rate : R -> R) (flux_in flux_out : R) : Prop := is_RInt rate a b (flux_in - flux_out).
(** the rate of change is minus the gradient of the flux *)
Definition follows (rate flux : R -> R) : Prop := forall x, is_derive flux x (- rate x).
