(** What detectors are for. *)
From Coq Require Import Reals List.
From Verif Require Import RSum Spec_PyPoly.
Import ListNotations.
Open Scope R_scope.

(** [l] lists the numbers below [n] with the property [T], in increasing order *)
Definition lists (n : nat) (T : nat -> Prop) (l : list nat) : Prop :=
  (forall i, In i l <-> (i < n)%nat /\ T i) /\ forall a b i j, nth_error l a = Some i -> nth_error l b = Some j -> (a < b)%nat -> (i < j)%nat.
(** energies that do not increase from 1 to [p] *)
Definition nonincreasing (p : nat) (e : nat -> R) : Prop := forall i j, (1 <= i)%nat -> (i <= j)%nat -> (j <= p)%nat -> e j <= e i.
(** the slope of the regression line of the points [(x k, y k)], [k < p]: [s] minimizes the squared distances with some constant *)
Definition regression (p : nat) (x y : nat -> R) (s : R) : Prop :=
  exists t, forall s' t', rsum p (fun k => (y k - (s * x k + t)) ^ 2) <= rsum p (fun k => (y k - (s' * x k + t')) ^ 2).
