(** What expansions are for. *)
From Coq Require Import Reals.
From Coquelicot Require Import Coquelicot.
From Verif Require Import RSum Spec_PyPoly.
Open Scope R_scope.

(** [d k] is the k-th derivative of [f] *)
Definition derivatives_of (f : R -> R) (d : nat -> R -> R) : Prop :=
  (forall x, d O x = f x) /\ (forall k x, is_derive (d k) x (d (S k) x)).
(** [m] is the mean value of [f] over [a, b] *)
Definition mean (a b : R) (f : R -> R) (m : R) : Prop := is_RInt f a b ((b - a) * m).
(** what is assumed of [np.linalg.inv] and [scipy.special.roots_legendre] *)
Definition inverts (inv : nat -> (nat -> nat -> R) -> option (nat -> nat -> R)) : Prop :=
  forall n a m, inv n a = Some m -> forall i j, (i < n)%nat -> (j < n)%nat ->
  rsum n (fun l => a i l * m l j) = (if Nat.eqb i j then 1 else 0) /\
  rsum n (fun l => m i l * a l j) = (if Nat.eqb i j then 1 else 0).
Definition gauss (roots : nat -> list R * list R) (n : nat) : Prop :=
  length (fst (roots n)) = n /\ integrates (2 * n - 1) (fst (roots n)) (snd (roots n)).
