(** Specification of limiting. *)
From Coq Require Import List Reals.
Import ListNotations.

Section Spec.
  Context {A B : Type}.
  Variable is_not_smooth : (nat -> A) -> nat -> bool.
  Variable limit : (nat -> A) -> nat -> A.

  (** the result of limiting all troubled cells of a list at once *)
  Definition limited_at_once (cells : list nat) (m : nat -> A) (c : nat) (x : A) : Prop :=
    (In c cells /\ is_not_smooth m c = true /\ x = limit m c)
    \/ (~ (In c cells /\ is_not_smooth m c = true) /\ x = m c).

  (** the limiter of a cell reads this cell and its neighbours only *)
  Definition local (adj : nat -> list nat) : Prop :=
    forall m m' c, m c = m' c -> (forall n, In n (adj c) -> m n = m' n) ->
      is_not_smooth m c = is_not_smooth m' c /\ limit m c = limit m' c.

  (** the limiter of a cell reads its own coefficients but only the quantity [f] of its neighbours, and keeps
      that quantity of the cell *)
  Definition local_through (f : A -> B) (adj : nat -> list nat) : Prop :=
    (forall m m' c, m c = m' c -> (forall n, In n (adj c) -> f (m n) = f (m' n)) ->
      is_not_smooth m c = is_not_smooth m' c /\ limit m c = limit m' c)
    /\ (forall m c, f (limit m c) = f (m c)).
End Spec.

(** A limiter to compute with.  The coefficients are a mean and a slope; the slope of every cell becomes
    the mean value of its own and its neighbours' slopes, and the mean is kept. *)
Definition smooth_slopes (adj : nat -> list nat) (m : nat -> R * R) (c : nat) : R * R :=
  (fst (m c),
   (fold_right (fun n s => snd (m n) + s) (snd (m c)) (adj c) / INR (S (length (adj c))))%R).

(** a row of three cells *)
Definition row3 (c : nat) : list nat :=
  match c with 0 => [1] | 1 => [0; 2] | 2 => [1] | _ => [] end.
