(** What coordinates and integrators are for. *)
From Coq Require Import Reals List.
Import ListNotations.
Open Scope R_scope.

(** the map from [-1, 1] to the element: the ends and the center go to those of the element *)
Definition spans (f : R -> R) (left center right : R) : Prop := f (-1) = left /\ f 0 = center /\ f 1 = right.
(** in increasing order *)
Definition increasing (l : list R) : Prop := forall i j, (i < j < length l)%nat -> nth i l 0 < nth j l 0.
(** mirrored at 0; the same in both directions *)
Definition symmetric (l : list R) : Prop := map Ropp l = rev l.
Definition palindrome (l : list R) : Prop := rev l = l.
(** the error of a Gauss-Lobatto rule relative to the coefficients of the integrand: none up to six points *)
Definition lobatto_error (n : nat) : R := if Nat.leb n 6 then 0 else 2 / 10 ^ 15.
