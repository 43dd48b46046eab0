(** What correction functions and Lagrange's polynomials are for. *)
From Coq Require Import Reals List.
From Coquelicot Require Import Coquelicot.
From Verif Require Import RSum Spec_Gauss.
Import ListNotations.
Open Scope R_scope.

(** one at one end and zero at the other *)
Definition corrects (at_left at_right : R -> R) : Prop :=
  at_left (-1) = 1 /\ at_left 1 = 0 /\ at_right (-1) = 0 /\ at_right 1 = 1.
(** mirror images *)
Definition mirrored (f g : R -> R) : Prop := forall x, f x = g (- x).
(** orthogonal to all polynomials of degree less than [d]; [poly1 d c] is the polynomial of degree [d] with
    coefficients [c] *)
Definition orthogonal_below (d : nat) (f : R -> R) : Prop :=
  forall e c, (e < d)%nat -> is_RInt (fun x => f x * poly1 e c x) (-1) 1 0.
(** a polynomial of degree at most [d] *)
Definition polynomial (d : nat) (f : R -> R) : Prop := exists c, forall x, f x = poly1 d c x.
(** the function and its derivatives of order less than [n] vanish at -1 *)
Definition lumped (n : nat) (f : R -> R) : Prop := exists d : nat -> R -> R,
  (forall x, d O x = f x) /\ (forall l x, is_derive (d l) x (d (S l) x)) /\ forall l, (l < n)%nat -> d l (-1) = 0.
(** the rule with points [x] and weights [w] integrates powers up to [d] exactly over [-1, 1] *)
Definition integrates (d : nat) (x w : list R) : Prop := length x = length w /\ forall i, (i <= d)%nat ->
  is_RInt (fun y => y ^ i) (-1) 1 (fold_right Rplus 0 (map (fun q => snd q * fst q ^ i) (combine x w))).
(** sum of the values at the points times the corresponding functions *)
Definition interpolate (points : list R) (basis : nat -> R -> R) (f : R -> R) (x : R) : R :=
  rsum (length points) (fun i => f (nth i points 0) * basis i x).
