(** Notions used to state what the time integrators do. *)
From Coq Require Import Reals List.
From Verif Require Import Model_Temporal.
Open Scope R_scope.

(** a linear operator on columns *)
Definition linear {I} (a : Column I -> Column I) : Prop :=
  (forall u v i, a (fun j => u j + v j) i = a u i + a v i) /\
  (forall c u i, a (fun j => c * u j) i = c * a u i).

Fixpoint power {I} (a : Column I -> Column I) (n : nat) (u : Column I) : Column I :=
  match n with O => u | S m => a (power a m u) end.

(** sum_{j=0}^{k} dt^j / j! A^j u, component [i] *)
Fixpoint taylor {I} (k : nat) (a : Column I -> Column I) (dt : R) (u : Column I) (i : I) : R :=
  match k with
  | O => u i
  | S m => taylor m a dt u i + dt ^ k / INR (fact k) * power a k u i
  end.

(** a convex set of columns *)
Definition convex {I} (P : Column I -> Prop) : Prop :=
  forall u v w, 0 <= w <= 1 -> P u -> P v -> P (fun i => w * u i + (1 - w) * v i).

(** a linear functional *)
Definition functional {I} (l : Column I -> R) : Prop :=
  (forall u v, l (fun i => u i + v i) = l u + l v) /\ (forall c u, l (fun i => c * u i) = c * l u).

(** a polynomial with the coefficients [cs] (lowest first), and its antiderivative *)
Fixpoint poly (cs : list R) (t : R) : R :=
  match cs with nil => 0 | cons c r => c + t * poly r t end.
Fixpoint antideriv (n : nat) (cs : list R) : list R :=
  match cs with nil => nil | cons c r => cons (c / INR n) (antideriv (S n) r) end.
(** integral of the polynomial from [a] to [b] *)
Definition integral (cs : list R) (a b : R) : R :=
  poly (cons 0 (antideriv 1 cs)) b - poly (cons 0 (antideriv 1 cs)) a.
