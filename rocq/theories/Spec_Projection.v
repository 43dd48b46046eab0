(** Specification notions for orthonormal bases, projections and limiters. *)
From Coq Require Import Reals List.
From Verif Require Import Vec3 RSum.
Import ListNotations.
Open Scope R_scope.

(** the quadrature of [f]: the sum over the points of weight times value *)
Definition quadrature (f : vec -> R) (points : list (R * vec)) : R :=
  rsum (length points) (fun q => fst (nth q points (0, v0)) * f (snd (nth q points (0, v0)))).
Definition positive_weights (points : list (R * vec)) : Prop := forall p, In p points -> 0 < fst p.
(** a combination of the [N] functions that vanishes at the quadrature points has only zero coefficients *)
Definition independent (N : nat) (b : vec -> list R) (points : list (R * vec)) : Prop :=
  forall c : nat -> R, (forall p, In p points -> rsum N (fun i => c i * nth i (b (snd p)) 0) = 0) ->
    forall i, (i < N)%nat -> c i = 0.
(** the inner products of the [N] functions form the identity matrix *)
Definition orthonormal (N : nat) (b : vec -> list R) (points : list (R * vec)) : Prop :=
  forall i j, (i < N)%nat -> (j < N)%nat ->
    quadrature (fun x => nth i (b x) 0 * nth j (b x) 0) points = if Nat.eqb i j then 1 else 0.

(** the mean of a function over the points of a quadrature *)
Definition qmean (points : list (R * vec)) (f : vec -> R) : R := quadrature f points / quadrature (fun _ => 1) points.

(** the order of the partial derivative number [c] in Taylor's numbering: 1-3 first, 4-9 second, 10-19 third *)
Definition derivative_order (c : nat) : nat := if Nat.leb c 3 then 1%nat else if Nat.leb c 9 then 2%nat else 3%nat.
(** [m] is the greatest number of the list *)
Definition greatest (m : R) (l : list R) : Prop := In m l /\ forall x, In x l -> x <= m.
(** the sum of a list *)
Definition total (l : list R) : R := rsum (length l) (fun i => nth i l 0).
