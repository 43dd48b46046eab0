(** Model of the selective filter of the Python package: filter.py, lines 4-59.  Arrays are functions of the index
    together with their length; [None]: an [IndexError].  The symmetry asserted by the constructor (filter.py 20-25)
    is a lemma. *)
From Coq Require Import Reals List Arith ZArith.
From Verif Require Import Arrays RSum Model_PyGrid.
Import ListNotations.
Open Scope R_scope.

(** [Selective.coeff_] (filter.py 6-18), in units of 10^-15 *)
Definition coeff_table : list Z :=
  [-1446093078167; 12396449873964; -49303775636020; 120198310245186; -199250131285813; 234810479761700;
   -199250131285813; 120198310245186; -49303775636020; 12396449873964; -1446093078167]%Z.
Definition coeff (k : nat) : R := IZR (nth k coeff_table 0%Z) / 10 ^ 15.
Definition width : nat := 5.
Definition set_at (a : nat -> R) (i : nat) (v : R) : nat -> R := fun k => if (k =? i)%nat then v else a k.
(** the sum of the loops [for j in range(1, 1 + width)] (filter.py 37-41 and 43-48); [wrap] tells if the right index
    is taken modulo [n_point] *)
Definition stencil (wrap : bool) (n : nat) (old : nat -> R) (i : nat) : option R :=
  fold_left (fun acc j => do d <- acc;
      do r <- index n (if wrap then (Z.of_nat (i + j) mod Z.of_nat n)%Z else Z.of_nat (i + j));
      let d := d + old r * coeff (width + j) in
      do l <- index n (Z.of_nat i - Z.of_nat j);
      Some (d + old l * coeff (width - j))) (seq 1 width) (Some (old i * coeff width)).
(** [Selective.filter] (filter.py 27-50); the last loop is only reached if [n_point >= 10], so that its range does not
    start below zero *)
Definition filter (periodic : bool) (n : nat) (old : nat -> R) (sigma : R) : option (nat -> R) :=
  let new := fold_left (fun new i => set_at new i (new i - sigma * rsum 11 (fun k => coeff k * old (i - width + k)%nat))) (seq width (n - width - width)) old in
  if periodic then
    do new <- fold_left (fun acc i => do new <- acc; do _ <- index n (Z.of_nat i); do d <- stencil false n old i; Some (set_at new i (new i - sigma * d))) (seq 0 width) (Some new);
    fold_left (fun acc i => do new <- acc; do d <- stencil true n old i; Some (set_at new i (new i - sigma * d))) (seq (n - width) width) (Some new)
  else Some new.
(** [Selective.damping] (filter.py 52-57) *)
Definition damping (theta : R) : R :=
  fold_left (fun damp j => damp + 2 * coeff (width + j) * cos (INR j * theta)) (seq 1 width) (coeff width * cos (0 * theta)).
