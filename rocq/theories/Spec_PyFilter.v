(** What a filter of ten neighbors should do. *)
From Coq Require Import Reals Arith.
From Verif Require Import RSum.
Open Scope R_scope.

(** the weights of the point and of its neighbors at distance 1 to 5 *)
Definition weight (distance : nat) : R :=
  match distance with
  | 0 => 0.234810479761700 | 1 => -0.199250131285813 | 2 => 0.120198310245186 | 3 => -0.049303775636020
  | 4 => 0.012396449873964 | 5 => -0.001446093078167 | _ => 0
  end.
(** the high frequency part at a point, [at j] and [at (- j)] being the values at distance [j] *)
Definition high_part (here : R) (right left : nat -> R) : R :=
  weight 0 * here + rsum 5 (fun j => weight (S j) * (right (S j) + left (S j))).
(** neighbors on a ring of [n] points *)
Definition ring_right (n i j : nat) : nat := ((i + j) mod n)%nat.
Definition ring_left (n i j : nat) : nat := ((i + n - j) mod n)%nat.
Definition filtered_ring (n : nat) (sigma : R) (old new : nat -> R) : Prop :=
  forall i, (i < n)%nat -> new i = old i - sigma * high_part (old i) (fun j => old (ring_right n i j)) (fun j => old (ring_left n i j)).
(** how much of a wave with the phase [theta] from point to point is taken away *)
Definition symbol (theta : R) : R := weight 0 + rsum 5 (fun j => 2 * weight (S j) * cos (INR (S j) * theta)).
(** the wave with [m] periods on the ring *)
Definition wave (n m : nat) (phi : R) (i : nat) : R := cos (2 * PI * INR m * INR i / INR n + phi).
