(** What upwind fluxes should be. *)
From Coq Require Import Reals.
From Verif Require Import Model_Simple.
Open Scope R_scope.

Definition is_min (f : R -> R) (a b m : R) : Prop :=
  (exists x, a <= x <= b /\ f x = m) /\ forall x, a <= x <= b -> m <= f x.
Definition is_max (f : R -> R) (a b m : R) : Prop :=
  (exists x, a <= x <= b /\ f x = m) /\ forall x, a <= x <= b -> f x <= m.

(** Godunov's flux for the flux function [f] *)
Definition godunov (f : R -> R) (F : R -> R -> R) : Prop :=
  forall l r, (l <= r -> is_min f l r (F l r)) /\ (r <= l -> is_max f r l (F l r)).

Definition consistent (f : R -> R) (F : R -> R -> R) : Prop := forall u, F u u = f u.
Definition monotone (F : R -> R -> R) : Prop :=
  forall l l' r r', l <= l' -> r' <= r -> F l r <= F l' r'.

(** The 2x2 matrix [a] has the real eigenvalues [l0 < l1]. *)
Definition eigenvalues2 (a : Mat2) (l0 l1 : R) : Prop :=
  l0 < l1 /\ l0 + l1 = m00 a + m11 a /\ l0 * l1 = m00 a * m11 a - m01 a * m10 a.

(** g(A) = g(l0) P0 + g(l1) P1 with the spectral projectors P0 = (A - l1)/(l0 - l1) and
    P1 = (A - l0)/(l1 - l0) *)
Definition spectral (g : R -> R) (a : Mat2) (l0 l1 : R) : Mat2 :=
  let p0 := g l0 / (l0 - l1) in
  let p1 := g l1 / (l1 - l0) in
  mat2 (p0 * (m00 a - l1) + p1 * (m00 a - l0)) (p0 * m01 a + p1 * m01 a)
       (p0 * m10 a + p1 * m10 a) (p0 * (m11 a - l1) + p1 * (m11 a - l0)).

Definition positive (x : R) : R := Rmax x 0.
Definition negative (x : R) : R := Rmin x 0.

Definition add2 (u v : Col2) : Col2 := (fst u + fst v, snd u + snd v).

(** Eigen's promise for a real diagonalisable matrix: A V = V diag(values), W V = V W = I *)
Definition eigen_contract (K : nat) (a : Mat) (values : Col) (V W : Mat) : Prop :=
  (forall i k, (i < K)%nat -> (k < K)%nat -> sum K (fun j => a i j * V j k) = V i k * values k) /\
  (forall i j, (i < K)%nat -> (j < K)%nat ->
     sum K (fun k => V i k * W k j) = if Nat.eq_dec i j then 1 else 0) /\
  (forall i j, (i < K)%nat -> (j < K)%nat ->
     sum K (fun k => W i k * V k j) = if Nat.eq_dec i j then 1 else 0).

(** g(A) = V diag(g(values)) W *)
Definition spectralK (g : R -> R) (K : nat) (values : Col) (V W : Mat) : Mat :=
  fun i j => sum K (fun k => V i k * g (values k) * W k j).

(** three columns times a direction *)
Definition times1 (m : R * R * R) (n : R * R * R) : R :=
  let '(a, b, c) := m in let '(x, y, z) := n in a * x + b * y + c * z.
Definition times2 (m : Col2 * Col2 * Col2) (n : R * R * R) : Col2 :=
  let '(a, b, c) := m in
  (times1 (fst a, fst b, fst c) n, times1 (snd a, snd b, snd c) n).
Definition timesK (m : Col * Col * Col) (n : R * R * R) : Col :=
  let '(a, b, c) := m in fun i => times1 (a i, b i, c i) n.
