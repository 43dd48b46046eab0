(** What shape functions and coordinate maps are expected to satisfy. *)
From Coq Require Import Reals QArith List Arith.
From Verif Require Import Vec3 Spec_Basis.
Import ListNotations.
Open Scope R_scope.

Definition total (l : list R) : R := fold_right Rplus 0 l.
Definition axis_of (a : nat) : axis := match a with O => AX | 1%nat => AY | _ => AZ end.

(** shape functions [S] of [n] nodes at the points [node 0], …, with gradients [G] of [dim] components *)
Definition interpolates (n : nat) (S : R -> R -> R -> list R) (node : nat -> R * R * R) : Prop :=
  (forall x y z, length (S x y z) = n) /\
  (forall x y z, total (S x y z) = 1) /\
  (forall i j, (i < n)%nat -> (j < n)%nat ->
    let '(x, y, z) := node j in nth i (S x y z) 0 = if Nat.eqb i j then 1 else 0).
Definition gradients_of (dim n : nat) (S : R -> R -> R -> list R) (G : R -> R -> R -> list (list R)) : Prop :=
  (forall x y z, length (G x y z) = n) /\
  forall i a x y z, (i < n)%nat -> (a < dim)%nat ->
    is_partial [axis_of a] (fun x y z => nth i (S x y z) 0) x y z (nth a (nth i (G x y z) []) 0).
(** the columns of [H] are the partial derivatives listed in [ws] *)
Definition derivatives_of (ws : list (list axis)) (n : nat) (S : R -> R -> R -> list R)
    (H : R -> R -> R -> list (list R)) : Prop :=
  (forall x y z, length (H x y z) = n) /\
  forall i k x y z, (i < n)%nat -> (k < length ws)%nat ->
    is_partial (nth k ws []) (fun x y z => nth i (S x y z) 0) x y z (nth k (nth i (H x y z) []) 0).
Definition second : list (list axis) := [[AX; AX]; [AX; AY]; [AX; AZ]; [AY; AY]; [AY; AZ]; [AZ; AZ]].
Definition third : list (list axis) :=
  [[AX; AX; AX]; [AX; AX; AY]; [AX; AX; AZ]; [AX; AY; AY]; [AX; AY; AZ]; [AX; AZ; AZ];
   [AY; AY; AY]; [AY; AY; AZ]; [AY; AZ; AZ]; [AZ; AZ; AZ]].

(** the interpolant of the values of [f] at the nodes is [f] itself *)
Definition reproduces (n : nat) (S : R -> R -> R -> list R) (node : nat -> R * R * R) (f : R -> R -> R -> R) : Prop :=
  forall x y z,
  total (map (fun i => (let '(a, b, c) := node i in f a b c) * nth i (S x y z) 0) (seq 0 n)) = f x y z.

(** [d] is the partial derivative of the vector-valued function [f] *)
Definition is_partial_vec (w : list axis) (f : R -> R -> R -> vec) (x y z : R) (d : vec) : Prop :=
  is_partial w (fun x y z => vx (f x y z)) x y z (vx d) /\
  is_partial w (fun x y z => vy (f x y z)) x y z (vy d) /\
  is_partial w (fun x y z => vz (f x y z)) x y z (vz d).

(** an affine map of the local coordinates *)
Definition affine (o a b c : vec) (x y z : R) : vec := vadd o (vadd (vscale x a) (vadd (vscale y b) (vscale z c))).
