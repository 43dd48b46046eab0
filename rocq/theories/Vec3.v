(** Vectors of three real numbers (Eigen's [Matrix<Scalar, 3, 1>]). *)
From Coq Require Import Reals Lra.
Open Scope R_scope.

Record vec := V { vx : R; vy : R; vz : R }.

Definition vadd (a b : vec) : vec := V (vx a + vx b) (vy a + vy b) (vz a + vz b).
Definition vsub (a b : vec) : vec := V (vx a - vx b) (vy a - vy b) (vz a - vz b).
Definition vscale (c : R) (a : vec) : vec := V (c * vx a) (c * vy a) (c * vz a).
Definition vneg (a : vec) : vec := V (- vx a) (- vy a) (- vz a).
Definition dot (a b : vec) : R := vx a * vx b + vy a * vy b + vz a * vz b.
Definition cross (a b : vec) : vec :=
  V (vy a * vz b - vz a * vy b) (vz a * vx b - vx a * vz b) (vx a * vy b - vy a * vx b).
(** determinant of the matrix with these columns *)
Definition det3 (a b c : vec) : R := dot a (cross b c).
Definition v0 : vec := V 0 0 0.

Lemma vec_eq a b : vx a = vx b -> vy a = vy b -> vz a = vz b -> a = b.
Proof. destruct a, b; cbn; intros; subst; reflexivity. Qed.
