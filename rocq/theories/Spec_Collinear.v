(** Specification: the points of the faces that lie on the grid of the nodes, and the nodes behind them. *)
From Coq Require Import Reals List Arith ZArith Sorted.
From Verif Require Import Vec3 Model_Shapes Model_Geometry Model_Basis Model_Nodal Spec_FR.
Import ListNotations.
Open Scope R_scope.

(** a rule whose points are further apart than the tolerance *)
Definition apart (points : list R) : Prop := forall i j, (i < length points)%nat -> (j < length points)%nat -> i <> j ->
  / 10 ^ 10 <= Rabs (nth i points 0 - nth j points 0).

(** the two rules along a face: those of the axes that do not cross it *)
Definition first_rule (b : Basis) (i_face : nat) : list R := match across i_face with 0 => b_y b | _ => b_x b end%nat.
Definition second_rule (b : Basis) (i_face : nat) : list R := match across i_face with 2 => b_y b | _ => b_z b end%nat.

(** the point of the face with the numbers [u] and [v] on the two rules *)
Definition grid_point (b : Basis) (i_face u v : nat) : vec :=
  face_point i_face (nth u (first_rule b i_face) 0) (nth v (second_rule b i_face) 0).

(** two points on a line parallel to the axis *)
Definition aligned (axis : nat) (p q : vec) : Prop :=
  match axis with
  | 0 => vy p = vy q /\ vz p = vz q
  | 1 => vx p = vx q /\ vz p = vz q
  | _ => vx p = vx q /\ vy p = vy q
  end%nat.

(** the numbers of exactly the nodes on the line through [p] across the face, each once, in increasing order *)
Definition nodes_behind (b : Basis) (i_face : nat) (p : vec) (l : list nat) : Prop :=
  StronglySorted lt l
  /\ forall n, In n l <-> (n < b_N b)%nat /\ aligned (across i_face) (local_coord b n) p.

(** the triple with the numbers [u] and [v] along the face and -1 across it *)
Definition triple (i_face u v : nat) : Z * Z * Z :=
  match across i_face with
  | 0 => (-1, Z.of_nat u, Z.of_nat v)%Z
  | 1 => (Z.of_nat u, -1, Z.of_nat v)%Z
  | _ => (Z.of_nat u, Z.of_nat v, -1)%Z
  end%nat.

(** the images of the points of the grid on a face are further apart than the tolerance *)
Definition images_apart (b : Basis) (e : Element) (nodes : list vec) (i_face : nat) : Prop :=
  forall u v u' v', (u < length (first_rule b i_face))%nat -> (v < length (second_rule b i_face))%nat ->
  (u' < length (first_rule b i_face))%nat -> (v' < length (second_rule b i_face))%nat -> (u, v) <> (u', v') ->
  let image p := LocalToGlobal e nodes (vx p) (vy p) (vz p) in
  let d := vsub (image (grid_point b i_face u v)) (image (grid_point b i_face u' v')) in
  / 10 ^ 8 <= sqrt (dot d d).
