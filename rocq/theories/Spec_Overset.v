(** Specification of the searches in overset meshes. *)
From Coq Require Import List Arith Reals.
From Verif Require Import Arrays Model_Cgns Model_Mapper Model_Metis Spec_Mesh Spec_Partition.
Import ListNotations.

(** [walk E ok seeds k x]: [x] is reached from a seed by [k] steps along [E], each to a cell
    that satisfies [ok] *)
Inductive walk (E : nat -> nat -> Prop) (ok : nat -> Prop) (seeds : nat -> Prop)
    : nat -> nat -> Prop :=
| walk_0 : forall x, seeds x -> walk E ok seeds 0 x
| walk_S : forall k x y, walk E ok seeds k x -> E x y -> ok y -> walk E ok seeds (S k) y.

(** the graph distance of [x] to the seeds is [k] *)
Definition at_distance E ok seeds (k x : nat) : Prop :=
  walk E ok seeds k x /\ forall k', k' < k -> ~ walk E ok seeds k' x.

(** number of faces of a cell *)
Definition faces_of (t : ElementType) : option nat :=
  match t with
  | TRI_3 => Some 3 | QUAD_4 => Some 4 | TETRA_4 => Some 4 | PENTA_6 => Some 5
  | PYRA_5 => Some 5 | HEXA_8 => Some 6
  | _ => None
  end.

(** cell [m] has fewer neighbours than faces *)
Definition open_cell {A} (zs : list (Zone A)) (mp : Mapper) (g : Graph) (m : nat) : Prop :=
  exists z s c sec row n, nth_error (m2c_cells mp) m = Some (z, s, c) /\
    (do zn <- at1 zs z; at1 (z_sections zn) s) = Some sec /\
    graph_row g m = Some row /\ faces_of (s_type sec) = Some n /\ length row < n.

(** centre of a cell: the mean of its nodes *)
Definition mean (l : list R) : R := (fold_right Rplus 0 l / INR (length l))%R.

Definition is_center (zs : list (Zone R)) (mp : Mapper) (m : nat) (c : R * R * R) : Prop :=
  exists z s i zn sec row xs ys ws, nth_error (m2c_cells mp) m = Some (z, s, i) /\
    at1 zs z = Some zn /\ at1 (z_sections zn) s = Some sec /\ cell_row sec i = Some row /\
    mapM (at1 (z_x zn)) row = Some xs /\ mapM (at1 (z_y zn)) row = Some ys /\
    mapM (at1 (z_z zn)) row = Some ws /\ c = (mean xs, mean ys, mean ws).

Definition sq_dist (a b : R * R * R) : R :=
  let '(x, y, z) := a in let '(x', y', z') := b in
  ((x - x') ^ 2 + (y - y') ^ 2 + (z - z') ^ 2)%R.

(** within the ball of the given (non-negative) radius *)
Definition near (zs : list (Zone R)) (mp : Mapper) (radius : R) (a : R * R * R) (j : nat) : Prop :=
  exists c, is_center zs mp j c /\ (sq_dist a c <= radius ^ 2)%R.
