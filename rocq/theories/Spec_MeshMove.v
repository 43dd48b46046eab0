(** What moving a mesh should achieve. *)
From Coq Require Import Reals List Arith.
From Verif Require Import Arrays Vec3 Model_MeshFile.
Import ListNotations.
Open Scope R_scope.

(** every node has three coordinates *)
Definition sized (z : MZone R) : Prop :=
  length (mz_y z) = length (mz_x z) /\ length (mz_z z) = length (mz_x z).

(** where node number [k] (from 0) of a zone is *)
Definition position (z : MZone R) (k : nat) : option vec :=
  match nth_error (mz_x z) k, nth_error (mz_y z) k, nth_error (mz_z z) k with
  | Some x, Some y, Some w => Some (V x y w)
  | _, _, _ => None
  end.

(** every node [p] of [z] is at [g p] in [z']; nothing else differs *)
Definition moved (g : vec -> vec) (z z' : MZone R) : Prop :=
  mz_name z' = mz_name z /\ mz_cells z' = mz_cells z /\ mz_sections z' = mz_sections z /\
  mz_bocos z' = mz_bocos z /\ mz_solns z' = mz_solns z /\
  sized z' /\ length (mz_x z') = length (mz_x z) /\
  forall k p, position z k = Some p -> position z' k = Some (g p).

Definition moved_mesh (g : vec -> vec) (bs bs' : list (MBase R)) : Prop :=
  Forall2 (fun b b' => me_name b' = me_name b /\ me_cell_dim b' = me_cell_dim b /\
    me_phys_dim b' = me_phys_dim b /\ Forall2 (moved g) (me_zones b) (me_zones b')) bs bs'.

Definition sized_mesh (bs : list (MBase R)) : Prop :=
  forall b z, In b bs -> In z (me_zones b) -> sized z.

(** the square of the distance of two points *)
Definition dist2 (p q : vec) : R := dot (vsub p q) (vsub p q).
(** six times the volume of a tetrahedron, with a sign *)
Definition volume6 (a b c d : vec) : R := det3 (vsub b a) (vsub c a) (vsub d a).

Definition isometry (g : vec -> vec) : Prop := forall p q, dist2 (g p) (g q) = dist2 p q.
Definition keeps_volumes (g : vec -> vec) : Prop :=
  forall a b c d, volume6 (g a) (g b) (g c) (g d) = volume6 a b c d.
