(** Model of the functions of /repo/include/mini/mesh/cgns.hpp that move the nodes of a mesh. *)
From Coq Require Import Reals List Arith.
From Verif Require Import Arrays Vec3 Model_Aircraft Model_MeshFile.
Import ListNotations.
Open Scope R_scope.

(** the coordinates of a zone are replaced, lines 253-262 *)
Definition with_coords (z : MZone R) (x y w : list R) : MZone R :=
  mkMZone (mz_name z) (mz_cells z) x y w (mz_sections z) (mz_bocos z) (mz_solns z).

(** lines 264-268 [Coordinates::Translate] *)
Definition translate (dx dy dz : R) (z : MZone R) : option (MZone R) :=
  Some (with_coords z (map (fun x => x + dx) (mz_x z)) (map (fun y => y + dy) (mz_y z))
          (map (fun w => w + dz) (mz_z z))).

(** lines 270-274 [Coordinates::Dilate] *)
Definition dilate (cx cy cz s : R) (z : MZone R) : option (MZone R) :=
  Some (with_coords z (map (fun x => cx + s * (x - cx)) (mz_x z))
          (map (fun y => cy + s * (y - cy)) (mz_y z)) (map (fun w => cz + s * (w - cz)) (mz_z z))).

(** lines 278-285: one round of the loop of [RotateZ]; an access outside is [None] *)
Definition rotate_node (ox oy cos sin : R) (xy : list R * list R) (i : nat) : option (list R * list R) :=
  do xi <- nth_error (fst xy) i;
  do yi <- nth_error (snd xy) i;
  let dx := xi - ox in
  let dy := yi - oy in
  let dx_new := dx * cos - dy * sin in
  let dy_new := dx * sin + dy * cos in
  do x <- upd_opt (fst xy) i (ox + dx_new);
  do y <- upd_opt (snd xy) i (oy + dy_new);
  Some (x, y).

(** lines 276-286 [Coordinates::RotateZ] *)
Definition rotate (ox oy degree : R) (z : MZone R) : option (MZone R) :=
  let (cos, sin) := CosSin degree in
  do (x, y) <- foldM (rotate_node ox oy cos sin) (seq 0 (length (mz_x z))) (mz_x z, mz_y z);
  Some (with_coords z x y (mz_z z)).

(** lines 1131-1147 [Base::Translate], [Base::Dilate], [Base::RotateZ] and lines 1241-1257, the
    same for [File]: every zone of every base *)
Definition each_base (move : MZone R -> option (MZone R)) (b : MBase R) : option (MBase R) :=
  do zs <- mapM move (me_zones b);
  Some (mkMBase (me_name b) (me_cell_dim b) (me_phys_dim b) zs).
Definition each_zone (move : MZone R -> option (MZone R)) (bs : list (MBase R)) : option (list (MBase R)) :=
  mapM (each_base move) bs.

Definition Translate (dx dy dz : R) := each_zone (translate dx dy dz).
Definition Dilate (cx cy cz s : R) := each_zone (dilate cx cy cz s).
Definition File_RotateZ (ox oy degree : R) := each_zone (rotate ox oy degree).
