(** Faces of the reference cells, and the order in which the nodes of a face are to be listed.

    Points have integer coordinates, twice those of the usual reference cell, so that the middles of edges
    are integral too; the numbering is that of CGNS.  All cells are right-handed. *)
From Coq Require Import ZArith List Arith Permutation.
Import ListNotations.
Open Scope Z_scope.

Definition point : Type := Z * Z * Z.
Definition px (p : point) := fst (fst p).
Definition py (p : point) := snd (fst p).
Definition pz (p : point) := snd p.
Definition padd (p q : point) : point := (px p + px q, py p + py q, pz p + pz q).
Definition psub (p q : point) : point := (px p - px q, py p - py q, pz p - pz q).
Definition pscale (c : Z) (p : point) : point := (c * px p, c * py p, c * pz p).
Definition pdot (p q : point) : Z := px p * px q + py p * py q + pz p * pz q.
Definition pcross (p q : point) : point :=
  (py p * pz q - pz p * py q, pz p * px q - px p * pz q, px p * py q - py p * px q).

(** a convex cell: its nodes, and for each face the outward normal and the offset of its plane *)
Record cell := mkCell { points : list point; planes : list (point * Z) }.
Definition pt (c : cell) (i : nat) : point := nth i (points c) (0, 0, 0).
Definition n_nodes (c : cell) : nat := length (points c).

(** the cell is on the inner side of each of its planes *)
Definition convex (c : cell) : Prop :=
  forall pl p, In pl (planes c) -> In p (points c) -> pdot (fst pl) p <= snd pl.
(** the nodes on a plane *)
Definition nodes_on (c : cell) (pl : point * Z) : list nat :=
  filter (fun i => pdot (fst pl) (pt c i) =? snd pl) (seq 0 (n_nodes c)).
(** triangles have 3 or 6 nodes, quadrangles 4, 8 or 9 *)
Definition n_corners (l : list nat) : nat := match length l with 3 | 6 => 3 | _ => 4 end%nat.
(** [l] lists first the corners, counterclockwise when seen from outside, then the middles of the edges in
    the same order, then the centre *)
Definition outward (c : cell) (pl : point * Z) (l : list nat) : Prop :=
  let m := n_corners l in
  let p i := pt c (nth i l 0%nat) in
  (forall i, (i < m)%nat ->
    let a := p i in let b := p ((i + 1) mod m)%nat in let d := p ((i + 2) mod m)%nat in
    0 < pdot (fst pl) (pcross (psub b a) (psub d b))) /\
  (forall i, (i < m)%nat -> (2 * m <= length l)%nat ->
    pscale 2 (p (m + i)%nat) = padd (p i) (p ((i + 1) mod m)%nat)) /\
  ((length l = 2 * m + 1)%nat -> pscale (Z.of_nat m) (p (2 * m)%nat) = fold_right padd (0, 0, 0) (map p (seq 0 m))).

(** [sort cell_nodes face_nodes] puts the nodes of every face in outward order, whatever the numbers of the
    nodes of the cell and whatever the order in which those of the face are given *)
Definition sorts (c : cell) (sort : list nat -> list nat -> option (list nat)) : Prop :=
  forall cell_nodes pl face_nodes,
  length cell_nodes = n_nodes c -> NoDup cell_nodes -> In pl (planes c) ->
  let global := fun i => nth i cell_nodes 0%nat in
  Permutation face_nodes (map global (nodes_on c pl)) ->
  exists l, Permutation l (nodes_on c pl) /\ outward c pl l /\
    sort cell_nodes face_nodes = Some (map global l).

Definition tetrahedron10 : list point :=
  [(0, 0, 0); (2, 0, 0); (0, 2, 0); (0, 0, 2);
   (1, 0, 0); (1, 1, 0); (0, 1, 0); (0, 0, 1); (1, 0, 1); (0, 1, 1)].
Definition tetrahedron_planes : list (point * Z) :=
  [((-1, 0, 0), 0); ((0, -1, 0), 0); ((0, 0, -1), 0); ((1, 1, 1), 2)].
Definition hexahedron27 : list point :=
  [(-2, -2, -2); (2, -2, -2); (2, 2, -2); (-2, 2, -2); (-2, -2, 2); (2, -2, 2); (2, 2, 2); (-2, 2, 2);
   (0, -2, -2); (2, 0, -2); (0, 2, -2); (-2, 0, -2);
   (-2, -2, 0); (2, -2, 0); (2, 2, 0); (-2, 2, 0);
   (0, -2, 2); (2, 0, 2); (0, 2, 2); (-2, 0, 2);
   (0, 0, -2); (0, -2, 0); (2, 0, 0); (0, 2, 0); (-2, 0, 0); (0, 0, 2); (0, 0, 0)].
Definition hexahedron_planes : list (point * Z) :=
  [((-1, 0, 0), 2); ((1, 0, 0), 2); ((0, -1, 0), 2); ((0, 1, 0), 2); ((0, 0, -1), 2); ((0, 0, 1), 2)].
Definition wedge18 : list point :=
  [(2, 0, -2); (0, 2, -2); (0, 0, -2); (2, 0, 2); (0, 2, 2); (0, 0, 2);
   (1, 1, -2); (0, 1, -2); (1, 0, -2); (2, 0, 0); (0, 2, 0); (0, 0, 0); (1, 1, 2); (0, 1, 2); (1, 0, 2);
   (1, 1, 0); (0, 1, 0); (1, 0, 0)].
Definition wedge_planes : list (point * Z) :=
  [((-1, 0, 0), 0); ((0, -1, 0), 0); ((1, 1, 0), 2); ((0, 0, -1), 2); ((0, 0, 1), 2)].
Definition pyramid14 : list point :=
  [(-2, -2, 0); (2, -2, 0); (2, 2, 0); (-2, 2, 0); (0, 0, 2);
   (0, -2, 0); (2, 0, 0); (0, 2, 0); (-2, 0, 0); (-1, -1, 1); (1, -1, 1); (1, 1, 1); (-1, 1, 1); (0, 0, 0)].
Definition pyramid_planes : list (point * Z) :=
  [((0, 0, -1), 0); ((-1, 0, 1), 2); ((1, 0, 1), 2); ((0, -1, 1), 2); ((0, 1, 1), 2)].
Definition tetrahedron n := mkCell (firstn n tetrahedron10) tetrahedron_planes.
Definition hexahedron n := mkCell (firstn n hexahedron27) hexahedron_planes.
Definition wedge n := mkCell (firstn n wedge18) wedge_planes.
Definition pyramid n := mkCell (firstn n pyramid14) pyramid_planes.
