(** Model of distance.py, lines 5-30, of the Python package: distances from a point to the vertices and to the edges of a polygon. *)
From Coq Require Import Reals List Arith.
From Verif Require Import Arrays Model_PyEuler.
Import ListNotations.
Open Scope R_scope.

(** points of the plane; [np.array] of two floats *)
Notation Point := (R * R)%type.
(** [np.power(p_sum, 1 / p)] (distance.py 14) for sums that are not negative *)
Definition root_of (p : nat) (s : R) : R := if Rle_dec s 0 then 0 else Rpower s (1 / INR p).
(** one turn of the loop (distance.py 9-14); [None] stands for [np.inf] *)
Definition vertex_distance (p : option nat) (point vertex : Point) : R :=
  let dx := Rabs (fst vertex - fst point) in
  let dy := Rabs (snd vertex - snd point) in
  match p with
  | None => Rmax dx dy
  | Some p => root_of p (dx ^ p + dy ^ p)
  end.
(** [dist_to_vertices] (distance.py 5-15) *)
Definition dist_to_vertices {A : Type} (point : Point) (polygon : list Point) (p : option nat) (reduce : list R -> A) : A :=
  reduce (map (vertex_distance p point) polygon).
(** one turn of the loop (distance.py 22-29): distance along the normal of the edge from [b] to [a]; the division fails for edges of length zero *)
Definition edge_distance (point a b : Point) : option R :=
  let pa := (fst a - fst point, snd a - snd point) in
  let ab := (fst a - fst b, snd a - snd b) in
  let normal := (snd ab, - fst ab) in
  let norm := sqrt (fst normal ^ 2 + snd normal ^ 2) in
  do nx <- div (fst normal) norm;
  do ny <- div (snd normal) norm;
  Some (Rabs (nx * fst pa + ny * snd pa)).
(** [dist_to_edges] (distance.py 18-30): the vertex before the first is the last *)
Fixpoint edge_distances (point previous : Point) (polygon : list Point) : option (list R) :=
  match polygon with
  | [] => Some []
  | a :: polygon => do d <- edge_distance point a previous; do l <- edge_distances point a polygon; Some (d :: l)
  end.
Definition dist_to_edges {A : Type} (point : Point) (polygon : list Point) (reduce : list R -> option A) : option A :=
  do distances <- edge_distances point (last polygon (0, 0)) polygon;
  reduce distances.
(** [np.sum] and [np.min] (distance.py 60-66) *)
Definition np_sum (l : list R) : R := fold_right Rplus 0 l.
Fixpoint np_min (l : list R) : option R :=
  match l with
  | [] => None
  | x :: l => match np_min l with Some m => Some (Rmin x m) | None => Some x end
  end.
