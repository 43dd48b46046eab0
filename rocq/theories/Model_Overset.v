(** Model of [mini::mesh::overset::Mapping], /repo/include/mini/mesh/overset.hpp. *)
From Coq Require Import List Arith ZArith Reals.
From Verif Require Import Arrays Model_Cgns Model_Mapper Model_Metis Model_Partition.
Import ListNotations.

(** [found.count(x)] (overset.hpp lines 77, 186) *)
Definition mem (x : nat) (l : list nat) : bool := existsb (Nat.eqb x) l.

(** ** The two breadth-first searches *)

Section Search.
  (** [graph.neighbors(i)]; whether a cell may be visited *)
  Variables (nbrs : nat -> option (list nat)) (within : nat -> option bool).

  (** overset.hpp lines 76-80 (fringe) and 185-199 (donors): one neighbour.
      The state is ([found], [next]). *)
  Definition visit (st : list nat * list nat) (j : nat) : option (list nat * list nat) :=
    if mem j (fst st) then Some st
    else
      do b <- within j;
      if b then Some (fst st ++ [j], snd st ++ [j]) else Some st.

  (** lines 72-82 and 182-201: the inner [while] *)
  Definition layer (found cur : list nat) : option (list nat * list nat) :=
    foldM (fun st i => do js <- nbrs i; foldM visit js st) cur (found, []).

  (** lines 72-88: [n] is the number of times that [--n_layer > 0] can still hold *)
  Fixpoint fringe_loop (n : nat) (cur found result : list nat) : option (list nat) :=
    match n with
    | O => Some result
    | S n' =>
      match cur with
      | [] => Some result
      | _ =>
        do (found', next) <- layer found cur;
        fringe_loop n' next found' (result ++ next)
      end
    end.

  (** lines 182-206: the outer [while], with fuel; [None] when it runs out *)
  Fixpoint donor_loop (fuel : nat) (cur found result : list nat) : option (list nat) :=
    match cur with
    | [] => Some result
    | _ =>
      match fuel with
      | O => None
      | S fuel' =>
        do (found', next) <- layer found cur;
        donor_loop fuel' next found' (result ++ next)
      end
    end.
End Search.

(** metis.hpp lines 74-77 [SparseGraph::neighbors] *)
Definition neighbors (g : Graph) (i : nat) : option (list nat) :=
  csr (g_range g) (g_index g) i.

(** metis.hpp line 53 [CountVertices] *)
Definition CountVertices (g : Graph) : nat := length (g_range g) - 1.

(** metis.hpp lines 65-67 [CountNeighbors] *)
Definition CountNeighbors (g : Graph) (i : nat) : option nat :=
  do h <- nth_error (g_range g) i;
  do t <- nth_error (g_range g) (S i);
  Some (t - h).

(** cgns.hpp lines 63-85 [CountFacesByType]; the default asks [cg_npe] *)
Definition CountFacesByType (t : ElementType) : nat :=
  match t with
  | TRI_3 | TRI_6 => 3
  | QUAD_4 | QUAD_8 | QUAD_9 => 4
  | TETRA_4 | TETRA_10 => 4
  | PYRA_5 | PYRA_13 | PYRA_14 => 5
  | HEXA_8 | HEXA_20 | HEXA_27 => 6
  | PENTA_6 | PENTA_15 | PENTA_18 => 5
  | NODE => 1 | BAR_2 => 2 | MIXED => 0
  end.

(** overset.hpp lines 62-69: whether cell [i] is in the outmost layer *)
Definition outmost {A} (zs : list (Zone A)) (mp : Mapper) (g : Graph) (i : nat) : option bool :=
  do (z, s, c) <- nth_error (m2c_cells mp) i;
  do zn <- at1 zs z;
  do sec <- at1 (z_sections zn) s;
  do n <- CountNeighbors g i;
  Some (n <? CountFacesByType (s_type sec)).

(** lines 62-70: the loop that collects the outmost cells *)
Fixpoint filterM {X} (f : X -> option bool) (l : list X) : option (list X) :=
  match l with
  | [] => Some []
  | x :: t => do b <- f x; do t' <- filterM f t; Some (if b then x :: t' else t')
  end.

(** overset.hpp lines 57-91 [FindForegroundFringeCells] *)
Definition FindForegroundFringeCells {A} (n_layer : Z) (zs : list (Zone A)) (g : Graph)
    (mp : Mapper) : option (list nat) :=
  do first <- filterM (outmost zs mp g) (seq 0 (CountVertices g));
  fringe_loop (neighbors g) (fun _ => Some true) (Z.to_nat (n_layer - 1)) first first first.

(** ** Donor cells; coordinates are real numbers *)

Definition Point3 : Type := (R * R * R)%type.

(** cgns.hpp lines 401-413: the coordinates of node [i] of a zone *)
Definition get_node (zn : Zone R) (i : nat) : option Point3 :=
  do x <- at1 (z_x zn) i; do y <- at1 (z_y zn) i; do z <- at1 (z_z zn) i; Some (x, y, z).

(** cgns.hpp lines 405-409: [center += coord] *)
Definition add3 (a b : Point3) : Point3 :=
  let '(x, y, z) := a in let '(x', y', z') := b in (x + x', y + y', z + z')%R.

(** cgns.hpp lines 401-413 [Section::GetCellCenter] of METIS cell [m] *)
Definition cell_center (zs : list (Zone R)) (mp : Mapper) (m : nat) : option Point3 :=
  do (z, s, c) <- nth_error (m2c_cells mp) m;
  do zn <- at1 zs z;
  do sec <- at1 (z_sections zn) s;
  do row <- cell_row sec c;
  do pts <- mapM (get_node zn) row;
  let '(x, y, w) := fold_left add3 pts (0, 0, 0)%R in
  let n := INR (s_npe sec) in
  Some (x / n, y / n, w / n)%R.

(** [std::hypot] of the difference *)
Definition distance (a b : Point3) : R :=
  let '(x, y, z) := a in let '(x', y', z') := b in
  sqrt ((x - x') * (x - x') + (y - y') * (y - y') + (z - z') * (z - z'))%R.

(** overset.hpp lines 190-197: the test of cell [j]; a cell is skipped when
    [radius < hypot(..)] *)
Definition in_ball (zs : list (Zone R)) (mp : Mapper) (radius : R) (center : Point3) (j : nat)
    : option bool :=
  do x <- cell_center zs mp j;
  Some (if Rlt_dec radius (distance center x) then false else true).

(** overset.hpp lines 172-206: the donors of one fringe cell.  [search] stands for
    [tree_bg.Search(x, y, z, 1)], which is done by CGAL. *)
Definition donors_of (search : Point3 -> list nat) (zs_fg : list (Zone R)) (mp_fg : Mapper)
    (zs_bg : list (Zone R)) (g_bg : Graph) (mp_bg : Mapper) (radius : R) (i_cell : nat)
    : option (list nat) :=
  do x <- cell_center zs_fg mp_fg i_cell;
  let first := search x in
  donor_loop (neighbors g_bg) (in_ball zs_bg mp_bg radius x) (S (CountVertices g_bg))
    first first first.

(** overset.hpp lines 163-210 [FindBackgroundDonorCells] (with a radius) *)
Definition FindBackgroundDonorCells search zs_fg mp_fg (fringe_fg : list nat) zs_bg g_bg mp_bg radius
    : option (list (list nat)) :=
  mapM (donors_of search zs_fg mp_fg zs_bg g_bg mp_bg radius) fringe_fg.

(** overset.hpp lines 218-227 [merge] *)
Definition merge (indices : list (list nat)) : list nat :=
  fold_left (fun r row => fold_left (fun r i => if mem i r then r else r ++ [i]) row r) indices [].
