(** What a reader of VTK files expects, and the numbering of the nodes of VTK's cells. *)
From Coq Require Import ZArith QArith Qreduction Reals List Arith String.
From Verif Require Import Vec3 Spec_Base64 Model_Vtk.
Import ListNotations.
Open Scope nat_scope.

(** ** The cells of VTK, each node as the middle of some corners *)

(** VTK_QUADRATIC_TETRA, VTK_QUADRATIC_WEDGE, VTK_TRIQUADRATIC_HEXAHEDRON by the number of corners *)
Definition vtk_code (corners : nat) : nat := match corners with 4 => 24 | 6 => 26 | 8 => 29 | _ => 0 end.
Definition vtk_nodes (corners : nat) : list (list nat) :=
  match corners with
  | 4 => [[0]; [1]; [2]; [3]; [0; 1]; [1; 2]; [2; 0]; [0; 3]; [1; 3]; [2; 3]]
  | 6 => [[0]; [1]; [2]; [3]; [4]; [5]; [0; 1]; [1; 2]; [2; 0]; [3; 4]; [4; 5]; [5; 3]; [0; 3]; [1; 4]; [2; 5]]
  | 8 => [[0]; [1]; [2]; [3]; [4]; [5]; [6]; [7];
          [0; 1]; [1; 2]; [2; 3]; [3; 0]; [4; 5]; [5; 6]; [6; 7]; [7; 4]; [0; 4]; [1; 5]; [2; 6]; [3; 7];
          [0; 4; 7; 3]; [1; 2; 6; 5]; [0; 1; 5; 4]; [3; 7; 6; 2]; [0; 3; 2; 1]; [4; 5; 6; 7];
          [0; 1; 2; 3; 4; 5; 6; 7]]
  | _ => []
  end.

(** the corners of the reference cells, in the order of CGNS *)
Definition reference_corners (corners : nat) : list (Q * Q * Q) :=
  match corners with
  | 4 => [(1, 0, 0); (0, 1, 0); (0, 0, 1); (0, 0, 0)]%Q
  | 6 => [(1, 0, -1); (0, 1, -1); (0, 0, -1); (1, 0, 1); (0, 1, 1); (0, 0, 1)]%Q
  | 8 => [(-1, -1, -1); (1, -1, -1); (1, 1, -1); (-1, 1, -1); (-1, -1, 1); (1, -1, 1); (1, 1, 1); (-1, 1, 1)]%Q
  | _ => []
  end.
Definition middleQ (points : list (Q * Q * Q)) (c : list nat) : Q * Q * Q :=
  let mean (f : Q * Q * Q -> Q) :=
    Qred (fold_right (fun i s => f (nth i points (0, 0, 0)%Q) + s) 0 c / inject_Z (Z.of_nat (List.length c)))%Q in
  (mean (fun p => fst (fst p)), mean (fun p => snd (fst p)), mean snd).
Definition vtk_locals (corners : nat) : list (Q * Q * Q) :=
  map (middleQ (reference_corners corners)) (vtk_nodes corners).

(** the middle of points in space *)
Definition middle (points : list vec) (c : list nat) : vec :=
  vscale (/ INR (List.length c)) (fold_right (fun i s => vadd (nth i points v0) s) v0 c).

(** ** A reader *)

Definition number (bytes : list Z) : Z := fold_right (fun b x => b + 256 * x)%Z 0%Z bytes.
(** groups of [n] *)
Fixpoint groups {A} (n fuel : nat) (l : list A) : option (list (list A)) :=
  match l, fuel with
  | [], _ => Some []
  | _, O => None
  | _, S fuel =>
    if List.length l <? n then None
    else match groups n fuel (skipn n l) with Some gs => Some (firstn n l :: gs) | None => None end
  end.
(** inline binary data with a header of type UInt64: 12 characters for the number of bytes, then the bytes;
    a point is three numbers of type Float64 *)
Definition read_points (text : list Z) : option (list (list Z)) :=
  match decode (firstn 12 text), decode (skipn 12 text) with
  | Some header, Some bytes =>
    if Z.eqb (number header) (Z.of_nat (List.length bytes)) then groups 24 (List.length bytes) bytes else None
  | _, _ => None
  end.

Section Reader.
  Context {Coord Scalar : Type} (of_bytes : list Z -> Coord).
  (** a point with its values *)
  Definition read_point (coords : list Coord) (fields : list (string * list Scalar)) (i : nat)
      : option (Coord * list (string * Scalar)) :=
    match nth_error coords i with
    | None => None
    | Some x =>
      (fix go fs vs := match fs with
       | [] => Some (x, rev vs)
       | f :: fs => match nth_error (snd f) i with Some v => go fs ((fst f, v) :: vs) | None => None end
       end) fields []
    end.
  Fixpoint read_all {A B} (f : A -> option B) (l : list A) : option (list B) :=
    match l with
    | [] => Some []
    | a :: l => match f a, read_all f l with Some b, Some bs => Some (b :: bs) | _, _ => None end
    end.
  (** cell by cell: the nodes of a cell end at its offset *)
  Fixpoint read_cells (start : nat) (connectivity offsets types : list nat) : option (list (nat * list nat)) :=
    match offsets, types with
    | [], [] => match connectivity with [] => Some [] | _ => None end
    | o :: os, t :: ts =>
      if (start <? o) && (o - start <=? List.length connectivity) then
        match read_cells o (skipn (o - start) connectivity) os ts with
        | Some cs => Some ((t, firstn (o - start) connectivity) :: cs)
        | None => None
        end
      else None
    | _, _ => None
    end.
  Definition read_grid (f : VtuFile Scalar) : option (list (nat * list (Coord * list (string * Scalar)))) :=
    match read_points (v_coords f) with
    | None => None
    | Some groups =>
      let coords := map of_bytes groups in
      if (List.length coords =? v_points f) && forallb (fun x => List.length (snd x) =? v_points f) (v_fields f) then
        match read_cells 0 (v_connectivity f) (v_offsets f) (v_types f) with
        | Some cells =>
          if List.length cells =? v_cells f then
            read_all (fun c => match read_all (read_point coords (v_fields f)) (snd c) with
                               | Some ps => Some (fst c, ps) | None => None end) cells
          else None
        | None => None
        end
      else None
    end.
End Reader.
