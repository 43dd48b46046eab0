(** Model of the VTK writer, /repo/include/mini/mesh/vtk.hpp lines 59-483 ([EncodeBase64] is in
    [Model_Base64]).  A file is the record of its XML elements; numbers printed as text are kept as numbers,
    so the loss of digits in [vtu << f[k]] is not modelled. *)
From Coq Require Import ZArith QArith List Arith String DecimalString.
From Verif Require Import Arrays Model_Base64.
From Verif Require Model_Shapes.
Import ListNotations.
Open Scope nat_scope.
Notation Local := Model_Shapes.Local.

(** lines 71-80 *)
Inductive CellType := kTetrahedron4 | kHexahedron8 | kWedge6 | kWedge15 | kTetrahedron10 | kHexahedron20
  | kHexahedron27 | kHexahedron64.
Definition code (t : CellType) : nat :=
  match t with
  | kTetrahedron4 => 10 | kHexahedron8 => 12 | kWedge6 => 13 | kWedge15 => 26 | kTetrahedron10 => 24
  | kHexahedron20 => 25 | kHexahedron27 => 29 | kHexahedron64 => 72
  end.

Section Locals.
Local Open Scope Q_scope.
Let h : Q := 1 # 2.
Let a : Q := 1 # 3.
Let b : Q := (-1) # 3.
(** lines 110-113 *)
Definition Tetrahedron4_locals : list Local := [(1, 0, 0); (0, 1, 0); (0, 0, 1); (0, 0, 0)].
(** lines 125-130 *)
Definition Tetrahedron10_locals : list Local :=
  [(1, 0, 0); (0, 1, 0); (0, 0, 1); (0, 0, 0);
   (h, h, 0); (0, h, h); (h, 0, h);
   (h, 0, 0); (0, h, 0); (0, 0, h)].
(** lines 142-150 *)
Definition Wedge6_locals : list Local := [(1, 0, -1); (0, 0, -1); (0, 1, -1); (1, 0, 1); (0, 0, 1); (0, 1, 1)].
(** lines 162-172 *)
Definition Wedge15_locals : list Local :=
  [(1, 0, -1); (0, 1, -1); (0, 0, -1);
   (1, 0, 1); (0, 1, 1); (0, 0, 1);
   (h, h, -1); (0, h, -1); (h, 0, -1);
   (h, h, 1); (0, h, 1); (h, 0, 1);
   (1, 0, 0); (0, 1, 0); (0, 0, 0)].
(** lines 184-188 *)
Definition Hexahedron8_locals : list Local :=
  [(-1, -1, -1); (1, -1, -1); (1, 1, -1); (-1, 1, -1); (-1, -1, 1); (1, -1, 1); (1, 1, 1); (-1, 1, 1)].
(** lines 200-209 *)
Definition Hexahedron20_locals : list Local :=
  [(-1, -1, -1); (1, -1, -1); (1, 1, -1); (-1, 1, -1); (-1, -1, 1); (1, -1, 1); (1, 1, 1); (-1, 1, 1);
   (0, -1, -1); (1, 0, -1); (0, 1, -1); (-1, 0, -1);
   (0, -1, 1); (1, 0, 1); (0, 1, 1); (-1, 0, 1);
   (-1, -1, 0); (1, -1, 0); (1, 1, 0); (-1, 1, 0)].
(** lines 221-236 *)
Definition Hexahedron27_locals : list Local :=
  [(-1, -1, -1); (1, -1, -1); (1, 1, -1); (-1, 1, -1); (-1, -1, 1); (1, -1, 1); (1, 1, 1); (-1, 1, 1);
   (0, -1, -1); (1, 0, -1); (0, 1, -1); (-1, 0, -1);
   (0, -1, 1); (1, 0, 1); (0, 1, 1); (-1, 0, 1);
   (-1, -1, 0); (1, -1, 0); (1, 1, 0); (-1, 1, 0);
   (-1, 0, 0); (1, 0, 0);
   (0, -1, 0); (0, 1, 0);
   (0, 0, -1); (0, 0, 1);
   (0, 0, 0)].
(** lines 245-283 *)
Definition Hexahedron64_locals : list Local :=
  [(-1, -1, -1); (1, -1, -1); (1, 1, -1); (-1, 1, -1); (-1, -1, 1); (1, -1, 1); (1, 1, 1); (-1, 1, 1);
   (b, -1, -1); (a, -1, -1); (1, b, -1); (1, a, -1); (b, 1, -1); (a, 1, -1); (-1, b, -1); (-1, a, -1);
   (b, -1, 1); (a, -1, 1); (1, b, 1); (1, a, 1); (b, 1, 1); (a, 1, 1); (-1, b, 1); (-1, a, 1);
   (-1, -1, b); (-1, -1, a); (1, -1, b); (1, -1, a); (-1, 1, b); (-1, 1, a); (1, 1, b); (1, 1, a);
   (-1, b, b); (-1, a, b); (-1, b, a); (-1, a, a); (1, b, b); (1, a, b); (1, b, a); (1, a, a);
   (b, -1, b); (a, -1, b); (b, -1, a); (a, -1, a); (b, 1, b); (a, 1, b); (b, 1, a); (a, 1, a);
   (b, b, -1); (a, b, -1); (b, a, -1); (a, a, -1); (b, b, 1); (a, b, 1); (b, a, 1); (a, a, 1);
   (b, b, b); (a, b, b); (b, a, b); (a, a, b); (b, b, a); (a, b, a); (b, a, a); (a, a, a)].
End Locals.
(** the arrays given to [vtk::Prepare] in lines 348-371, with the second argument *)
Definition locals (t : CellType) : list Local * nat :=
  match t with
  | kTetrahedron4 => (Tetrahedron4_locals, 4)
  | kTetrahedron10 => (Tetrahedron10_locals, 10)
  | kWedge6 => (Wedge6_locals, 6)
  | kWedge15 => (Wedge15_locals, 15)
  | kHexahedron8 => (Hexahedron8_locals, 8)
  | kHexahedron20 => (Hexahedron20_locals, 20)
  | kHexahedron27 => (Hexahedron27_locals, 27)
  | kHexahedron64 => (Hexahedron64_locals, 64)
  end.

(** lines 289-306; [assert(false)] is [None] *)
Definition GetCellType (n_corners : nat) : option CellType :=
  match n_corners with
  | 4 => Some kTetrahedron10
  | 6 => Some kWedge15
  | 8 => Some kHexahedron27
  | _ => None
  end.
(** lines 307-339 *)
Definition CountNodes (t : CellType) : nat :=
  match t with
  | kTetrahedron4 => 4 | kTetrahedron10 => 10 | kWedge6 => 6 | kWedge15 => 15 | kHexahedron8 => 8
  | kHexahedron20 => 20 | kHexahedron27 => 27 | kHexahedron64 => 64
  end.

(** the bytes of a number of type [std::size_t] on a little-endian machine *)
Fixpoint bytes_of_number (n : nat) (x : Z) : list Z :=
  match n with
  | O => []
  | S n => (x mod 256)%Z :: bytes_of_number n (x / 256)%Z
  end.

(** the formatted output of [std::snprintf] to an array of 1024 characters *)
Definition snprintf (s : string) : string := substring 0 1023 s.
(** a rank printed by [%d] *)
Definition decimal (n : nat) : string := NilEmpty.string_of_uint (Nat.to_uint n).

Section Writer.
  Context {Coord Scalar : Type}.
  (** a cell: the number of its corners and its projection's [LocalToGlobalAndValue] *)
  Record Cell := mkCell { c_corners : nat; c_global : Local -> Coord; c_value : Local -> nat -> Scalar }.

  (** lines 82-91 [vtk::Prepare] *)
  Definition vtk_Prepare (ls : list Local) (n : nat) (cell : Cell) (coords : list Coord)
      (values : list (nat -> Scalar)) : option (list Coord * list (nat -> Scalar)) :=
    foldM (fun cv i => do l <- nth_error ls i; Some (fst cv ++ [c_global cell l], snd cv ++ [c_value cell l]))
      (seq 0 n) (coords, values).

  (** lines 341-374 [Writer::Prepare] *)
  Definition Prepare (acc : list CellType * (list Coord * list (nat -> Scalar))) (cell : Cell)
      : option (list CellType * (list Coord * list (nat -> Scalar))) :=
    do type <- GetCellType (c_corners cell);
    do cv <- vtk_Prepare (fst (locals type)) (snd (locals type)) cell (fst (snd acc)) (snd (snd acc));
    Some (fst acc ++ [type], cv).

  (** the elements of the file that depend on the data *)
  Record VtuFile := mkVtu {
    v_path : string;
    v_points : nat;                           (* NumberOfPoints *)
    v_cells : nat;                            (* NumberOfCells *)
    v_fields : list (string * list Scalar);   (* PointData *)
    v_coords : list Z;                        (* Points: the characters of the base64 text *)
    v_connectivity : list nat;
    v_offsets : list nat;
    v_types : list nat
  }.
  Record PvtuFile := mkPvtu { p_path : string; p_fields : list string; p_pieces : list string }.

  (** lines 460-465: the loop over [types] *)
  Fixpoint offsets (offset : nat) (types : list CellType) : list nat :=
    match types with
    | [] => []
    | t :: ts => (offset + CountNodes t) :: offsets (offset + CountNodes t) ts
    end.

  (** the bytes of a [Coord]: [3 * sizeof(Scalar)] of them (line 438) *)
  Variable bytes_of : Coord -> list Z.
  Variables (directory soln_name : string) (K : nat) (field_name : nat -> string).

  (** lines 440-448: [while] only appends to texts shorter than 8 *)
  Definition encode_points (coords : list Coord) : option (list Z) :=
    let bytes := flat_map bytes_of coords in
    do encoded <- EncodeBase64 bytes;
    do header <- EncodeBase64 (bytes_of_number 8 (Z.of_nat (List.length bytes)));
    Some ((header ++ repeat 61%Z (8 - List.length header)) ++ encoded).

  (** part.hpp lines 1549-1563 [GetFileStream] *)
  Definition stream_path (rank : nat) : string :=
    snprintf (directory ++ "/" ++ soln_name ++ "/" ++ decimal rank ++ "." ++ "vtu").

  (** lines 390-413: the index file *)
  Definition index_file (size : nat) : PvtuFile :=
    mkPvtu (snprintf (directory ++ "/" ++ soln_name ++ ".pvtu")) (map field_name (seq 0 K))
      (map (fun i => ("./" ++ soln_name ++ "/" ++ decimal i ++ ".vtu")%string) (seq 0 size)).

  (** lines 380-482 [WriteSolutions] on one rank; [values[0]] and [&first[0]] are not defined without points *)
  Definition WriteSolutions (rank size : nat) (cells : list Cell) : option (option PvtuFile * VtuFile) :=
    do acc <- foldM Prepare cells ([], ([], []));
    let types := fst acc in let coords := fst (snd acc) in let values := snd (snd acc) in
    do _ <- nth_error values 0;
    do text <- encode_points coords;
    Some (if rank =? 0 then Some (index_file size) else None,
      mkVtu (stream_path rank) (List.length coords) (List.length types)
        (map (fun k => (field_name k, map (fun f => f k) values)) (seq 0 K))
        text (seq 0 (List.length coords)) (offsets 0 types) (map code types)).
End Writer.
Arguments Cell : clear implicits.
Arguments VtuFile : clear implicits.
