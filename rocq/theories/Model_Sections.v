(** Model of the functions of /repo/include/mini/mesh/cgns.hpp that reorder, merge, split
    and look up sections. *)
From Coq Require Import String List Arith ZArith.
From Coq Require Import DecimalString.
From Verif Require Import Arrays Model_Cgns Model_Mapper Model_Metis Model_Partition.
Import ListNotations.

(** The values of the CGNS enumeration [ElementType_t] (cgnslib.h); they are written
    into the connectivity of a mixed section (line 944) and read back (line 980). *)
Definition type_code (t : ElementType) : nat :=
  match t with
  | NODE => 2 | BAR_2 => 3 | TRI_3 => 5 | TRI_6 => 6 | QUAD_4 => 7 | QUAD_8 => 8 | QUAD_9 => 9
  | TETRA_4 => 10 | TETRA_10 => 11 | PYRA_5 => 12 | PYRA_14 => 13 | PENTA_6 => 14
  | PENTA_15 => 15 | PENTA_18 => 16 | HEXA_8 => 17 | HEXA_20 => 18 | HEXA_27 => 19
  | MIXED => 20 | PYRA_13 => 21
  end.
Definition code_type (n : nat) : option ElementType :=
  match n with
  | 2 => Some NODE | 3 => Some BAR_2 | 5 => Some TRI_3 | 6 => Some TRI_6 | 7 => Some QUAD_4
  | 8 => Some QUAD_8 | 9 => Some QUAD_9 | 10 => Some TETRA_4 | 11 => Some TETRA_10
  | 12 => Some PYRA_5 | 13 => Some PYRA_14 | 14 => Some PENTA_6 | 15 => Some PENTA_15
  | 16 => Some PENTA_18 | 17 => Some HEXA_8 | 18 => Some HEXA_20 | 19 => Some HEXA_27
  | 20 => Some MIXED | 21 => Some PYRA_13 | _ => None
  end.

(** lines 726-732 [CountAllCells] *)
Definition CountAllCells (ss : list Section) : nat := list_sum (map s_count ss).

(** ** [SortSectionsByDim] *)

(** lines 1024-1028: the comparison given to [std::sort] *)
Definition before (a b : Section) : bool :=
  (Z.ltb (s_dim b) (s_dim a) || (Z.eqb (s_dim a) (s_dim b) && (s_id a <? s_id b)))%bool.

(** lines 1035-1043: new ids and ranges *)
Fixpoint renumber (i_sect i_next : nat) (ss : list Section) : list Section * nat :=
  match ss with
  | [] => ([], i_next)
  | s :: t =>
    let s' := mkSection i_sect (s_name s) i_next (s_count s) (s_dim s) (s_type s)
                (s_conn s) (s_offset s) in
    let '(t', i) := renumber (S i_sect) (i_next + s_count s) t in
    (s' :: t', i)
  end.

(** lines 1016-1045 [SortSectionsByDim]; [order] is what [std::sort] made of
    [0, .., n-1] (lines 1022-1029); line 1045 is the last assertion *)
Definition SortSectionsByDim (order : list nat) (ss : list Section) : option (list Section) :=
  do sorted <- mapM (nth_error ss) order;
  let '(r, i_next) := renumber 1 1 sorted in
  if i_next - 1 =? CountAllCells r then Some r else None.

(** ** [MergeSections] *)

(** lines 940-952: one cell of [s] is appended to the mixed section [mx] *)
Definition merge_cell (s mx : Section) (i_cell : nat) : option Section :=
  do row <- cell_row s i_cell;
  let conn := s_conn mx ++ type_code (s_type s) :: row in
  Some (mkSection (s_id mx) (s_name mx) (s_first mx) (S (s_count mx)) (s_dim mx) (s_type mx)
          conn (s_offset mx ++ [List.length conn])).

(** lines 937-953: one section *)
Definition merge_section (mx s : Section) : option Section :=
  let mx1 := mkSection (s_id mx) (s_name mx) (s_first mx) (s_count mx)
               (Z.max (s_dim mx) (s_dim s)) (s_type mx) (s_conn mx) (s_offset mx) in
  foldM (merge_cell s) (seq (s_first s) (s_count s)) mx1.

(** lines 936, 972: [set.empty() || set.count(id)] *)
Definition selected (set : list nat) (s : Section) : bool :=
  match set with [] => true | _ => existsb (Nat.eqb (s_id s)) set end.

(** lines 932-934 *)
Definition empty_mixed : Section := mkSection 0 "Mixed" 1 0 (-1)%Z MIXED [] [0].

(** lines 930-962 [MergeSections]; [std_sort] is the call of [std::sort] *)
Definition MergeSections (std_sort : list Section -> list nat) (set : list nat)
    (ss : list Section) : option (list Section) :=
  do (mx, kept) <-
    foldM (fun st s =>
             if selected set s then do mx <- merge_section (fst st) s; Some (mx, snd st)
             else Some (fst st, snd st ++ [s]))
      ss (empty_mixed, []);
  let merged := if s_count mx =? 0 then kept else kept ++ [mx] in
  SortSectionsByDim (std_sort merged) merged.

(** ** [SplitSections] *)

(** line 378-381 with [mixed()]: type and nodes of cell [i_cell] of a mixed section *)
Definition mixed_row (s : Section) (i_cell : nat) : option (ElementType * list nat) :=
  if i_cell <? s_first s then None
  else
    do k <- nth_error (s_offset s) (i_cell - s_first s);
    do c <- nth_error (s_conn s) k;
    do t <- code_type c;
    do row <- slice (s_conn s) (S k) (CountNodesByType t);
    Some (t, row).

(** lines 981-996: [type_to_sections], oldest first *)
Fixpoint add_row (i_sect n_types : nat) (m : list (ElementType * Section)) (t : ElementType)
    (row : list nat) : option (list (ElementType * Section)) :=
  match m with
  | [] =>
    do d <- dim t;
    Some [(t, mkSection (i_sect + n_types)
                (NilEmpty.string_of_uint (Nat.to_uint n_types) ++ "Mixed")%string
                1 1 d t row [])]
  | (t', s) :: r =>
    if type_eqb t t' then
      Some ((t', mkSection (s_id s) (s_name s) (s_first s) (S (s_count s)) (s_dim s) (s_type s)
                   (s_conn s ++ row) (s_offset s)) :: r)
    else do r' <- add_row i_sect (S n_types) r t row; Some ((t', s) :: r')
  end.

(** lines 974-997: one mixed section *)
Definition split_section (i_sect : nat) (m : list (ElementType * Section)) (s : Section)
    : option (list (ElementType * Section)) :=
  foldM (fun m i => do (t, row) <- mixed_row s i; add_row i_sect 0 m t row)
    (seq (s_first s) (s_count s)) m.

(** lines 968-1004 [SplitSections]; [hash_order] is the order in which the hash map is
    read in line 1000 *)
Definition SplitSections (std_sort : list Section -> list nat)
    (hash_order : list Section -> list Section) (set : list nat)
    (ss : list Section) : option (list Section) :=
  do (m, kept) <-
    foldM (fun st s =>
             if (type_eqb (s_type s) MIXED && selected set s)%bool
             then do m <- split_section (List.length ss) (fst st) s; Some (m, snd st)
             else Some (fst st, snd st ++ [s]))
      ss ([], []);
  let new := kept ++ hash_order (map snd m) in
  SortSectionsByDim (std_sort new) new.

(** ** Looking up a section by name *)

(** lines 784-796 [GetSection(name)]; [None] is the exception *)
Fixpoint GetSection (name : string) (ss : list Section) : option Section :=
  match ss with
  | [] => None
  | s :: t =>
    let pos := if String.length name <? String.length (s_name s)
               then String.length (s_name s) - String.length name else 0 in
    if String.eqb (substring pos (String.length (s_name s)) (s_name s)) name
    then Some s else GetSection name t
  end.

(** lines 486-496 [BC]: name and [ptset] *)
Record BC := mkBC { bc_name : string; bc_first : nat; bc_last : nat }.

(** lines 532-540 [UpdateRanges] *)
Definition UpdateRanges (ss : list Section) (bcs : list BC) : option (list BC) :=
  mapM (fun b => do s <- GetSection (bc_name b) ss;
                 Some (mkBC (bc_name b) (s_first s) (s_first s + s_count s - 1))) bcs.
