(** Model of writing a solution to a CGNS file and of reading it back: [Section::GatherFields],
    [Section::ScatterFields] and [Part::GatherSolutions], [WriteSolutions], [ReadSolutions],
    [ScatterSolutions] (/repo/include/mini/mesh/part.hpp).
    The processes are modelled together: index [p] in a list of parts is the process of rank [p].
    Of the CGNS library the functions on fields are modelled, for the single solution "DataOnCells" that
    [WriteSolutions] creates in each zone.  Not modelled: the coordinates and the connectivities that
    are written to the same file (lines 1152-1188), and file system errors. *)
From Coq Require Import List Arith Bool String DecimalString DecimalNat.
From Verif Require Import Arrays.
Import ListNotations.

(** cgns.hpp lines 156-185: [ShiftedVector::at].  An index below the shift wraps around to a huge one, which
    [std::vector::at] rejects by an exception. *)
Definition at_shift {X} (l : list X) (shift i : nat) : option X :=
  if shift <=? i then nth_error l (i - shift) else None.
Definition set_shift {X} (l : list X) (shift i : nat) (x : X) : option (list X) :=
  if (shift <=? i) && (i - shift <? List.length l) then Some (upd l (i - shift) x) else None.

(** the maps [local_cells_[i_zone]] of part.hpp line 1414: lists of keys and values *)
Fixpoint find_key {V} (k : nat) (m : list (nat * V)) : option V :=
  match m with
  | [] => None
  | (k', v) :: t => if k =? k' then Some v else find_key k t
  end.
(** assignment to the value of a present key *)
Definition assign {V} (k : nat) (v : V) (m : list (nat * V)) : list (nat * V) :=
  map (fun x => if fst x =? k then (k, v) else x) m.

Section Restart.
  Context {A : Type}.
  (** part.hpp lines 202-204: the numbers of components and of basis functions, and [kFields] *)
  Variables K N : nat.
  Definition kFields : nat := K * N.

  (** [Projection::Coeff], a matrix of [K] rows: the list of its columns *)
  Definition coeff : Type := list (list A).

  (** Eigen: [coeff.reshaped()[i]] is in the order of columns; a wrong index is an assertion *)
  Definition reshaped (c : coeff) (i : nat) : option A :=
    do col <- nth_error c (i / K); nth_error col (i mod K).
  Definition reshaped_set (c : coeff) (i : nat) (v : A) : option coeff :=
    do col <- nth_error c (i / K);
    if i mod K <? List.length col then Some (upd c (i / K) (upd col (i mod K) v)) else None.

  (** part.hpp lines 290-298 [Section]: [head_], the coefficients of the cells and [fields_];
      [size_] is the number of cells *)
  Record Sect := mkSect { head : nat; cells : list coeff; fields : list (list A) }.

  (** part.hpp lines 371-376 *)
  Definition gather_cell (s : Sect) (fs : list (list A)) (i_cell : nat) : option (list (list A)) :=
    do c <- at_shift (cells s) (head s) i_cell;
    foldM (fun fs i_field =>
      do row <- at_shift fs 1 i_field;
      do v <- reshaped c (i_field - 1);
      do row' <- set_shift row (head s) i_cell v;
      set_shift fs 1 i_field row') (seq 1 kFields) fs.

  (** part.hpp lines 370-378 [GatherFields] *)
  Definition GatherFields (s : Sect) : option Sect :=
    do fs <- foldM (gather_cell s) (seq (head s) (List.length (cells s))) (fields s);
    Some (mkSect (head s) (cells s) fs).

  (** part.hpp lines 380-385 *)
  Definition scatter_cell (s : Sect) (cs : list coeff) (i_cell : nat) : option (list coeff) :=
    do c <- at_shift cs (head s) i_cell;
    do c' <- foldM (fun c i_field =>
      do row <- at_shift (fields s) 1 i_field;
      do v <- at_shift row (head s) i_cell;
      reshaped_set c (i_field - 1) v) (seq 1 kFields) c;
    set_shift cs (head s) i_cell c'.

  (** part.hpp lines 379-387 [ScatterFields] *)
  Definition ScatterFields (s : Sect) : option Sect :=
    do cs <- foldM (scatter_cell s) (seq (head s) (List.length (cells s))) (cells s);
    Some (mkSect (head s) cs (fields s)).

  (** [local_cells_] of a process: the sections of each zone by their numbers.  There are [local_nodes_.size()]
      zones; a zone without sections of cells has an empty map. *)
  Definition Part : Type := list (list (nat * Sect)).

  (** the loop over [i_sect] in lines 1104-1107 and 1113-1116.  A missing number makes a default
      [Section], whose [head_] and [size_] are uninitialised: [None]. *)
  Definition each_section (f : Sect -> option Sect) (m : list (nat * Sect))
      : option (list (nat * Sect)) :=
    foldM (fun m i_sect => do s <- find_key i_sect m; do s' <- f s; Some (assign i_sect s' m))
      (seq 1 (List.length m)) m.

  (** part.hpp lines 1101-1109 [GatherSolutions] *)
  Definition GatherSolutions (p : Part) : option Part := mapM (each_section GatherFields) p.
  (** part.hpp lines 1110-1118 [ScatterSolutions] *)
  Definition ScatterSolutions (p : Part) : option Part := mapM (each_section ScatterFields) p.

  (** ** The file *)

  (** a zone of the file: its number of cells and the fields of its solution "DataOnCells".  The entries of
      a field that have not been written are unspecified: [None]. *)
  Record FZone := mkFZone { n_cells : nat; f_fields : list (string * list (option A)) }.

  (** the position, counted from 1, of a field *)
  Fixpoint find_field (name : string) (l : list (string * list (option A))) : option nat :=
    match l with
    | [] => None
    | (n, _) :: t => if String.eqb n name then Some 1 else option_map S (find_field name t)
    end.

  (** Whether [cgp_field_write] keeps the data of a field of the same name that is in the file. *)
  Variable keeps : bool.

  (** CGNS [cgp_field_write]: makes a field without data, or finds the field of that name.
      What happens to the data of such a field depends on the library: [keeps]. *)
  Definition cgp_field_write (z : FZone) (name : string) : FZone * nat :=
    match find_field name (f_fields z) with
    | Some i =>
      (if keeps then z
       else mkFZone (n_cells z) (upd (f_fields z) (i - 1) (name, repeat None (n_cells z))), i)
    | None => (mkFZone (n_cells z) (f_fields z ++ [(name, repeat None (n_cells z))]),
               S (List.length (f_fields z)))
    end.

  (** CGNS [cgp_field_write_data]: the entries [first], [first] + 1, ... (counted from 1) of a field; an empty
      range writes nothing, a range outside of the field is an error *)
  Definition cgp_field_write_data (z : FZone) (i_field first : nat) (data : list A) : option FZone :=
    match data with
    | [] => Some z
    | _ =>
      if first =? 0 then None else
      do f <- at_shift (f_fields z) 1 i_field;
      do row <- write_at (snd f) (first - 1) (map Some data);
      do fs <- set_shift (f_fields z) 1 i_field (fst f, row);
      Some (mkFZone (n_cells z) fs)
    end.

  (** CGNS [cgp_field_read_data]: as many entries as there are in [old]; unspecified ones are [None] *)
  Definition cgp_field_read_data (z : FZone) (i_field first : nat) (old : list A) : option (list A) :=
    do f <- at_shift (f_fields z) 1 i_field;
    match old with
    | [] => Some []
    | _ =>
      if first =? 0 then None else
      do row <- slice (snd f) (first - 1) (List.length old);
      mapM (fun x => x) row
    end.

  (** part.hpp line 1201 *)
  Definition field_name (i_field : nat) : string :=
    ("Field" ++ NilEmpty.string_of_uint (Nat.to_uint i_field))%string.

  (** part.hpp lines 1200-1214: one section of one field, in all processes *)
  Definition write_section (maps : list (list (nat * Sect))) (i_field : nat) (z : FZone) (i_sect : nat)
      : option FZone :=
    do ss <- mapM (find_key i_sect) maps;
    let (z', field_id) := cgp_field_write z (field_name i_field) in
    if field_id =? i_field then
      foldM (fun z s => do row <- at_shift (fields s) 1 i_field;
                        cgp_field_write_data z i_field (head s) row) ss z'
    else None.

  (** part.hpp lines 1197-1216: one zone.  [maps] are the maps of this zone in the processes; [cgp_field_write]
      is called by all processes together, so all must have the same number of sections. *)
  Definition write_zone (maps : list (list (nat * Sect))) (n : nat) : option FZone :=
    match maps with
    | [] => None
    | m :: _ =>
      if forallb (fun m' => List.length m' =? List.length m) maps then
        foldM (fun z i_field => foldM (write_section maps i_field) (seq 1 (List.length m)) z)
          (seq 1 kFields) (mkFZone n [])
      else None
    end.

  (** part.hpp lines 1119-1221 [WriteSolutions]; [sizes] are the numbers of cells in [zone_size_] *)
  Definition WriteSolutions (sizes : list nat) (parts : list Part) : option (list FZone) :=
    mapM (fun x : nat * nat =>
      do maps <- mapM (fun p : Part => nth_error p (fst x)) parts; write_zone maps (snd x))
      (combine (seq 0 (List.length sizes)) sizes).

  (** part.hpp lines 1238-1253: one section of one field *)
  Definition read_section (z : FZone) (i_field : nat) (m : list (nat * Sect)) (i_sect : nat)
      : option (list (nat * Sect)) :=
    do s <- find_key i_sect m;
    do old <- at_shift (fields s) 1 i_field;
    do row <- cgp_field_read_data z i_field (head s) old;
    do fs <- set_shift (fields s) 1 i_field row;
    Some (assign i_sect (mkSect (head s) (cells s) fs) m).

  (** part.hpp lines 1235-1254: one zone *)
  Definition read_zone (z : FZone) (m : list (nat * Sect)) : option (list (nat * Sect)) :=
    foldM (fun m i_field => foldM (read_section z i_field) (seq 1 (List.length m)) m) (seq 1 kFields) m.

  (** part.hpp lines 1222-1259 [ReadSolutions] in one process *)
  Definition ReadSolutions (file : list FZone) (p : Part) : option Part :=
    if List.length file =? List.length p then
      mapM (fun x : FZone * list (nat * Sect) => read_zone (fst x) (snd x)) (combine file p)
    else None.
End Restart.

Arguments Sect A : clear implicits.
Arguments Part A : clear implicits.
Arguments FZone A : clear implicits.
Arguments coeff A : clear implicits.
