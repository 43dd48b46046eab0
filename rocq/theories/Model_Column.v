(** Model of the numbering of local cells in [Part] (/repo/include/mini/mesh/part.hpp) and of
    the packing of the solution (/repo/include/mini/spatial/fem.hpp). *)
From Coq Require Import List Arith Bool.
From Verif Require Import Arrays.
Import ListNotations.

(** part.hpp lines 183-270 [Cell]: [metis_id], [inner_], [id_] ([None] is -1), and the
    coefficients of its projection as one array of [kFields] scalars *)
Record LocalCell (A : Type) := mkLocalCell {
  c_metis : nat; c_inner : bool; c_id : option nat; c_coeff : list A
}.
Arguments mkLocalCell {A}. Arguments c_metis {A}. Arguments c_inner {A}. Arguments c_id {A}.
Arguments c_coeff {A}.

Section Column.
  Context {A : Type}.
  Implicit Types (cells : list (LocalCell A)).

  (** part.hpp lines 966-976, for one entry of [send_npes]: the cell is looked up by its METIS
      id (in [m_to_cell_index_]) and is no longer an inner one *)
  Fixpoint mark_inter cells (m : nat) : option (list (LocalCell A)) :=
    match cells with
    | [] => None
    | c :: t =>
      if c_metis c =? m then Some (mkLocalCell (c_metis c) false (c_id c) (c_coeff c) :: t)
      else do t' <- mark_inter t m; Some (c :: t')
    end.

  (** part.hpp lines 964-978: all entries of [send_npes], for all parts *)
  Definition FillCellPtrs (send : list nat) cells : option (list (LocalCell A)) :=
    foldM mark_inter send cells.

  (** part.hpp lines 819-825: positions in [local_cells_] of the cells of
      [inner_and_inter_cells_[0]] or [[1]] *)
  Definition positions (inter : bool) cells : list nat :=
    map fst (filter (fun ic => eqb (negb (c_inner (snd ic))) inter)
               (combine (seq 0 (length cells)) cells)).

  (** part.hpp lines 1354-1356 [GetLocalCellPointers] *)
  Definition pointers cells : list nat := positions false cells ++ positions true cells.

  (** part.hpp line 829 [cell_ptr->id_ = id] *)
  Definition set_id (c : LocalCell A) (id : nat) : LocalCell A :=
    mkLocalCell (c_metis c) (c_inner c) (Some id) (c_coeff c).
  (** projection.hpp line 164: the coefficients are overwritten *)
  Definition set_coeff (c : LocalCell A) (co : list A) : LocalCell A :=
    mkLocalCell (c_metis c) (c_inner c) (c_id c) co.

  (** part.hpp lines 828-831: one pass of the loop; the state is the cells, [id] and
      [cell_data_] *)
  Definition give_id (st : list (LocalCell A) * nat * list nat) (p : nat)
      : option (list (LocalCell A) * nat * list nat) :=
    let '(cells, id, data) := st in
    do c <- nth_error cells p;
    do last <- nth_error data (length data - 1);
    do cells' <- upd_opt cells p (set_id c id);
    Some (cells', S id, data ++ [last + length (c_coeff c)]).

  (** part.hpp lines 818-835 [AddLocalCellId]: the numbered cells and [cell_data_]; the last
      lines are assertions ([CountLocalCells] is [cell_data_.size() - 1]) *)
  Definition AddLocalCellId (k_fields : nat) cells : option (list (LocalCell A) * list nat) :=
    do (cells', id, data) <- foldM give_id (pointers cells) (cells, 0, [0]);
    do last <- nth_error data (length data - 1);
    if (id =? length data - 1) && (id + 1 =? length data) && (last =? (length data - 1) * k_fields)
    then Some (cells', data) else None.

  Section Packing.
    Variables (k_fields : nat) (data : list nat).

    (** part.hpp lines 844-847 [GetCellDataOffset]; fem.hpp lines 111-123
        [AddCellDataOffset], with their assertions *)
    Definition AddCellDataOffset (size : nat) (i_cell : nat) : option nat :=
      if i_cell <=? length data - 1 then
        do off <- nth_error data i_cell;
        if off + k_fields <=? size then Some off else None
      else None.

    (** fem.hpp lines 158-159, 168-169 *)
    Definition check_next (size : nat) (i_cell next : nat) : option unit :=
      if next =? size then Some tt
      else do off <- AddCellDataOffset size (S i_cell);
           if next =? off then Some tt else None.

    (** fem.hpp lines 155-159: one cell takes its coefficients (projection.hpp lines
        163-166 [GetCoeffFrom]) *)
    Definition set_one (column : list A) cells (p : nat) : option (list (LocalCell A)) :=
      do c <- nth_error cells p;
      do id <- c_id c;
      do off <- AddCellDataOffset (length column) id;
      do co <- slice column off (length (c_coeff c));
      do _ <- check_next (length column) id (off + length (c_coeff c));
      upd_opt cells p (set_coeff c co).

    (** fem.hpp lines 153-161 [SetSolutionColumn] *)
    Definition SetSolutionColumn (column : list A) cells : option (list (LocalCell A)) :=
      foldM (set_one column) (pointers cells) cells.

    (** fem.hpp lines 165-169: one cell writes its coefficients (projection.hpp lines
        167-170 [WriteCoeffTo]) *)
    Definition get_one (column : list A) (c : LocalCell A) : option (list A) :=
      do id <- c_id c;
      do off <- AddCellDataOffset (length column) id;
      do col <- write_at column off (c_coeff c);
      do _ <- check_next (length column) id (off + length (c_coeff c));
      Some col.

    (** fem.hpp lines 162-172 [GetSolutionColumn]; [column] is the uninitialised
        [Column(cell_data_size_)] *)
    Definition GetSolutionColumn (column : list A) cells : option (list A) :=
      foldM get_one cells column.
  End Packing.
End Column.
