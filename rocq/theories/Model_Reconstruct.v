(** Model of [Part::Reconstruct]: running a limiter on the cells of a distributed mesh.
    Source: include/mini/mesh/part.hpp.
    Cells of the whole mesh are numbered, [part c] is the rank that owns cell [c], and [adj c] lists the
    neighbours of [c].  The coefficients of a cell are of an arbitrary type [A].  A rank holds a memory
    that maps cells (its own and its ghost cells) to coefficients.  The limiter is a pair of functions of
    that memory: [is_not_smooth] (the call [limiter.IsNotSmooth( *cell_ptr)]) and [limit] (the coefficients
    of [limiter( *cell_ptr)]).  Message passing is idealised: a ghost cell receives the coefficients that
    its owner wrote into the send buffer. *)
From Coq Require Import List Arith Bool.
Import ListNotations.

Section Reconstruct.
  Context {A : Type}.
  Definition memory := nat -> A.
  Variable is_not_smooth : memory -> nat -> bool.
  Variable limit : memory -> nat -> A.

  (** one assignment of coefficients: part.hpp:1331 *)
  Definition mset (m : memory) (c : nat) (x : A) : memory := fun d => if d =? c then x else m d.

  (** the loop of part.hpp:1330-1332 over the two vectors *)
  Fixpoint write_all (cells : list nat) (news : list A) (m : memory) : memory :=
    match cells, news with
    | c :: cs, x :: xs => write_all cs xs (mset m c x)
    | _, _ => m
    end.

  (** part.hpp:1317-1334: collect the troubled cells, compute all new projections, then write them *)
  Definition Reconstruct_cells (cell_ptrs : list nat) (m : memory) : memory :=
    let troubled_cells := filter (is_not_smooth m) cell_ptrs in
    let new_projections := map (limit m) troubled_cells in
    write_all troubled_cells new_projections m.

  Variable cells : list nat.
  Variable adj : nat -> list nat.
  Variable part : nat -> nat.

  (** part.hpp:973, [cell.inner_ = false] for the cells sent to another rank, which are those with a
      neighbour there; part.hpp:222-227 [inner()], [inter()] *)
  Definition inner (c : nat) : bool := forallb (fun n => part n =? part c) (adj c).

  (** part.hpp:818-825: [inner_and_inter_cells_] of a rank *)
  Definition inner_cells (rank : nat) : list nat := filter (fun c => (part c =? rank) && inner c) cells.
  Definition inter_cells (rank : nat) : list nat := filter (fun c => (part c =? rank) && negb (inner c)) cells.

  (** part.hpp:1285-1302: the ghost cells of a rank take what their owners sent *)
  Definition UpdateGhostCellCoeffs (sent : memory) (rank : nat) (m : memory) : memory :=
    fun c => if part c =? rank then m c else sent c.

  (** part.hpp:1304-1315 on one rank; [sent] is what all ranks put into their send buffers
      (part.hpp:1258-1284), which happens before the first pass *)
  Definition Reconstruct_rank (degrees : nat) (sent : memory) (rank : nat) (m : memory) : memory :=
    if degrees =? 0 then m
    else
      let m := Reconstruct_cells (inner_cells rank) m in
      let m := UpdateGhostCellCoeffs sent rank m in
      Reconstruct_cells (inter_cells rank) m.

  (** all ranks: [state] gives the coefficients of each cell on its owner, [stale rank] what the ghost cells of a
      rank contain before the call; the result gives the coefficients of each cell on its owner *)
  Definition Reconstruct (degrees : nat) (stale : nat -> memory) (state : memory) : memory :=
    fun c =>
      let rank := part c in
      let m := fun d => if part d =? rank then state d else stale rank d in
      Reconstruct_rank degrees state rank m c.
End Reconstruct.
Arguments memory : clear implicits.
