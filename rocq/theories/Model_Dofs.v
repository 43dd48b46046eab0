(** Model of the columns of degrees of freedom that spatial discretisations exchange with time
    integrators.
    Sources: include/mini/spatial/fem.hpp, include/mini/mesh/part.hpp,
    include/mini/polynomial/projection.hpp and include/mini/polynomial/hexahedron.hpp.
    A column is an array: a size and a function from addresses to real numbers.  [K] is the number of
    components and [N] the size of the basis; a [Coeff] is a K-by-N Eigen matrix, stored column by column, given as
    a function of the row and of the column.  A failed [assert] is [None]. *)
From Coq Require Import Reals List Arith.
From Verif Require Import Arrays.
Import ListNotations.
Open Scope R_scope.

Record column := Col { size : nat; at_ : nat -> R }.
Definition coeff := nat -> nat -> R.

Section Column.
  Variables K N : nat.

  (** [*output++ = g( *output )] *)
  Definition poke (g : R -> R) (st : (nat -> R) * nat) : (nat -> R) * nat :=
    let '(m, p) := st in (fun a => if (a =? p)%nat then g (m p) else m a, S p).

  (** the double loops of projection.hpp:171-184 and hexahedron.hpp:528-541, [op] being [+=] or [-=] *)
  Definition for_each (op : R -> R -> R) (x : coeff) (output : nat) (m : nat -> R) : nat -> R :=
    fst (fold_left
           (fun st c => fold_left (fun st r => poke (fun old => op old (x r c)) st) (seq 0 K) st)
           (seq 0 N) (m, output)).
  (** projection.hpp:171-177, hexahedron.hpp:528-534 *)
  Definition AddCoeffTo (x : coeff) (output : nat) (m : nat -> R) : nat -> R := for_each Rplus x output m.
  (** projection.hpp:178-184, hexahedron.hpp:535-541 *)
  Definition MinusCoeff (x : coeff) (output : nat) (m : nat -> R) : nat -> R := for_each Rminus x output m.

  (** hexahedron.hpp:550-557 *)
  Definition AddValueTo (v : nat -> R) (output i_basis : nat) (m : nat -> R) : option (nat -> R) :=
    if (i_basis <? N)%nat then
      Some (fst (fold_left (fun st r => poke (fun old => old + v r) st) (seq 0 K) (m, output + K * i_basis)%nat))
    else None.
  (** hexahedron.hpp:558-565 *)
  Definition MinusValue (v : nat -> R) (output i_basis : nat) (m : nat -> R) : option (nat -> R) :=
    if (i_basis <? N)%nat then
      Some (fst (fold_left (fun st r => poke (fun old => old - v r) st) (seq 0 K) (m, output + K * i_basis)%nat))
    else None.
  (** hexahedron.hpp:573-578: also returns the address after the value *)
  Definition ScaleValueAt (scale : R) (st : (nat -> R) * nat) : (nat -> R) * nat :=
    fold_left (fun st r => poke (fun old => old * scale) st) (seq 0 K) st.

  (** projection.hpp:163-166 and hexahedron.hpp:514-517: the matrix read from the array, and the address after it *)
  Definition GetCoeffFrom (m : nat -> R) (input : nat) : coeff * nat :=
    (fun r c => m (input + (c * K + r))%nat, (input + K * N)%nat).
  (** projection.hpp:167-170 and hexahedron.hpp:518-521 *)
  Definition WriteCoeffTo (x : coeff) (st : (nat -> R) * nat) : (nat -> R) * nat :=
    let '(m, output) := st in
    (fun a => if ((output <=? a) && (a <? output + K * N))%nat%bool
              then x ((a - output) mod K)%nat ((a - output) / K)%nat else m a, (output + K * N)%nat).

  (** part.hpp:826-832: the offsets [cell_data_] of [n] cells, all having K*N fields *)
  Fixpoint cell_data (n : nat) : list nat :=
    match n with O => [0%nat] | S k => cell_data k ++ [(last (cell_data k) 0 + K * N)%nat] end.
  (** part.hpp:844-847 *)
  Definition GetCellDataOffset (n i_cell : nat) : option nat :=
    if (i_cell <=? n)%nat then nth_error (cell_data n) i_cell else None.
  (** part.hpp:853-857 *)
  Definition GetCellDataSize (n : nat) : option nat :=
    do s <- GetCellDataOffset n n; if (s =? K * N * n)%nat then Some s else None.
  (** fem.hpp:111-123 *)
  Definition AddCellDataOffset (n : nat) (col : column) (i_cell : nat) : option nat :=
    do o <- GetCellDataOffset n i_cell; if (o + K * N <=? size col)%nat then Some o else None.

  (** fem.hpp:158-159, 168-169: the address after cell [i_cell] is the end of the column or the next cell *)
  Definition check_end (n : nat) (col : column) (i_cell data : nat) : bool :=
    (data =? size col)%nat
    || match AddCellDataOffset n col (S i_cell) with Some o => (data =? o)%nat | None => false end.

  (** [foldM] runs a loop whose body may fail *)
  Fixpoint foldM {A S : Type} (f : S -> A -> option S) (l : list A) (s : S) : option S :=
    match l with [] => Some s | x :: t => do s' <- f s x; foldM f t s' end.

  (** The solution is a function from cell numbers to coefficient matrices; [ids] lists the cells in the order
      of the loop.  fem.hpp:162-172; [garbage] is the uninitialised content of the new column. *)
  Definition GetSolutionColumn (n : nat) (ids : list nat) (solution : nat -> coeff) (garbage : nat -> R) : option column :=
    do sz <- GetCellDataSize n;
    foldM (fun col i_cell =>
      do data <- AddCellDataOffset n col i_cell;
      let '(m, data) := WriteCoeffTo (solution i_cell) (at_ col, data) in
      let col := Col (size col) m in
      if check_end n col i_cell data then Some col else None) ids (Col sz garbage).

  (** fem.hpp:153-161 *)
  Definition SetSolutionColumn (n : nat) (ids : list nat) (col : column) (solution : nat -> coeff) : option (nat -> coeff) :=
    foldM (fun solution i_cell =>
      do data <- AddCellDataOffset n col i_cell;
      let '(x, data) := GetCoeffFrom (at_ col) data in
      if check_end n col i_cell data
      then Some (fun i => if (i =? i_cell)%nat then x else solution i) else None) ids solution.
End Column.
