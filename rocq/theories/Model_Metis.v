(** Model of /repo/include/mini/mesh/metis.hpp (the parts that are not calls of
    the METIS library). *)
From Coq Require Import List Arith.
From Verif Require Import Arrays Model_Mapper.
Import ListNotations.

(** metis.hpp lines 28-78 [SparseGraph]: [range_] and [index_] *)
Record Graph := mkGraph { g_range : list nat; g_index : list nat }.

(** metis.hpp lines 331-337: the loop over the nodes of one cell; [n] is
    [tail - head], [ptr] the position of [node_pointer] *)
Fixpoint gnp_nodes (idx : list nat) (part_value n ptr : nat) (np : list nat)
    : option (nat * list nat) :=
  match n with
  | O => Some (ptr, np)
  | S n' =>
    do node_index <- nth_error idx ptr;
    do old <- nth_error np node_index;
    gnp_nodes idx part_value n' (S ptr)
      (if part_value <? old then upd np node_index part_value else np)
  end.

(** metis.hpp lines 324-338: the loop over cells [i], [i+1], ... *)
Fixpoint gnp_cells (range idx cell_parts : list nat) (n i ptr : nat) (np : list nat)
    : option (list nat) :=
  match n with
  | O => Some np
  | S n' =>
    do part_value <- nth_error cell_parts i;
    do head <- nth_error range i;
    do tail <- nth_error range (S i);
    do (ptr', np') <- gnp_nodes idx part_value (tail - head) ptr np;
    gnp_cells range idx cell_parts n' (S i) ptr' np'
  end.

(** metis.hpp lines 314-340 [GetNodeParts]; the number of cells is the number of
    rows of the CSR arrays (line 149) *)
Definition GetNodeParts (mesh : MetisMesh) (cell_parts : list nat) (n_parts : nat)
    : option (list nat) :=
  gnp_cells (mm_range mesh) (mm_index mesh) cell_parts
    (length (mm_range mesh) - 1) 0 0 (repeat n_parts (mm_nodes mesh)).
