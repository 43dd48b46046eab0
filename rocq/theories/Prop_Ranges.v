(** C06 *)
From Coq Require Import List Arith Sorted.
From Verif Require Import Arrays Model_Partition Spec_Partition Proof_Ranges.
Import ListNotations.

Theorem C06_ranges : forall n_parts first parts,
  parts <> [] -> 1 <= first -> StronglySorted le parts ->
  Forall (fun q => q < n_parts) parts ->
  exists table, slice_parts n_parts first parts = Some table /\
    range_table n_parts first parts table.
Proof. exact slice_parts_correct. Qed.
Print Assumptions C06_ranges.

Theorem C06_ranges_partition_ids : forall n_parts first parts table,
  Forall (fun q => q < n_parts) parts -> range_table n_parts first parts table ->
  (forall id, first <= id < first + length parts ->
     exists p h t, nth_error table p = Some (h, t) /\ h <= id < t) /\
  (forall id p q h t h' t', nth_error table p = Some (h, t) ->
     nth_error table q = Some (h', t') -> h <= id < t -> h' <= id < t' -> p = q).
Proof. exact range_table_cover. Qed.
Print Assumptions C06_ranges_partition_ids.

(** parts 0 and 3 own nothing *)
Example C06_nonvacuous :
  slice_parts 4 5 [1; 1; 2; 2; 2] = Some [(0, 0); (5, 7); (7, 10); (0, 0)] /\
  StronglySorted le [1; 1; 2; 2; 2] /\ Forall (fun q => q < 4) [1; 1; 2; 2; 2].
Proof. repeat split; repeat constructor. Qed.
