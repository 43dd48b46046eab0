(** Model of the free functions of /repo/include/mini/mesh/shuffler.hpp:
    [GetNewOrder], [ShuffleData], [ShuffleConnectivity].
    Indices and part numbers are [nat]; a pointer into an array is modelled by
    the array and an offset. *)
From Coq Require Import List Arith Bool.
From Verif Require Import Arrays.
Import ListNotations.

(** shuffler.hpp lines 41-43: the lambda [cmp] *)
Definition cmp (parts : list nat) (lid rid : nat) : bool :=
  (nth lid parts 0 <? nth rid parts 0)
  || ((nth lid parts 0 =? nth rid parts 0) && (lid <? rid)).

(** [std::sort] (shuffler.hpp line 44) modelled by insertion sort;
    [cmp] is a strict total order on 0..n-1, hence the sorted list is unique
    (proved in Proof_Shuffle.new_order_unique) and the algorithm irrelevant. *)
Fixpoint insert_by (lt : nat -> nat -> bool) (x : nat) (l : list nat) : list nat :=
  match l with
  | [] => [x]
  | h :: t => if lt h x then h :: insert_by lt x t else x :: l
  end.

Fixpoint sort_by (lt : nat -> nat -> bool) (l : list nat) : list nat :=
  match l with
  | [] => []
  | h :: t => insert_by lt h (sort_by lt t)
  end.

(** shuffler.hpp lines 35-48; [parts] points to [n = length parts] values *)
Definition GetNewOrder (parts : list nat) : list nat * list nat :=
  let n := length parts in
  let new_to_old := sort_by (cmp parts) (seq 0 n) in
  let old_to_new :=
    fold_left (fun acc i => upd acc (nth i new_to_old 0) i) (seq 0 n) (repeat 0 n) in
  (new_to_old, old_to_new).

(** shuffler.hpp lines 56-63; [old_data] points to element [a] of [l] *)
Definition ShuffleData {T} (new_to_old : list nat) (l : list T) (a : nat)
    : option (list T) :=
  do new_data <- mapM (fun k => nth_error l (a + k)) new_to_old;
  write_at l a new_data.

(** shuffler.hpp lines 84-104; [old_cid_old_nid] is the whole array [conn].
    [old_to_new_for_nodes.at(old_nid - 1)] throws ([None]) out of range. *)
Definition ShuffleConnectivity (old_to_new_for_nodes new_to_old_for_cells : list nat)
    (npe : nat) (conn : list nat) : option (list nat) :=
  let n_cells := length new_to_old_for_cells in
  do old_cid_old_nid <- slice conn 0 (n_cells * npe);
  do old_cid_new_nid <-
    mapM (fun old_nid => do k <- at1 old_to_new_for_nodes old_nid; Some (k + 1))
      old_cid_old_nid;
  do rows <-
    mapM (fun old_cid => slice old_cid_new_nid (npe * old_cid) npe) new_to_old_for_cells;
  write_at conn 0 (concat rows).
