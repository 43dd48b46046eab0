(** What a partition order has to be. *)
From Coq Require Import List Arith Permutation.
Import ListNotations.

(** [n2o] lists the old positions in new order, [o2n] the new positions in old
    order, for items whose part numbers are [parts]. *)
Record is_new_order (parts n2o o2n : list nat) : Prop := {
  no_perm : Permutation n2o (seq 0 (length parts));
  no_len : length o2n = length parts;
  (** mutually inverse *)
  no_inv1 : forall new old, nth_error n2o new = Some old -> nth_error o2n old = Some new;
  no_inv2 : forall new old, nth_error o2n old = Some new -> nth_error n2o new = Some old;
  (** parts are non-decreasing, and equal parts keep their old order *)
  no_sorted : forall i j a b, i < j ->
    nth_error n2o i = Some a -> nth_error n2o j = Some b ->
    exists p q, nth_error parts a = Some p /\ nth_error parts b = Some q /\
      (p < q \/ p = q /\ a < b)
}.
