(** C02 *)
From Coq Require Import List Arith.
From Verif Require Import Arrays Model_Shuffle Spec_Shuffle Proof_Shuffle.
Import ListNotations.

Theorem C02_new_order : forall parts,
  is_new_order parts (fst (GetNewOrder parts)) (snd (GetNewOrder parts)).
Proof. exact GetNewOrder_correct. Qed.
Print Assumptions C02_new_order.

Theorem C02_new_order_unique : forall parts n2o o2n n2o' o2n',
  is_new_order parts n2o o2n -> is_new_order parts n2o' o2n' -> n2o = n2o' /\ o2n = o2n'.
Proof. exact new_order_unique. Qed.
Print Assumptions C02_new_order_unique.

Example C02_nonvacuous :
  GetNewOrder [2; 0; 1; 2; 0; 1] = ([1; 4; 2; 5; 0; 3], [4; 0; 2; 5; 1; 3]).
Proof. vm_compute. reflexivity. Qed.
