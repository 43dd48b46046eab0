(** What a grid is, stated on the attributes of its elements. *)
From Coq Require Import Reals List Arith Lra.
From Verif Require Import Model_PyIntegrator Model_PyGrid.
Import ListNotations.
Open Scope nat_scope.

Section Linked.
  Context {V : Type} (g : Grid V).
  Notation n := (n_element g).
  (** one face object between the elements [i] and [j] *)
  Definition joined (i j f : nat) : Prop :=
    right_face g i = Some f /\ left_face g j = Some f /\ nth_error (made_faces g) f = Some (Interface i j).
  (** the interior faces, and the neighbors across *)
  Definition interior : Prop := forall i, S i < n -> exists f, joined i (S i) f /\ faces g (S i) = Some f /\
    right_expansion g i = Some (Plain (S i)) /\ left_expansion g (S i) = Some (Plain i).
  (** the last element is the neighbor of the first *)
  Definition cyclic : Prop := exists f, joined (n - 1) 0 f /\ faces g 0 = Some f /\ faces g n = Some f /\
    left_expansion g 0 = Some (Moved (n - 1) (- (x_right (coordinates g (n - 1)) - x_left (coordinates g 0)))%R) /\
    right_expansion g (n - 1) = Some (Moved 0 (x_right (coordinates g (n - 1)) - x_left (coordinates g 0))%R).
  (** the states at both ends are given *)
  Definition open (u_left u_right : V) : Prop := exists f f',
    left_face g 0 = Some f /\ faces g 0 = Some f /\ nth_error (made_faces g) f = Some (Inlet u_left 0 true) /\ left_expansion g 0 = None /\
    right_face g (n - 1) = Some f' /\ faces g n = Some f' /\ nth_error (made_faces g) f' = Some (Inlet u_right (n - 1) false) /\ right_expansion g (n - 1) = None.
  (** the elements cover [a, b] from left to right *)
  Definition covers (a b : R) : Prop := x_left (coordinates g 0) = a /\ x_right (coordinates g (n - 1)) = b /\
    (forall i, i < n -> (x_left (coordinates g i) < x_right (coordinates g i))%R) /\
    forall i, S i < n -> x_right (coordinates g i) = x_left (coordinates g (S i)).
  (** where a neighbor expansion lives *)
  Definition neighbor_coordinate (e : Neighbor) : Coordinate :=
    match e with Plain j => coordinates g j | Moved j s => Shifted (coordinates g j) s end.
End Linked.
