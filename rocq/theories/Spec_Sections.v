(** What sorting, merging and splitting sections should achieve. *)
From Coq Require Import String List Arith ZArith Permutation Sorted.
From Verif Require Import Arrays Model_Cgns Model_Mapper Model_Metis Model_Partition Spec_Mesh.
Import ListNotations.

(** higher dimension first; within a dimension, the old order *)
Definition ordered (a b : Section) : Prop :=
  (s_dim b < s_dim a)%Z \/ (s_dim a = s_dim b /\ s_id a <= s_id b).

(** What [std::sort] with comparison [lt] promises about the positions [order]: they are
    a permutation, and no element is less than an earlier one. *)
Definition sort_contract (lt : Section -> Section -> bool) (ss : list Section)
    (order : list nat) : Prop :=
  Permutation order (seq 0 (List.length ss)) /\
  forall i j oi oj a b, i < j -> nth_error order i = Some oi -> nth_error order j = Some oj ->
    nth_error ss oi = Some a -> nth_error ss oj = Some b -> lt b a = false.

(** everything but the id and the first cell id *)
Definition contents (s : Section) := (s_name s, s_count s, s_dim s, s_type s, s_conn s, s_offset s).

(** number of cells in the sections of dimension [d] *)
Definition cells_of_dim (d : Z) (ss : list Section) : nat :=
  list_sum (map s_count (filter (fun s => Z.eqb (s_dim s) d) ss)).

Definition has_cell (s : Section) (i : nat) : Prop := s_first s <= i < s_first s + s_count s.

(** sections of one element type with a full connectivity table *)
Definition homogeneous (s : Section) : Prop :=
  s_type s <> MIXED /\ dim (s_type s) = Some (s_dim s) /\
  List.length (s_conn s) = CountNodesByType (s_type s) * s_count s.

(** element type, number of cells and connectivity *)
Definition shape (s : Section) := (s_type s, s_count s, s_conn s).

(** what the sections of type [t] among [ss] hold together *)
Definition together (ss : list Section) (t : ElementType) :=
  let l := filter (fun s => type_eqb (s_type s) t) ss in
  (t, list_sum (map s_count l), concat (map s_conn l)).

(** [b] is the end of [a] *)
Definition ends_with (a b : string) : Prop := exists p, a = (p ++ b)%string.
