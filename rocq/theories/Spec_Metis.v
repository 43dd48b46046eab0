(** Specification of CSR meshes/graphs and of node ownership. *)
From Coq Require Import List Arith.
From Verif Require Import Arrays Model_Mapper Model_Metis Spec_Mesh.
Import ListNotations.

(** a CSR mesh as [Map] produces it (C05) *)
Record wf_csr (mesh : MetisMesh) (n_cells : nat) : Prop := {
  wc_len : length (mm_range mesh) = S n_cells;
  wc_zero : nth_error (mm_range mesh) 0 = Some 0;
  wc_mono : forall i a b, nth_error (mm_range mesh) i = Some a ->
    nth_error (mm_range mesh) (S i) = Some b -> a <= b;
  wc_last : nth_error (mm_range mesh) n_cells = Some (length (mm_index mesh));
  wc_ids : Forall (fun k => k < mm_nodes mesh) (mm_index mesh)
}.

(** node [k] is used by cell [m] *)
Definition uses (mesh : MetisMesh) (m k : nat) : Prop :=
  exists row, csr_row mesh m = Some row /\ In k row.

(** the part that owns node [k] *)
Definition owner_part (mesh : MetisMesh) (cell_parts : list nat) (n_parts k p : nat) : Prop :=
  (forall m q, uses mesh m k -> nth_error cell_parts m = Some q -> p <= q) /\
  p <= n_parts /\
  (p = n_parts \/ exists m, uses mesh m k /\ nth_error cell_parts m = Some p).
