(** C07 *)
From Coq Require Import List Arith Lia.
From Verif Require Import Arrays Model_Mapper Model_Metis Spec_Mesh Spec_Metis Proof_Metis.
Import ListNotations.

Theorem C07_node_parts : forall mesh cell_parts n_parts n_cells,
  wf_csr mesh n_cells -> length cell_parts = n_cells ->
  exists np, GetNodeParts mesh cell_parts n_parts = Some np /\ length np = mm_nodes mesh /\
    forall k, k < mm_nodes mesh ->
      exists p, nth_error np k = Some p /\ owner_part mesh cell_parts n_parts k p.
Proof. exact GetNodeParts_correct. Qed.
Print Assumptions C07_node_parts.

Theorem C07_used_node : forall mesh cell_parts n_parts n_cells np k,
  wf_csr mesh n_cells -> length cell_parts = n_cells ->
  Forall (fun q => q < n_parts) cell_parts ->
  GetNodeParts mesh cell_parts n_parts = Some np -> (exists m, uses mesh m k) ->
  exists p m, nth_error np k = Some p /\ p < n_parts /\ uses mesh m k /\
    nth_error cell_parts m = Some p.
Proof. exact GetNodeParts_used. Qed.
Print Assumptions C07_used_node.

Theorem C07_unused_node : forall mesh cell_parts n_parts n_cells np k,
  wf_csr mesh n_cells -> length cell_parts = n_cells -> k < mm_nodes mesh ->
  GetNodeParts mesh cell_parts n_parts = Some np -> ~ (exists m, uses mesh m k) ->
  nth_error np k = Some n_parts.
Proof. exact GetNodeParts_orphan. Qed.
Print Assumptions C07_unused_node.

(** two triangles sharing an edge, one node unused *)
Example C07_nonvacuous :
  let mesh := mkMetis [0; 3; 6] [0; 1; 2; 2; 1; 3] 5 in
  wf_csr mesh 2 /\ GetNodeParts mesh [1; 0] 2 = Some [1; 0; 0; 0; 2].
Proof.
  split; [|reflexivity]. constructor; try reflexivity.
  - intros [|[|[|i]]] a b Ha Hb; simpl in *; try discriminate;
      inversion Ha; inversion Hb; subst; lia.
  - repeat constructor.
Qed.
