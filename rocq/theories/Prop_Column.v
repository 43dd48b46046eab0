(** C17, C18 *)
From Coq Require Import List Arith Permutation Lia.
From Verif Require Import Arrays Model_Column Spec_Column Proof_Column.
Import ListNotations.

Theorem C17_packing_round_trip : forall A k_fields (cells0 cells : list (LocalCell A)) data,
  Forall (fun c => length (c_coeff c) = k_fields) cells0 ->
  AddLocalCellId k_fields cells0 = Some (cells, data) ->
  let size := length cells * k_fields in
  (forall col, length col = size ->
    exists cells', SetSolutionColumn k_fields data col cells = Some cells' /\
      Forall2 (fun c c' => c' = set_coeff c (c_coeff c')) cells cells' /\
      (forall c i, In c cells' -> c_id c = Some i -> c_coeff c = segment k_fields col i) /\
      forall init, length init = size -> GetSolutionColumn k_fields data init cells' = Some col) /\
  (forall init, length init = size ->
    exists col, GetSolutionColumn k_fields data init cells = Some col /\ length col = size /\
      SetSolutionColumn k_fields data col cells = Some cells).
Proof. exact @packing_ok. Qed.
Print Assumptions C17_packing_round_trip.

Theorem C18_local_cell_ids : forall A k_fields send (cells : list (LocalCell A)),
  NoDup (map c_metis cells) -> incl send (map c_metis cells) ->
  Forall (fun c => c_inner c = true) cells ->
  Forall (fun c => length (c_coeff c) = k_fields) cells ->
  exists marked cells' data,
    FillCellPtrs send cells = Some marked /\ AddLocalCellId k_fields marked = Some (cells', data) /\
    map (fun c => (c_metis c, c_coeff c)) cells' = map (fun c => (c_metis c, c_coeff c)) cells /\
    numbering cells' /\
    (forall c, In c cells' -> (c_inner c = false <-> In (c_metis c) send)) /\
    (forall c c' i i', In c cells' -> In c' cells' -> c_id c = Some i -> c_id c' = Some i' ->
       ~ In (c_metis c) send -> In (c_metis c') send -> i < i') /\
    data = map (fun i => i * k_fields) (seq 0 (S (length cells))).
Proof. exact @local_ids_ok. Qed.
Print Assumptions C18_local_cell_ids.

(** ** Examples: three cells, the first one has a neighbour on another part *)
Definition three := [ mkLocalCell 7 true None [1;2]; mkLocalCell 4 true None [3;4];
                      mkLocalCell 9 true None [5;6] ].
Definition three' := [ mkLocalCell 7 false (Some 2) [1;2]; mkLocalCell 4 true (Some 0) [3;4];
                       mkLocalCell 9 true (Some 1) [5;6] ].

Example C18_nonvacuous :
  NoDup (map c_metis three) /\ incl [7] (map c_metis three) /\
  exists marked, FillCellPtrs [7] three = Some marked /\
    AddLocalCellId 2 marked = Some (three', [0; 2; 4; 6]).
Proof.
  repeat split.
  - repeat constructor; simpl; intuition discriminate.
  - intros x [<-|[]]. simpl. auto.
  - eexists. split; vm_compute; reflexivity.
Qed.

Example C17_nonvacuous :
  GetSolutionColumn 2 [0; 2; 4; 6] [0;0;0;0;0;0] three' = Some [3;4; 5;6; 1;2] /\
  exists cells', SetSolutionColumn 2 [0; 2; 4; 6] [10;11;12;13;14;15] three' = Some cells' /\
    map c_coeff cells' = [[14;15]; [10;11]; [12;13]].
Proof. split; [vm_compute; reflexivity|]. eexists. split; vm_compute; reflexivity. Qed.
