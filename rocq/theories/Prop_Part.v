(** C09, C10, C11, C64 *)
From Coq Require Import List Arith ZArith Lia.
From Verif Require Import Arrays Model_Cgns Model_Mapper Model_Metis Model_Partition Model_Part
  Spec_Mesh Spec_Metis Spec_Partition Spec_Part Proof_ReadBack Sample_Parts.
Import ListNotations.

Theorem C09_node_lists_agree :
  forall A (inj : nat -> A) (prj : A -> nat), (forall n, prj (inj n) = n) ->
  forall cell_dim n_parts graph cell_parts (zs : list (Zone A)) mp mesh,
  valid_input cell_dim n_parts graph cell_parts zs mp mesh -> all_nodes_used mesh ->
  forall zs2 mp2 files,
  PartitionAndShuffle inj prj cell_dim n_parts graph cell_parts zs = Some (zs2, mp2, files) ->
  nodes_agree files.
Proof. exact @nodes_agree_end. Qed.
Print Assumptions C09_node_lists_agree.

Theorem C09_cell_lists_agree :
  forall A (inj : nat -> A) (prj : A -> nat), (forall n, prj (inj n) = n) ->
  forall cell_dim n_parts graph cell_parts (zs : list (Zone A)) mp mesh,
  valid_input cell_dim n_parts graph cell_parts zs mp mesh -> all_nodes_used mesh ->
  forall zs2 mp2 files,
  PartitionAndShuffle inj prj cell_dim n_parts graph cell_parts zs = Some (zs2, mp2, files) ->
  symmetric_graph graph -> cells_agree files.
Proof. exact @cells_agree_end. Qed.
Print Assumptions C09_cell_lists_agree.

Theorem C10_ghost_coefficients :
  forall A (inj : nat -> A) (prj : A -> nat), (forall n, prj (inj n) = n) ->
  forall cell_dim n_parts graph cell_parts (zs : list (Zone A)) mp mesh,
  valid_input cell_dim n_parts graph cell_parts zs mp mesh -> all_nodes_used mesh ->
  forall zs2 mp2 files,
  PartitionAndShuffle inj prj cell_dim n_parts graph cell_parts zs = Some (zs2, mp2, files) ->
  symmetric_graph graph ->
  forall kF (cos : list (@Coeffs A)), length cos = n_parts ->
  (forall p co, nth_error cos p = Some co -> wf_coeffs kF cell_parts graph p co) ->
  exists cos', ShareCoeffs kF files cos = Some cos' /\ length cos' = n_parts /\
    forall p co co', nth_error cos p = Some co -> nth_error cos' p = Some co' ->
      coeffs_shared cell_parts graph cos p co co'.
Proof. exact @coeffs_end. Qed.
Print Assumptions C10_ghost_coefficients.

Theorem C11_nodes_found :
  forall A (inj : nat -> A) (prj : A -> nat), (forall n, prj (inj n) = n) ->
  forall cell_dim n_parts graph cell_parts (zs : list (Zone A)) mp mesh,
  valid_input cell_dim n_parts graph cell_parts zs mp mesh -> all_nodes_used mesh ->
  forall zs2 mp2 files,
  PartitionAndShuffle inj prj cell_dim n_parts graph cell_parts zs = Some (zs2, mp2, files) ->
  exists stores, BuildNodes prj zs2 files = Some stores /\
    length stores = n_parts /\ nodes_found cell_parts graph zs2 mp2 stores.
Proof. exact @nodes_found_end. Qed.
Print Assumptions C11_nodes_found.

Theorem C64_cells_held :
  forall A (inj : nat -> A) (prj : A -> nat), (forall n, prj (inj n) = n) ->
  forall cell_dim n_parts graph cell_parts (zs : list (Zone A)) mp mesh,
  valid_input cell_dim n_parts graph cell_parts zs mp mesh -> all_nodes_used mesh ->
  forall zs2 mp2 files,
  PartitionAndShuffle inj prj cell_dim n_parts graph cell_parts zs = Some (zs2, mp2, files) ->
  symmetric_graph graph ->
  exists cells, BuildCells prj zs2 files = Some cells /\ length cells = n_parts /\
    forall p c, nth_error cells p = Some c -> good_cells cell_parts graph zs2 mp2 p c.
Proof. exact @cells_end. Qed.
Print Assumptions C64_cells_held.

(** the hypotheses hold for the sample mesh, and the processes hold what they should *)
Example C09_C11_C64_nonvacuous :
  valid_input 3 2 sample_graph sample_parts sample_zones sample_mapper sample_mesh /\
  all_nodes_used sample_mesh /\ symmetric_graph sample_graph /\
  (do (zs2, _, files) <- PartitionAndShuffle (fun n => n) (fun n => n) 3 2 sample_graph sample_parts
                         sample_zones;
   do stores <- BuildNodes (fun n => n) zs2 files;
   do cells <- BuildCells (fun n => n) zs2 files;
   Some (map ns_ghost stores, map (fun c => (map lc_metis (fst c), snd c)) cells,
         map send_npes files)) =
  Some ([ [(1, 6, (10, 20, 30))];
          [(1, 4, (14, 24, 34)); (1, 3, (13, 23, 33)); (1, 2, (12, 22, 32)); (1, 1, (11, 21, 31))] ],
        [ ([1; 2], [(0, (1, [6; 1; 2; 3]))]); ([0; 3], [(1, (1, [1; 2; 3; 4]))]) ],
        [ [(1, [(1, 4)])]; [(0, [(0, 4)])] ]).
Proof.
  split; [exact sample_input|]. split; [exact sample_used|]. split; [exact sample_sym|].
  vm_compute. reflexivity.
Qed.

Definition sample_coeffs : list (@Coeffs nat) :=
  [ mkCoeffs [(1, [71; 72]); (2, [73; 74])] [(0, [0; 0])];
    mkCoeffs [(0, [81; 82]); (3, [83; 84])] [(1, [0; 0])] ].

Lemma sample_ghost p m : is_ghost sample_parts sample_graph p m ->
  p = 0 /\ m = 0 \/ p = 1 /\ m = 1.
Proof.
  intros [[H|(i & q & H1 & H2 & H3 & H4)] Hn]; [contradiction|].
  apply sample_nbr in H2.
  decompose [or and] H2; subst; cbn in *; inversion H1; inversion H3; subst; auto; lia.
Qed.

Example C10_nonvacuous :
  (forall p co, nth_error sample_coeffs p = Some co ->
     wf_coeffs 2 sample_parts sample_graph p co) /\
  (do (_, _, files) <- PartitionAndShuffle (fun n => n) (fun n => n) 3 2 sample_graph sample_parts
                         sample_zones;
   ShareCoeffs 2 files sample_coeffs) =
  Some [ mkCoeffs [(1, [71; 72]); (2, [73; 74])] [(0, [81; 82])];
         mkCoeffs [(0, [81; 82]); (3, [83; 84])] [(1, [71; 72])] ].
Proof.
  split; [|vm_compute; reflexivity].
  intros p co H. destruct p as [|[|p]]; simpl in H; [| |destruct p; discriminate];
    inversion H; subst co; constructor.
  - intros m Hm. destruct m as [|[|[|[|m]]]]; simpl in Hm; try discriminate; try (destruct m; discriminate);
      eexists; split; reflexivity.
  - intros m Hm. apply sample_ghost in Hm. destruct Hm as [[_ ->]|[Hp _]]; [|lia]. eexists; reflexivity.
  - intros m Hm. destruct m as [|[|[|[|m]]]]; simpl in Hm; try discriminate; try (destruct m; discriminate);
      eexists; split; reflexivity.
  - intros m Hm. apply sample_ghost in Hm. destruct Hm as [[Hp _]|[_ ->]]; [lia|]. eexists; reflexivity.
Qed.
