(** Properties of the faces that the processes build (C85-C88). *)
From Coq Require Import List Arith ZArith Lia Permutation String.
From Verif Require Import Arrays Model_Cgns Model_Mapper Model_Metis Model_Partition Model_Part Model_PartFaces
  Spec_Mesh Spec_Metis Spec_Partition Spec_Part Spec_PartFaces Proof_Pipeline Proof_FacesEnd Proof_FacesUse
  Sample_Mesh Sample_Parts Sample_Twin.
Import ListNotations.

Lemma good_process A (inj : nat -> A) (prj : A -> nat) : (forall n, prj (inj n) = n) ->
  forall order, visits_once order ->
  forall cell_dim n_parts graph cell_parts (zs : list (Zone A)) mp mesh,
  valid_input cell_dim n_parts graph cell_parts zs mp mesh -> all_nodes_used mesh ->
  conforming cell_dim graph zs mp mesh -> symmetric_graph graph ->
  forall zs2 mp2 files,
  PartitionAndShuffle inj prj cell_dim n_parts graph cell_parts zs = Some (zs2, mp2, files) ->
  (forall p, p < n_parts -> exists fs, process_faces prj order zs2 files p fs) /\
  forall p fs, process_faces prj order zs2 files p fs ->
    good_faces cell_dim cell_parts graph mesh zs2 mp2 p fs.
Proof.
  intros Hprj order Ho cd n graph cp zs mp mesh VI VU CF Sym zs2 mp2 files E.
  destruct (faces_end inj prj Hprj order Ho cd n graph cp zs mp mesh VI VU CF zs2 mp2 files E Sym)
    as (stores & cells & E1 & E2 & L1 & L2 & H).
  assert (L3 : List.length files = n).
  { destruct (PartitionAndShuffle_ok inj prj cd n graph cp zs mp mesh Hprj VI VU)
      as (zs1 & zs2' & mp2' & files' & np & _ & _ & E' & _ & _ & _ & GF & _).
    rewrite E in E'. inversion E'; subst. apply (gf_len _ _ _ _ _ _ _ _ _ GF). }
  split.
  - intros p Lp. destruct (nth_error_lt_some files p) as [f Hf]; [lia|].
    destruct (nth_error_lt_some stores p) as [st Hst]; [lia|].
    destruct (nth_error_lt_some cells p) as [c Hc]; [lia|].
    destruct (H p f st c Hf Hst Hc) as (fs & B & _). exists fs, stores, cells, f, st, c. auto 10.
  - intros p fs (stores' & cells' & f & st & c & E1' & E2' & Hf & Hst & Hc & B).
    rewrite E1 in E1'. inversion E1'; subst stores'. rewrite E2 in E2'. inversion E2'; subst cells'.
    destruct (H p f st c Hf Hst Hc) as (fs' & B' & G). rewrite B in B'. inversion B'; subst. exact G.
Qed.

(** ** C85: every process builds one face for each pair of adjacent cells and each boundary face, with the right
    nodes, in outward order, with their coordinates *)
Theorem C85_faces : forall A (inj : nat -> A) (prj : A -> nat), (forall n, prj (inj n) = n) ->
  forall order, visits_once order ->
  forall cell_dim n_parts graph cell_parts (zs : list (Zone A)) mp mesh,
  valid_input cell_dim n_parts graph cell_parts zs mp mesh -> all_nodes_used mesh ->
  conforming cell_dim graph zs mp mesh -> symmetric_graph graph ->
  forall zs2 mp2 files,
  PartitionAndShuffle inj prj cell_dim n_parts graph cell_parts zs = Some (zs2, mp2, files) ->
  forall p, p < n_parts -> exists fs, process_faces prj order zs2 files p fs /\
    good_faces cell_dim cell_parts graph mesh zs2 mp2 p fs.
Proof.
  intros A inj prj Hprj order Ho cd n graph cp zs mp mesh VI VU CF Sym zs2 mp2 files E p Lp.
  destruct (good_process A inj prj Hprj order Ho cd n graph cp zs mp mesh VI VU CF Sym zs2 mp2 files E) as [H1 H2].
  destruct (H1 p Lp) as (fs & H). eauto.
Qed.
Print Assumptions C85_faces.

(** ** C86: two processes see the same face between them, and each boundary face has one owner *)
Theorem C86_ghost_faces : forall A (inj : nat -> A) (prj : A -> nat), (forall n, prj (inj n) = n) ->
  forall order order', visits_once order -> visits_once order' ->
  forall cell_dim n_parts graph cell_parts (zs : list (Zone A)) mp mesh,
  valid_input cell_dim n_parts graph cell_parts zs mp mesh -> all_nodes_used mesh ->
  conforming cell_dim graph zs mp mesh -> symmetric_graph graph ->
  forall zs2 mp2 files,
  PartitionAndShuffle inj prj cell_dim n_parts graph cell_parts zs = Some (zs2, mp2, files) ->
  forall p q fs fs' F j, process_faces prj order zs2 files p fs -> process_faces prj order' zs2 files q fs' ->
  p <> q -> In F (fs_ghost fs) -> f_sharer F = Some j -> nth_error cell_parts j = Some q ->
  exists F', In F' (fs_ghost fs') /\ f_holder F' = j /\ f_sharer F' = Some (f_holder F) /\
    f_zone F' = f_zone F /\ Permutation (f_nodes F') (f_nodes F) /\ Permutation (f_coords F') (f_coords F) /\
    forall F'', In F'' (fs_ghost fs') -> f_holder F'' = j -> f_sharer F'' = Some (f_holder F) -> F'' = F'.
Proof.
  intros A inj prj Hprj order order' Ho Ho' cd n graph cp zs mp mesh VI VU CF Sym zs2 mp2 files E p q fs fs' F j P Q.
  eapply (ghosts_match cd cp graph mesh zs2 mp2).
  - eapply (good_process A inj prj Hprj order Ho); eauto.
  - eapply (good_process A inj prj Hprj order' Ho'); eauto.
  - exact Sym.
Qed.
Print Assumptions C86_ghost_faces.

Theorem C86_boundary_faces : forall A (inj : nat -> A) (prj : A -> nat), (forall n, prj (inj n) = n) ->
  forall order : nat -> list nat -> list nat, (forall p, visits_once (order p)) ->
  forall cell_dim n_parts graph cell_parts (zs : list (Zone A)) mp mesh,
  valid_input cell_dim n_parts graph cell_parts zs mp mesh -> all_nodes_used mesh ->
  conforming cell_dim graph zs mp mesh -> symmetric_graph graph ->
  forall zs2 mp2 files,
  PartitionAndShuffle inj prj cell_dim n_parts graph cell_parts zs = Some (zs2, mp2, files) ->
  forall run, (forall p, p < n_parts -> process_faces prj (order p) zs2 files p (run p)) ->
  forall z s sec c row m, (do zn <- at1 zs2 z; at1 (z_sections zn) s) = Some sec -> (s_dim sec + 1 = cell_dim)%Z ->
  metis_row zs2 mp2 z s c = Some row -> in_cell mesh row m ->
  exists p b F, p < n_parts /\ nth_error cell_parts m = Some p /\ In b (fs_bound (run p)) /\ b_zone b = z /\
    b_sect b = s /\ In F (b_faces b) /\ face_at zs2 mp2 mesh z s sec c m F /\
    forall p' b' F' m', p' < n_parts -> In b' (fs_bound (run p')) -> In F' (b_faces b') ->
      face_at zs2 mp2 mesh z s sec c m' F' -> p' = p /\ m' = m.
Proof.
  intros A inj prj Hprj order Ho cd n graph cp zs mp mesh VI VU CF Sym zs2 mp2 files E run Hrun z s sec c row m Hs Hd Hr Hm.
  assert (U : exists rm, csr_row mesh m = Some rm).
  { destruct row as [|k t].
    - exfalso. exact (row_not_empty inj prj Hprj cd n graph cp zs mp mesh VI VU zs2 mp2 files E z s sec c Hs Hr).
    - destruct (Hm k (or_introl eq_refl)) as (rm & Er & _). eauto. }
  destruct U as [rm Er].
  eapply (bound_once cd cp graph mesh zs2 mp2 run); eauto.
  - intros p Lp. eapply (good_process A inj prj Hprj (order p) (Ho p)); eauto.
  - apply (vi_parts _ _ _ _ _ _ _ VI).
  - rewrite (vi_len _ _ _ _ _ _ _ VI). eapply csr_row_lt; eauto.
    apply (Proof_Mapper.Map_rows cd zs mp mesh (vi_dim _ _ _ _ _ _ _ VI) (vi_zones _ _ _ _ _ _ _ VI) (vi_map _ _ _ _ _ _ _ VI)).
  - eapply bound2; eauto.
Qed.
Print Assumptions C86_boundary_faces.

(** ** C87: the faces of a boundary are found by its name, if no other boundary has that name *)
Theorem C87_faces_by_name : forall A (inj : nat -> A) (prj : A -> nat), (forall n, prj (inj n) = n) ->
  forall order, visits_once order ->
  forall cell_dim n_parts graph cell_parts (zs : list (Zone A)) mp mesh,
  valid_input cell_dim n_parts graph cell_parts zs mp mesh -> all_nodes_used mesh ->
  conforming cell_dim graph zs mp mesh -> symmetric_graph graph -> distinct_names cell_dim zs ->
  forall zs2 mp2 files,
  PartitionAndShuffle inj prj cell_dim n_parts graph cell_parts zs = Some (zs2, mp2, files) ->
  forall p fs, process_faces prj order zs2 files p fs ->
  forall z s sec, (do zn <- at1 zs2 z; at1 (z_sections zn) s) = Some sec -> (s_dim sec + 1 = cell_dim)%Z ->
  exists b, In b (fs_bound fs) /\ b_zone b = z /\ b_sect b = s /\
    GetBoundaryFaces (fs_bound fs) (s_name sec) = Some (b_faces b).
Proof.
  intros A inj prj Hprj order Ho cd n graph cp zs mp mesh VI VU CF Sym DN zs2 mp2 files E p fs P z s sec.
  apply (by_name cd cp graph mesh zs2 mp2 p).
  - eapply (good_process A inj prj Hprj order Ho); eauto.
  - intros z1 s1 sec1 z2 s2 sec2 H1 H2 D1 D2 N.
    destruct (section_before inj prj Hprj cd n graph cp zs mp mesh VI VU zs2 mp2 files E z1 s1 sec1 H1)
      as (sec1' & H1' & (_ & N1 & _ & _ & D1' & _)).
    destruct (section_before inj prj Hprj cd n graph cp zs mp mesh VI VU zs2 mp2 files E z2 s2 sec2 H2)
      as (sec2' & H2' & (_ & N2 & _ & _ & D2' & _)).
    apply (DN z1 s1 sec1' z2 s2 sec2'); auto; congruence.
Qed.
Print Assumptions C87_faces_by_name.

(** of two boundaries with the same name, one in each zone, only one is found: the process holds faces of a boundary
    named "wall" that are not among the faces of "wall" *)
Theorem C87_same_name_refuted : exists graph cell_parts (zs : list (Zone nat)) mp mesh zs2 mp2 files fs b F l,
  valid_input 3 2 graph cell_parts zs mp mesh /\ all_nodes_used mesh /\ conforming 3 graph zs mp mesh /\
  symmetric_graph graph /\
  PartitionAndShuffle (fun n => n) (fun n => n) 3 2 graph cell_parts zs = Some (zs2, mp2, files) /\
  process_faces (fun n => n) (nodup Nat.eq_dec) zs2 files 1 fs /\
  In b (fs_bound fs) /\ In F (b_faces b) /\ b_name b = "wall"%string /\
  GetBoundaryFaces (fs_bound fs) "wall" = Some l /\ ~ In F l.
Proof.
  exists sample_graph, sample_parts, twin_zones, twin_mapper, sample_mesh.
  destruct (PartitionAndShuffle (fun n => n) (fun n => n) 3 2 sample_graph sample_parts twin_zones)
    as [[[zs2 mp2] files]|] eqn:E; [|vm_compute in E; discriminate].
  exists zs2, mp2, files.
  destruct (C85_faces nat (fun n => n) (fun n => n) (fun _ => eq_refl) (nodup Nat.eq_dec) (fun l => Permutation_refl _)
    3%Z 2 sample_graph sample_parts twin_zones twin_mapper sample_mesh twin_input sample_used twin_conforming sample_sym
    zs2 mp2 files E 1) as (fs & P & G); [lia|].
  assert (X : exists b F l, In b (fs_bound fs) /\ In F (b_faces b) /\ b_name b = "wall"%string /\
    GetBoundaryFaces (fs_bound fs) "wall" = Some l /\ ~ In F l).
  { destruct P as (stores & cells & f & st & c & E1 & E2 & E3 & E4 & E5 & B).
    vm_compute in E. inversion E; subst zs2 mp2 files. vm_compute in E1. inversion E1; subst stores.
    vm_compute in E2. inversion E2; subst cells. inversion E3; subst f. inversion E4; subst st. inversion E5; subst c.
    vm_compute in B. inversion B; subst fs.
    eexists (mkBound 1 2 _ _), _, _. split; [left; reflexivity|]. split; [left; reflexivity|].
    split; [reflexivity|]. split; [vm_compute; reflexivity|]. intros [X|[]]. discriminate X. }
  destruct X as (b & F & l & X). exists fs, b, F, l.
  split; [exact twin_input|]. split; [exact sample_used|]. split; [exact twin_conforming|].
  split; [exact sample_sym|]. split; [reflexivity|]. split; [exact P|]. exact X.
Qed.
Print Assumptions C87_same_name_refuted.

(** ** C88: the neighbours recorded in a cell are those of the dual graph, each once *)
Theorem C88_adjacent_cells : forall A (inj : nat -> A) (prj : A -> nat), (forall n, prj (inj n) = n) ->
  forall order, visits_once order ->
  forall cell_dim n_parts graph cell_parts (zs : list (Zone A)) mp mesh,
  valid_input cell_dim n_parts graph cell_parts zs mp mesh -> all_nodes_used mesh ->
  conforming cell_dim graph zs mp mesh -> symmetric_graph graph ->
  forall zs2 mp2 files,
  PartitionAndShuffle inj prj cell_dim n_parts graph cell_parts zs = Some (zs2, mp2, files) ->
  forall p fs m, process_faces prj order zs2 files p fs -> nth_error cell_parts m = Some p ->
  NoDup (adj_cells (fs_local fs) (fs_ghost fs) m) /\
  forall x, In x (adj_cells (fs_local fs) (fs_ghost fs) m) <-> nbr graph m x.
Proof.
  intros A inj prj Hprj order Ho cd n graph cp zs mp mesh VI VU CF Sym zs2 mp2 files E p fs m P Hm.
  eapply (adj_cells_ok cd cp graph mesh zs2 mp2 p); eauto.
  - eapply (good_process A inj prj Hprj order Ho); eauto.
  - intros i j H. destruct (wg_lt _ _ (vi_graph _ _ _ _ _ _ _ VI) i j H) as [Li Lj].
    destruct (Proof_Mapper.Map_rows cd zs mp mesh (vi_dim _ _ _ _ _ _ _ VI) (vi_zones _ _ _ _ _ _ _ VI) (vi_map _ _ _ _ _ _ _ VI))
      as (_ & _ & _ & _ & _ & R6).
    destruct (nth_error_lt_some _ _ Li) as [[[z s] c] Hi]. destruct (R6 _ _ _ _ Hi) as (ri & Ri & _).
    destruct (nth_error_lt_some _ _ Lj) as [[[z' s'] c'] Hj]. destruct (R6 _ _ _ _ Hj) as (rj & Rj & _).
    apply (cf_sides _ _ _ _ _ CF i j ri rj H Ri Rj).
Qed.
Print Assumptions C88_adjacent_cells.

(** The faces recorded in a cell are, one by one, the faces between it and the neighbours recorded in it. *)
Theorem C88_adjacent_faces : forall A (inj : nat -> A) (prj : A -> nat), (forall n, prj (inj n) = n) ->
  forall order, visits_once order ->
  forall cell_dim n_parts graph cell_parts (zs : list (Zone A)) mp mesh,
  valid_input cell_dim n_parts graph cell_parts zs mp mesh -> all_nodes_used mesh ->
  conforming cell_dim graph zs mp mesh -> symmetric_graph graph ->
  forall zs2 mp2 files,
  PartitionAndShuffle inj prj cell_dim n_parts graph cell_parts zs = Some (zs2, mp2, files) ->
  forall p fs m, process_faces prj order zs2 files p fs ->
  Forall2 (fun x id => exists F, In F (fs_local fs ++ fs_ghost fs) /\ f_id F = id /\
      (f_holder F = m /\ f_sharer F = Some x \/ f_sharer F = Some m /\ f_holder F = x))
    (adj_cells (fs_local fs) (fs_ghost fs) m) (adj_faces (fs_local fs) (fs_ghost fs) m).
Proof.
  intros A inj prj Hprj order Ho cd n graph cp zs mp mesh VI VU CF Sym zs2 mp2 files E p fs m P.
  assert (good_faces cd cp graph mesh zs2 mp2 p fs) as GF by (eapply (good_process A inj prj Hprj order Ho); eauto).
  apply adj_faces_match. intros F HF. apply in_app_or in HF. destruct HF as [HF|HF].
  - destruct (gf_local _ _ _ _ _ _ _ _ GF F HF) as (i & j & B). exists j. apply B.
  - destruct (gf_ghost _ _ _ _ _ _ _ _ GF F HF) as (i & j & B). exists j. apply B.
Qed.
Print Assumptions C88_adjacent_faces.

(** the hypotheses hold for the sample meshes, and these are the faces of the two processes *)
Example C85_C88_nonvacuous :
  valid_input 3 2 sample_graph sample_parts sample_zones sample_mapper sample_mesh /\
  all_nodes_used sample_mesh /\ symmetric_graph sample_graph /\
  conforming 3 sample_graph sample_zones sample_mapper sample_mesh /\ distinct_names 3 sample_zones /\
  visits_once (nodup Nat.eq_dec) /\ visits_once (fun l => rev (nodup Nat.eq_dec l)) /\
  (do (zs2, _, files) <- PartitionAndShuffle (fun n => n) (fun n => n) 3 2 sample_graph sample_parts sample_zones;
   do stores <- BuildNodes (fun n => n) zs2 files;
   do cells <- BuildCells (fun n => n) zs2 files;
   do fs <- mapM (fun x => BuildFaces (nodup Nat.eq_dec) zs2 (fst (fst x)) (snd x) (snd (fst x)))
     (combine (combine files stores) cells);
   Some (map (fun f => (fs_local f, fs_ghost f, map (fun b => (b_name b, b_faces b)) (fs_bound f),
     map (adj_cells (fs_local f) (fs_ghost f)) [0; 1; 2; 3],
     map (adj_faces (fs_local f) (fs_ghost f)) [0; 1; 2; 3])) fs)) =
  Some [ ([mkFace 0 1 (Some 2) 1 [2; 3; 4] [(12, 22, 32); (13, 23, 33); (14, 24, 34)]],
          [mkFace 1 1 (Some 0) 1 [1; 3; 2] [(11, 21, 31); (13, 23, 33); (12, 22, 32)]],
          [("wall"%string, [mkFace 2 2 None 1 [3; 4; 5] [(13, 23, 33); (14, 24, 34); (15, 25, 35)]])],
          [[]; [2; 0]; [1]; []], [[]; [0; 1]; [0]; []]);
         ([], [mkFace 0 0 (Some 1) 1 [1; 2; 3] [(11, 21, 31); (12, 22, 32); (13, 23, 33)]],
          [("wall"%string, [mkFace 1 0 None 1 [6; 2; 1] [(10, 20, 30); (12, 22, 32); (11, 21, 31)]])],
          [[1]; []; []; []], [[0]; []; []; []]) ].
Proof.
  split; [exact sample_input|]. split; [exact sample_used|]. split; [exact sample_sym|].
  split; [exact sample_conforming|]. split.
  { intros z s sec z' s' sec' E E' D D' _.
    assert (U : forall z s sec, (do zn <- at1 sample_zones z; at1 (z_sections zn) s) = Some sec ->
      (s_dim sec + 1 = 3)%Z -> z = 1 /\ s = 2).
    { clear. intros z s sec E D. destruct z as [|[|[|z]]]; try discriminate; simpl in E; [| |destruct z; discriminate].
      - destruct s as [|[|[|s]]]; simpl in E; try discriminate; [|auto|destruct s; discriminate].
        inversion E; subst; simpl in D; lia.
      - destruct s as [|[|s]]; simpl in E; try discriminate; [|destruct s; discriminate].
        inversion E; subst; simpl in D; lia. }
    destruct (U _ _ _ E D), (U _ _ _ E' D'). lia. }
  split; [intros l; apply Permutation_refl|]. split; [intros l; apply Permutation_sym, Permutation_rev|].
  vm_compute. reflexivity.
Qed.
