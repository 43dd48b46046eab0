(** From the input mesh to what the processes hold: the pipeline and the reader together. *)
From Coq Require Import List Arith ZArith Lia.
From Verif Require Import Arrays Model_Cgns Model_Mapper Model_Metis Model_Shuffler Model_Partition Model_Part
  Spec_Mesh Spec_Metis Spec_Partition Spec_Part Proof_Mapper Proof_FaceParts Proof_Pipeline Proof_Part
  Proof_PartCells.
Import ListNotations.

Section ReadBack.
  Context {A : Type} (inj : nat -> A) (prj : A -> nat).
  Hypothesis Hprj : forall n, prj (inj n) = n.
  Variables (cell_dim : Z) (n_parts : nat) (graph : Graph) (cell_parts : list nat).
  Variables (zs : list (Zone A)) (mp : Mapper) (mesh : MetisMesh).
  Hypothesis VI : valid_input cell_dim n_parts graph cell_parts zs mp mesh.
  Hypothesis VU : all_nodes_used mesh.
  Variables (zs2 : list (Zone A)) (mp2 : Mapper) (files : list PartFile).
  Hypothesis E : PartitionAndShuffle inj prj cell_dim n_parts graph cell_parts zs =
                 Some (zs2, mp2, files).

  Lemma nodes_agree_end : nodes_agree files.
  Proof.
    destruct (PartitionAndShuffle_ok inj prj cell_dim n_parts graph cell_parts zs mp mesh Hprj VI VU)
      as (zs1 & zs2' & mp2' & files' & np & _ & _ & E' & _ & V & Fn & GF & IX & L1 & L2).
    rewrite E in E'. inversion E'; subst. eapply nodes_agree_ok; eauto.
  Qed.

  Lemma nodes_found_end : exists stores, BuildNodes prj zs2 files = Some stores /\
    length stores = n_parts /\ nodes_found cell_parts graph zs2 mp2 stores.
  Proof.
    destruct (PartitionAndShuffle_ok inj prj cell_dim n_parts graph cell_parts zs mp mesh Hprj VI VU)
      as (zs1 & zs2' & mp2' & files' & np & _ & _ & E' & _ & V & Fn & GF & IX & L1 & L2).
    rewrite E in E'. inversion E'; subst. eapply nodes_found_ok; eauto. apply (vi_parts _ _ _ _ _ _ _ VI).
  Qed.

  Hypothesis Sym : symmetric_graph graph.

  Lemma cells_agree_end : cells_agree files.
  Proof.
    destruct (PartitionAndShuffle_ok inj prj cell_dim n_parts graph cell_parts zs mp mesh Hprj VI VU)
      as (zs1 & zs2' & mp2' & files' & np & _ & _ & E' & _ & V & Fn & GF & IX & L1 & L2).
    rewrite E in E'. inversion E'; subst. eapply cells_agree_ok; eauto.
  Qed.

  Lemma cells_end : exists cells, BuildCells prj zs2 files = Some cells /\
    length cells = n_parts /\
    forall p c, nth_error cells p = Some c -> good_cells cell_parts graph zs2 mp2 p c.
  Proof.
    destruct (PartitionAndShuffle_ok inj prj cell_dim n_parts graph cell_parts zs mp mesh Hprj VI VU)
      as (zs1 & zs2' & mp2' & files' & np & _ & _ & E' & _ & V & Fn & GF & IX & L1 & L2).
    rewrite E in E'. inversion E'; subst. eapply BuildCells_ok; eauto. apply (vi_parts _ _ _ _ _ _ _ VI).
  Qed.

  Lemma coeffs_end kF (cos : list (@Coeffs A)) : length cos = n_parts ->
    (forall p co, nth_error cos p = Some co -> wf_coeffs kF cell_parts graph p co) ->
    exists cos', ShareCoeffs kF files cos = Some cos' /\ length cos' = n_parts /\
      forall p co co', nth_error cos p = Some co -> nth_error cos' p = Some co' ->
        coeffs_shared cell_parts graph cos p co co'.
  Proof.
    destruct (PartitionAndShuffle_ok inj prj cell_dim n_parts graph cell_parts zs mp mesh Hprj VI VU)
      as (zs1 & zs2' & mp2' & files' & np & _ & _ & E' & _ & V & Fn & GF & IX & L1 & L2).
    rewrite E in E'. inversion E'; subst. eapply ShareCoeffs_ok; eauto. apply (vi_parts _ _ _ _ _ _ _ VI).
  Qed.
End ReadBack.

Lemma face_parts_end {A} cell_dim n_parts graph cell_parts (zs : list (Zone A)) mp mesh :
  valid_input cell_dim n_parts graph cell_parts zs mp mesh ->
  exists fps, FillFaceParts cell_dim cell_parts mp zs = Some fps /\ length fps = length zs /\
    forall z s sec, (do zn <- at1 zs z; at1 (z_sections zn) s) = Some sec ->
      exists e, (do fp <- at1 fps z; at1 fp s) = Some e /\
        ((s_dim sec + 1 <> cell_dim)%Z -> e = None) /\
        ((s_dim sec + 1 = cell_dim)%Z -> exists ps, e = Some ps /\ length ps = s_count sec /\
           forall k p, nth_error ps k = Some p -> exists row m,
             metis_row zs mp z s (s_first sec + k) = Some row /\ in_cell mesh row m /\
             nth_error cell_parts m = Some p).
Proof.
  intros VI. pose proof (vi_dim _ _ _ _ _ _ _ VI) as Hd. pose proof (vi_zones _ _ _ _ _ _ _ VI) as W.
  pose proof (vi_map _ _ _ _ _ _ _ VI) as HM. pose proof (vi_len _ _ _ _ _ _ _ VI) as Lc.
  destruct (Map_valid cell_dim zs Hd W) as (mp' & mesh' & E & V & IV).
  rewrite HM in E. inversion E; subst mp' mesh'. clear E.
  destruct (Map_rows cell_dim zs mp mesh Hd W HM) as (R1 & _ & _ & R4 & _ & R6).
  destruct (FillFaceParts_ok cell_dim zs mp mesh V R6 R1 cell_parts Lc (vi_simple _ _ _ _ _ _ _ VI)
              (vi_one _ _ _ _ _ _ _ VI)) as (fps & Efp & Lfps & HF).
  exists fps. split; auto. split; auto. intros z s sec Hs.
  destruct (at1 zs z) as [zn|] eqn:Hz; [|discriminate]. cbn [bind] in Hs.
  destruct (HF z zn Hz) as (fp & E1 & _ & H). destruct (H s sec Hs) as (e & E2 & Ok).
  exists e. rewrite E1. cbn [bind]. split; auto. unfold entry_ok in Ok.
  destruct (Z.eqb_spec (s_dim sec + 1) cell_dim) as [H1|H1].
  - split; [contradiction|]. intros _. destruct Ok as (ps & -> & L & Hps). exists ps. auto.
  - split; auto. contradiction.
Qed.
