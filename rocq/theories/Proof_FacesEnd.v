(** From the input mesh to the faces of all processes. *)
From Coq Require Import List Arith ZArith Lia Permutation String.
From Verif Require Import Arrays Model_Cgns Model_Mapper Model_Metis Model_Shuffler Model_Partition Model_Part
  Model_PartFaces Spec_Mesh Spec_Metis Spec_Partition Spec_Part Spec_PartFaces Proof_Mapper Proof_WriteParts
  Proof_Pipeline Proof_ReadBack Proof_PartOnce Proof_PartFaces.
Import ListNotations.
Local Open Scope nat_scope.

Local Notation length := List.length.

Lemma csr_row_lt mesh n m row : List.length (mm_range mesh) = S n -> csr_row mesh m = Some row -> m < n.
Proof.
  intros L H. unfold csr_row in H.
  destruct (nth_error (mm_range mesh) m); [|discriminate]. cbn [bind] in H.
  destruct (nth_error (mm_range mesh) (S m)) eqn:E; [|discriminate].
  apply nth_error_some_lt in E. lia.
Qed.

Section End_.
  Context {A : Type} (inj : nat -> A) (prj : A -> nat).
  Hypothesis Hprj : forall n, prj (inj n) = n.
  Variable order : list nat -> list nat.
  Hypothesis Ho : forall l, Permutation (order l) (nodup Nat.eq_dec l).
  Variables (cell_dim : Z) (n_parts : nat) (graph : Graph) (cell_parts : list nat).
  Variables (zs : list (Zone A)) (mp : Mapper) (mesh : MetisMesh).
  Hypothesis VI : valid_input cell_dim n_parts graph cell_parts zs mp mesh.
  Hypothesis VU : all_nodes_used mesh.
  Hypothesis CF : conforming cell_dim graph zs mp mesh.
  Variables (zs2 : list (Zone A)) (mp2 : Mapper) (files : list PartFile).
  Hypothesis E : PartitionAndShuffle inj prj cell_dim n_parts graph cell_parts zs = Some (zs2, mp2, files).
  Hypothesis Sym : symmetric_graph graph.

  (** the sections of the renumbered mesh *)
  Lemma renumbered : exists zs1, same_mesh cell_dim zs1 zs2 mp mp2 /\ length zs1 = length zs /\
    (forall z zn1, at1 zs1 z = Some zn1 -> exists zn, at1 zs z = Some zn /\ z_sections zn1 = z_sections zn /\
      CountNodes zn1 = CountNodes zn) /\
    (forall z s c, metis_row zs1 mp z s c = metis_row zs mp z s c).
  Proof.
    pose proof (vi_dim _ _ _ _ _ _ _ VI) as Hd. pose proof (vi_zones _ _ _ _ _ _ _ VI) as W.
    pose proof (vi_map _ _ _ _ _ _ _ VI) as HM. pose proof (vi_len _ _ _ _ _ _ _ VI) as Lc.
    destruct (Map_valid cell_dim zs Hd W) as (mp' & mesh' & E' & V & IV).
    rewrite HM in E'. inversion E'; subst mp' mesh'. clear E'.
    destruct (PartitionAndShuffle_ok inj prj cell_dim n_parts graph cell_parts zs mp mesh Hprj VI VU)
      as (zs1 & zs2' & mp2' & files' & np & Gn & Ew & E' & SM & V2 & Fn & GF & IX & L1 & L2).
    rewrite E in E'. inversion E'; subst zs2' mp2' files'. clear E'.
    assert (Ln : length np = length (m2c_nodes mp)) by (rewrite L1; apply (sm_nodes_len _ _ _ _ _ SM)).
    destruct (WriteParts_ok inj cell_dim mp cell_parts np zs V Ln Lc) as (zs1' & Ew' & Lz & HW).
    { eapply Forall_impl; [|exact W]. intros zn Wz. apply (wz_consecutive _ _ Wz). }
    { apply (vi_sorted _ _ _ _ _ _ _ VI). }
    rewrite Ew in Ew'. inversion Ew'; subst zs1'. clear Ew'.
    assert (HZ : forall z zn1, at1 zs1 z = Some zn1 -> exists zn, at1 zs z = Some zn /\
      z_sections zn1 = z_sections zn /\ CountNodes zn1 = CountNodes zn).
    { intros [|z] zn1 H; [discriminate|]. cbn [at1] in *.
      destruct (nth_error_lt_some zs z) as [zn Ez]; [rewrite <- Lz; eapply nth_error_some_lt; eauto|].
      destruct (HW z zn Ez) as (zn1' & E1 & (? & ? & ? & ? & -> & _)).
      rewrite H in E1. inversion E1; subst zn1. eauto. }
    exists zs1. split; auto. split; auto. split; auto.
    intros z s c. unfold metis_row. destruct z as [|z]; auto. cbn [at1].
    destruct (nth_error zs z) as [zn|] eqn:Ez.
    - destruct (HW z zn Ez) as (zn1 & E1 & (? & ? & ? & ? & -> & _)). rewrite E1. reflexivity.
    - apply nth_error_None in Ez. rewrite (proj2 (nth_error_None zs1 z)) by lia. reflexivity.
  Qed.

  (** each section of the renumbered mesh was one of the original mesh *)
  Lemma section_before z s sec2 : (do zn <- at1 zs2 z; at1 (z_sections zn) s) = Some sec2 ->
    exists sec, (do zn <- at1 zs z; at1 (z_sections zn) s) = Some sec /\ same_section sec sec2.
  Proof.
    intros H. destruct renumbered as (zs1 & SM & L & HZ & _).
    destruct (at1 zs2 z) as [zn2|] eqn:Ez; [|discriminate]. cbn [bind] in H.
    destruct (at1_some zs1 z) as [zn1 E1].
    { rewrite <- (sm_zones _ _ _ _ _ SM). apply (at1_lt _ _ _ Ez). }
    destruct (HZ z zn1 E1) as (zn & Ezn & Es & _).
    destruct (sm_shape _ _ _ _ _ SM z zn1 E1) as (zn2' & Ez2 & _ & Ls & _).
    rewrite Ez in Ez2. inversion Ez2; subst zn2'.
    destruct (at1_some (z_sections zn1) s) as [sec Hs].
    { rewrite <- Ls. apply (at1_lt _ _ _ H). }
    destruct (sm_sections _ _ _ _ _ SM z s sec) as (sec2' & H2 & SS).
    { rewrite E1. cbn [bind]. auto. }
    rewrite Ez in H2. cbn [bind] in H2. rewrite H in H2. inversion H2; subst sec2'.
    exists sec. rewrite Ezn. cbn [bind]. rewrite <- Es. auto.
  Qed.

  Lemma section_wf z s sec : (do zn <- at1 zs z; at1 (z_sections zn) s) = Some sec ->
    exists n, wf_section n cell_dim sec.
  Proof.
    intros H. destruct (at1 zs z) as [zn|] eqn:Ez; [|discriminate]. cbn [bind] in H.
    pose proof (vi_zones _ _ _ _ _ _ _ VI) as W. rewrite Forall_forall in W.
    destruct z as [|z]; [discriminate|]. destruct s as [|s]; [discriminate|]. cbn [at1] in *.
    apply nth_error_In in Ez, H. pose proof (wz_sections _ _ (W _ Ez)) as Ws. rewrite Forall_forall in Ws.
    exists (CountNodes zn). auto.
  Qed.

  (** a row of a section of the renumbered mesh was a row of that section *)
  Lemma row_before z s sec2 c row : (do zn <- at1 zs2 z; at1 (z_sections zn) s) = Some sec2 ->
    metis_row zs2 mp2 z s c = Some row -> row <> [] ->
    s_first sec2 <= c < s_first sec2 + s_count sec2 /\
    exists sec c0, (do zn <- at1 zs z; at1 (z_sections zn) s) = Some sec /\ same_section sec sec2 /\
      s_first sec <= c0 < s_first sec + s_count sec /\ metis_row zs mp z s c0 = Some row.
  Proof.
    intros H R Hr. destruct (section_before z s sec2 H) as (sec & Hs & SS).
    destruct SS as (S1 & S2 & S3 & S4 & S5 & S6 & S7) eqn:ESS.
    destruct (section_wf z s sec Hs) as (n & Wn).
    assert (Hc : s_first sec2 <= c < s_first sec2 + s_count sec2).
    { unfold metis_row in R. destruct (at1 zs2 z) as [zn2|]; [|discriminate]. cbn [bind] in *.
      rewrite H in R. cbn [bind] in R. destruct (cell_row sec2 c) as [r|] eqn:Er; [|discriminate]. cbn [bind] in R.
      pose proof (ws_conn _ _ _ Wn) as Lw.
      assert (Np : s_npe sec2 = s_npe sec) by (unfold s_npe; congruence).
      destruct (cell_row_range sec2 c r Er) as [X _]; auto.
      - destruct (s_npe sec2) as [|k] eqn:Ek; [|lia]. exfalso. apply Hr.
        unfold cell_row in Er. destruct (c <? s_first sec2); [discriminate|]. rewrite Ek in Er.
        unfold slice in Er. cbn in Er. inversion Er; subst r. simpl in R. congruence.
      - rewrite S7, Lw, Np, S4. reflexivity. }
    split; auto. destruct renumbered as (zs1 & SM & L & HZ & HR).
    assert (Hs1 : (do zn <- at1 zs1 z; at1 (z_sections zn) s) = Some sec).
    { destruct (at1 zs z) as [zn|] eqn:Ez; [|discriminate]. cbn [bind] in Hs.
      destruct (at1_some zs1 z) as [zn1 E1]; [rewrite L; apply (at1_lt _ _ _ Ez)|].
      destruct (HZ z zn1 E1) as (zn' & Ez' & Es & _). rewrite Ez in Ez'. inversion Ez'; subst zn'.
      rewrite E1. cbn [bind]. rewrite Es. auto. }
    destruct (sm_faces _ _ _ _ _ SM z s sec Hs1) as (rows & rows2 & Q1 & Q2 & P).
    assert (I2 : In row rows2).
    { unfold section_rows in Q2. destruct (at1 zs2 z) as [zn2|]; [|discriminate]. cbn [bind] in *.
      rewrite H in Q2. cbn [bind] in Q2.
      destruct (mapM_In' _ _ _ c Q2) as (r & Er & Ir); [apply in_seq; lia|]. rewrite R in Er. congruence. }
    apply (Permutation_in _ (Permutation_sym P)) in I2.
    unfold section_rows in Q1. destruct (at1 zs1 z) as [zn1|]; [|discriminate]. cbn [bind] in *.
    rewrite Hs1 in Q1. cbn [bind] in Q1. destruct (mapM_In _ _ _ _ Q1 I2) as (c0 & I0 & R0).
    apply in_seq in I0. rewrite HR in R0. exists sec, c0. auto.
  Qed.

  Lemma row_not_empty z s sec f : (do zn <- at1 zs2 z; at1 (z_sections zn) s) = Some sec ->
    metis_row zs2 mp2 z s f = Some [] -> False.
  Proof.
    intros H R. destruct (section_before z s sec H) as (sec0 & Hs & (S1 & S2 & S3 & S4 & S5 & S6 & S7)).
      destruct (section_wf z s sec0 Hs) as (n & Wn).
      unfold metis_row in R. destruct (at1 zs2 z) as [zn2|]; [|discriminate]. cbn [bind] in *.
      rewrite H in R. cbn [bind] in R. destruct (cell_row sec f) as [r|] eqn:Er; [|discriminate]. cbn [bind] in R.
      apply mapM_length in R. unfold cell_row in Er. destruct (f <? s_first sec); [discriminate|].
      unfold slice in Er. destruct (_ <=? _) eqn:El; [|discriminate]. apply Nat.leb_le in El. inversion Er as [X].
      rewrite <- X, firstn_length, skipn_length in R. cbn [List.length] in R.
      assert (Np : 1 <= s_npe sec); [|lia].
      pose proof (ws_dim _ _ _ Wn) as Dn. pose proof (ws_type _ _ _ Wn) as Tn. rewrite <- S6 in Dn, Tn.
      unfold s_npe. destruct (s_type sec); try discriminate Dn; try (exfalso; apply Tn; reflexivity);
        apply Nat.leb_le; reflexivity.
  Qed.

  Lemma bound2 z s sec f row m rm :
    (do zn <- at1 zs2 z; at1 (z_sections zn) s) = Some sec -> (s_dim sec + 1 = cell_dim)%Z ->
    metis_row zs2 mp2 z s f = Some row -> in_cell mesh row m -> csr_row mesh m = Some rm ->
    is_side rm row /\ forall m', in_cell mesh row m' -> m' = m.
  Proof.
    intros H Hd R I C.
    assert (Hne : row <> []) by (intros ->; eapply row_not_empty; eauto).
    destruct (row_before z s sec f row H R Hne) as (_ & sec0 & c0 & Hs & (S1 & S2 & S3 & S4 & S5 & S6 & S7) & Hc & R0).
    assert (Hd0 : (s_dim sec0 + 1 = cell_dim)%Z) by (rewrite <- S5; auto).
    split; [eapply (cf_bound _ _ _ _ _ CF); eauto|].
    destruct (vi_one _ _ _ _ _ _ _ VI z s sec0 c0 Hs Hd0 Hc) as (row' & m0 & R1 & I1 & U).
    rewrite R0 in R1. inversion R1; subst row'. intros m' Hm'. rewrite (U m' Hm'), (U m I). reflexivity.
  Qed.

  Lemma has_cells z zn2 : at1 zs2 z = Some zn2 -> exists s sec,
    at1 (z_sections zn2) s = Some sec /\ s_dim sec = cell_dim.
  Proof.
    intros Hz. destruct renumbered as (zs1 & SM & L & HZ & _).
    destruct (PartitionAndShuffle_ok inj prj cell_dim n_parts graph cell_parts zs mp mesh Hprj VI VU)
      as (zs1' & zs2' & mp2' & files' & np & Gn & Ew & E' & _ & V2 & Fn & GF & IX & L1 & L2).
    rewrite E in E'. inversion E'; subst zs2' mp2' files'. clear E'.
    destruct (at1_some zs1 z) as [zn1 E1].
    { rewrite <- (sm_zones _ _ _ _ _ SM). apply (at1_lt _ _ _ Hz). }
    destruct (HZ z zn1 E1) as (zn & Ezn & Es & Cn).
    destruct (sm_shape _ _ _ _ _ SM z zn1 E1) as (zn2' & Ez2 & Cn2 & _).
    rewrite Hz in Ez2. inversion Ez2; subst zn2'.
    assert (Np : 1 <= CountNodes zn2).
    { rewrite Cn2, Cn. pose proof (vi_zones _ _ _ _ _ _ _ VI) as W. rewrite Forall_forall in W.
      apply (wz_nodes cell_dim). apply W. destruct z as [|z]; [discriminate|]. eapply nth_error_In; eauto. }
    destruct (proj2 (vm_nodes_dom _ _ _ V2 z 1)) as [k Hk]; [exists zn2; split; auto|].
    destruct (Map_rows cell_dim zs mp mesh (vi_dim _ _ _ _ _ _ _ VI) (vi_zones _ _ _ _ _ _ _ VI)
                (vi_map _ _ _ _ _ _ _ VI)) as (R1 & _ & _ & R4 & _ & _).
    destruct (VU k) as (m & row & Er & Ir).
    { rewrite R4, <- (sm_nodes_len _ _ _ _ _ SM). apply (vm_nodes _ _ _ V2) in Hk. eapply nth_error_some_lt; eauto. }
    pose proof (csr_row_lt _ _ _ _ R1 Er) as Lm. rewrite <- (sm_cells_len _ _ _ _ _ SM) in Lm.
    destruct (nth_error_lt_some _ _ Lm) as [[[z' s] c] Hm]. apply (vm_cells _ _ _ V2) in Hm.
    destruct (proj1 (vm_cells_dom _ _ _ V2 z' s c) (ex_intro _ m Hm)) as (zn' & sec & Hz' & Hs & Hd & _).
    destruct (ix_cells _ _ _ _ IX z' s c m Hm) as (zn'' & fl & row' & Hz'' & _ & _ & Hr & Hc).
    rewrite Er in Hc. inversion Hc; subst row'.
    unfold metis_row in Hr. rewrite Hz' in Hr. cbn [bind] in Hr. rewrite Hs in Hr. cbn [bind] in Hr.
    destruct (cell_row sec c) as [r|]; [|discriminate]. cbn [bind] in Hr.
    destruct (mapM_In _ _ _ _ Hr Ir) as (i & _ & Hi).
    apply (vm_nodes _ _ _ V2) in Hi. apply (vm_nodes _ _ _ V2) in Hk. rewrite Hk in Hi. inversion Hi; subst z' i.
    rewrite Hz in Hz'. inversion Hz'; subst zn'. eauto.
  Qed.

  Theorem faces_end : exists stores cells, BuildNodes prj zs2 files = Some stores /\
    BuildCells prj zs2 files = Some cells /\ length stores = n_parts /\ length cells = n_parts /\
    forall p f st c, nth_error files p = Some f -> nth_error stores p = Some st -> nth_error cells p = Some c ->
      exists fs, BuildFaces order zs2 f c st = Some fs /\
        good_faces cell_dim cell_parts graph mesh zs2 mp2 p fs.
  Proof.
    destruct (nodes_found_end inj prj Hprj cell_dim n_parts graph cell_parts zs mp mesh VI VU zs2 mp2 files E)
      as (stores & Es & Ls & NF).
    destruct (cells_end inj prj Hprj cell_dim n_parts graph cell_parts zs mp mesh VI VU zs2 mp2 files E Sym)
      as (cells & Ec & Lcs & GC).
    exists stores, cells. repeat (split; [assumption|]). intros p f st [cs gs] Hf Hst Hc.
    destruct (PartitionAndShuffle_ok inj prj cell_dim n_parts graph cell_parts zs mp mesh Hprj VI VU)
      as (zs1 & zs2' & mp2' & files' & np & Gn & Ew & E' & SM & V2 & Fn & GF & IX & L1 & L2).
    rewrite E in E'. inversion E'; subst zs2' mp2' files'. clear E'.
    eapply (BuildFaces_ok inj order Ho cell_dim n_parts graph cell_parts np zs2 mp2 mesh files GF V2 IX L2).
    - rewrite (sm_cells_len _ _ _ _ _ SM). apply (vi_graph _ _ _ _ _ _ _ VI).
    - apply (vi_simple _ _ _ _ _ _ _ VI).
    - apply (cf_sides _ _ _ _ _ CF).
    - intros. eapply bound2; eauto.
    - exact Hf.
    - eapply GC; eauto.
    - intros m z row i. eapply NF; eauto.
    - eapply files_once; eauto. apply (cf_once _ _ _ _ _ CF).
    - eapply files_face_shape; eauto.
    - intros z zn. apply has_cells.
  Qed.
End End_.
