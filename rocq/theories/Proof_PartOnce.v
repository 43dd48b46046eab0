(** Each pair of adjacent cells is written once in the files. *)
From Coq Require Import List Arith ZArith Lia.
From Verif Require Import Arrays Model_Cgns Model_Mapper Model_Metis Model_Shuffle Model_Shuffler Model_Partition
  Spec_Mesh Spec_Metis Spec_Partition Proof_Adjacency Proof_Pipeline.
Import ListNotations.

Section Once.
  Variables (cell_parts node_parts : list nat) (mesh : MetisMesh) (g : Graph).
  Hypothesis Once : forall i row, graph_row g i = Some row -> NoDup row.

  (** pairs written so far satisfy [D] *)
  Definition once (D : nat -> nat -> Prop) (st : Adj) : Prop :=
    (forall p l, nth_error (a_inner st) p = Some l -> NoDup l /\ forall i j, In (i, j) l -> D i j) /\
    (forall p l, nth_error (a_inter st) p = Some l -> NoDup (map snd l) /\ forall q i j, In (q, (i, j)) l -> D i j).

  Lemma once_mono (D D' : nat -> nat -> Prop) st : (forall i j, D i j -> D' i j) -> once D st -> once D' st.
  Proof.
    intros H [H1 H2]. split; intros p l E.
    - destruct (H1 p l E). split; auto.
    - destruct (H2 p l E). split; eauto.
  Qed.

  Lemma add_node_same p st x st' : add_node node_parts p st x = Some st' ->
    a_inner st' = a_inner st /\ a_inter st' = a_inter st.
  Proof.
    unfold add_node. destruct (nth_error node_parts x) as [q|]; [|discriminate]. cbn [bind].
    destruct (q =? p); [intros E; inversion E; auto|].
    destruct (modify (a_recv st) p _); [|discriminate]. cbn [bind].
    destruct (modify (a_send st) q _); [|discriminate]. cbn [bind].
    intros E; inversion E; auto.
  Qed.

  Lemma add_nodes_same p row : forall st st', foldM (add_node node_parts p) row st = Some st' ->
    a_inner st' = a_inner st /\ a_inter st' = a_inter st.
  Proof.
    induction row as [|x t IH]; simpl; intros st st' E.
    - inversion E; auto.
    - destruct (add_node node_parts p st x) as [s|] eqn:Ex; [|discriminate]. cbn [bind] in E.
      destruct (IH _ _ E). destruct (add_node_same _ _ _ _ Ex). split; congruence.
  Qed.

  Lemma modify_nth {X} (l : list X) p f l' q x : modify l p f = Some l' -> nth_error l' q = Some x ->
    (q = p /\ exists y, nth_error l p = Some y /\ x = f y) \/ (q <> p /\ nth_error l q = Some x).
  Proof.
    intros E Hq.
    assert (Hp : p < length l).
    { unfold modify in E. destruct (nth_error l p) eqn:En; [|discriminate]. eapply nth_error_some_lt; eauto. }
    destruct (modify_spec l p f Hp) as (l'' & E' & L & G). rewrite E in E'. inversion E'; subst l''.
    rewrite G in Hq. destruct (Nat.eqb_spec q p) as [->|Ne]; [left|right; auto].
    split; auto. destruct (nth_error l p) as [y|]; [|discriminate]. inversion Hq. eauto.
  Qed.

  Lemma vec_add_once (x : nat * (nat * nat)) l : NoDup (map snd l) -> ~ In (snd x) (map snd l) ->
    NoDup (map snd (vec_add x l)).
  Proof.
    induction l as [|y t IH]; simpl; intros Hn Hx.
    - constructor; auto.
    - destruct (fst x <? fst y); simpl.
      + constructor; auto.
      + inversion Hn; subst. constructor; [|apply IH; auto].
        intros Hin. apply in_map_iff in Hin. destruct Hin as (z & Ez & Hz).
        apply vec_add_In in Hz. destruct Hz as [Hz| ->].
        * apply H1. rewrite <- Ez. apply in_map; auto.
        * apply Hx. auto.
  Qed.

  Lemma add_nbr_once (D : nat -> nat -> Prop) p i st j st' : once D st -> ~ D i j ->
    add_nbr cell_parts node_parts mesh p i st j = Some st' ->
    once (fun a b => D a b \/ (a = i /\ b = j)) st'.
  Proof.
    intros [H1 H2] Hn E. unfold add_nbr in E.
    destruct (nth_error cell_parts j) as [q|]; [|discriminate]. cbn [bind] in E.
    destruct (p =? q).
    - destruct (i <? j).
      + destruct (modify (a_inner st) p _) as [l|] eqn:El; [|discriminate]. cbn [bind] in E.
        inversion E; subst st'. clear E. split; cbn [a_inner a_inter].
        * intros r x Hx. destruct (modify_nth _ _ _ _ _ _ El Hx) as [[-> (y & Hy & ->)]|[_ Hy]].
          -- destruct (H1 p y Hy) as [N1 N2]. split.
             ++ apply NoDup_app_intro; [auto|repeat constructor; auto|].
                intros z Hz [<-|[]]. apply Hn. auto.
             ++ intros a b Hin. apply in_app_iff in Hin. destruct Hin as [Hin|[Hin|[]]]; auto.
                inversion Hin; auto.
          -- destruct (H1 r x Hy) as [N1 N2]. split; auto.
        * intros r x Hx. destruct (H2 r x Hx) as [N1 N2]. split; eauto.
      + inversion E; subst. apply (once_mono D); [auto|split; auto].
    - destruct (modify (a_inter st) p _) as [l|] eqn:El; [|discriminate]. cbn [bind] in E.
      destruct (csr (mm_range mesh) (mm_index mesh) j) as [nodes|]; [|discriminate]. cbn [bind] in E.
      destruct (add_nodes_same _ _ _ _ E) as [E1 E2]. cbn [a_inner a_inter] in E1, E2.
      split; [rewrite E1|rewrite E2].
      + intros r x Hx. destruct (H1 r x Hx) as [N1 N2]. split; auto.
      + intros r x Hx. destruct (modify_nth _ _ _ _ _ _ El Hx) as [[-> (y & Hy & ->)]|[_ Hy]].
        * destruct (H2 p y Hy) as [N1 N2]. split.
          -- apply vec_add_once; auto. cbn [snd]. intros Hin. apply in_map_iff in Hin.
             destruct Hin as ([q' [a b]] & Ez & Hz). cbn in Ez. inversion Ez; subst. apply Hn. eauto.
          -- intros q' a b Hin. apply vec_add_In in Hin. destruct Hin as [Hin|Hin]; [left; eauto|].
             inversion Hin; auto.
        * destruct (H2 r x Hy) as [N1 N2]. split; eauto.
  Qed.

  Lemma add_nbrs_once p i row : forall (D : nat -> nat -> Prop) st st', once D st -> NoDup row -> (forall j, In j row -> ~ D i j) ->
    foldM (add_nbr cell_parts node_parts mesh p i) row st = Some st' ->
    once (fun a b => D a b \/ (a = i /\ In b row)) st'.
  Proof.
    induction row as [|j t IH]; simpl; intros D st st' H Hn Hd E.
    - inversion E; subst. apply (once_mono D); auto.
    - destruct (add_nbr cell_parts node_parts mesh p i st j) as [s|] eqn:Ej; [|discriminate]. cbn [bind] in E.
      inversion Hn; subst.
      eapply once_mono; [|apply (IH _ _ _ (add_nbr_once D p i st j s H (Hd j (or_introl eq_refl)) Ej)); auto].
      + cbn. intros a b [[X|[-> ->]]|[-> X]]; auto.
      + intros b Hb [X|[_ ->]]; [eapply Hd; eauto|contradiction].
  Qed.

  Lemma csr_is_row i row : csr (g_range g) (g_index g) i = Some row ->
    row = [] \/ graph_row g i = Some row.
  Proof.
    unfold graph_row, csr. destruct (nth_error (g_range g) i) as [a|]; [|discriminate].
    destruct (nth_error (g_range g) (S i)) as [b|]; [|discriminate]. cbn [bind].
    destruct (Nat.ltb_spec a b); [|intros E; inversion E; auto].
    destruct (Nat.leb_spec a b); [auto|lia].
  Qed.

  Lemma add_cells_once l : forall n st st', (forall i, In i l -> n <= i) -> NoDup l ->
    once (fun a b => ~ In a l) st ->
    foldM (add_cell cell_parts node_parts mesh g) l st = Some st' -> once (fun _ _ => True) st'.
  Proof.
    induction l as [|i t IH]; simpl; intros n st st' Hl Hn H E.
    - inversion E; subst. apply (once_mono (fun a _ => ~ False)); auto.
    - destruct (add_cell cell_parts node_parts mesh g st i) as [s|] eqn:Ei; [|discriminate]. cbn [bind] in E.
      inversion Hn; subst. apply (IH n s st'); auto. unfold add_cell in Ei.
      destruct (nth_error cell_parts i) as [p|]; [|discriminate]. cbn [bind] in Ei.
      destruct (csr (mm_range mesh) (mm_index mesh) i) as [nodes|]; [|discriminate]. cbn [bind] in Ei.
      destruct (foldM (add_node node_parts p) nodes st) as [s1|] eqn:E1; [|discriminate]. cbn [bind] in Ei.
      destruct (csr (g_range g) (g_index g) i) as [row|] eqn:Er; [|discriminate]. cbn [bind] in Ei.
      destruct (add_nodes_same _ _ _ _ E1) as [S1 S2].
      assert (H' : once (fun a b => ~ (i = a \/ In a t)) s1).
      { destruct H as [A1 A2]. split; [rewrite S1|rewrite S2]; auto. }
      eapply once_mono; [|apply (add_nbrs_once p i row _ s1 s H'); auto].
      + cbn. intros a b [X|[-> X]]; tauto.
      + destruct (csr_is_row i row Er) as [->|Hr]; [constructor|eauto].
  Qed.

  Lemma BuildAdjacency_once n adj : BuildAdjacency cell_parts node_parts mesh g n = Some adj ->
    once (fun _ _ => True) adj.
  Proof.
    unfold BuildAdjacency. intros E. eapply (add_cells_once _ 0); [| | |exact E].
    - intros; lia.
    - apply seq_NoDup.
    - split; cbn; intros p l Hl; apply nth_error_In, repeat_spec in Hl; subst; split; try constructor;
        intros; contradiction.
  Qed.
End Once.

(** the lines of the files *)
Lemma files_once {A} (inj : nat -> A) prj cell_dim n_parts graph cell_parts (zs : list (Zone A)) zs2 mp2 files :
  (forall i row, graph_row graph i = Some row -> NoDup row) ->
  PartitionAndShuffle inj prj cell_dim n_parts graph cell_parts zs = Some (zs2, mp2, files) ->
  forall p f, nth_error files p = Some f ->
    NoDup (pf_inner f) /\ NoDup (map (fun '(_, i, j, _, _) => (i, j)) (pf_inter f)).
Proof.
  intros Once E p f Hf. unfold PartitionAndShuffle in E.
  destruct (Map cell_dim zs) as [[mp mesh]|]; [|discriminate]. cbn [bind] in E.
  destruct (IsValid mp) as [[|]|]; cbn [bind] in E; try discriminate.
  destruct (GetNodeParts mesh cell_parts n_parts) as [np|]; [|discriminate]. cbn [bind] in E.
  destruct (WriteParts inj cell_dim mp cell_parts np zs) as [zs1|]; [|discriminate]. cbn [bind] in E.
  destruct (FillFaceParts cell_dim cell_parts mp zs1) as [fps|]; [|discriminate]. cbn [bind] in E.
  destruct (Shuffle cell_dim cell_parts np zs1 mp) as [[zs2' mp2']|]; [|discriminate]. cbn [bind] in E.
  destruct (IsValid mp2') as [[|]|]; cbn [bind] in E; try discriminate.
  destruct (WritePartitionInfo _ _ _ _ _ _ _ _ _ _) as [files'|] eqn:Ew; [|discriminate]. cbn [bind] in E.
  inversion E; subst zs2' mp2' files'. clear E. unfold WritePartitionInfo in Ew.
  destruct (mapM (zone_node_table prj n_parts) zs2) as [nodes|]; [|discriminate]. cbn [bind] in Ew.
  destruct (mapM (zone_cell_tables prj cell_dim n_parts) zs2) as [cells|]; [|discriminate]. cbn [bind] in Ew.
  destruct (if _ =? _ then _ else None) as [faces|]; [|discriminate]. cbn [bind] in Ew.
  destruct (BuildAdjacency cell_parts np mesh graph n_parts) as [adj|] eqn:Ea; [|discriminate]. cbn [bind] in Ew.
  destruct (BuildAdjacency_once _ _ _ _ Once _ _ Ea) as [O1 O2].
  apply nth_error_In in Hf. destruct (mapM_In _ _ _ _ Ew Hf) as (q & _ & Eq). unfold write_file in Eq.
  destruct (mapM (fun t => nth_error t q) nodes); [|discriminate]. cbn [bind] in Eq.
  destruct (nth_error (a_send adj) q); [|discriminate]. cbn [bind] in Eq.
  destruct (nth_error (a_recv adj) q); [|discriminate]. cbn [bind] in Eq.
  destruct (mapM (recv_line mp2) _); [|discriminate]. cbn [bind] in Eq.
  destruct (mapM (mapM (table_at q)) cells); [|discriminate]. cbn [bind] in Eq.
  destruct (nth_error (a_inner adj) q) as [inner|] eqn:E1; [|discriminate]. cbn [bind] in Eq.
  destruct (nth_error (a_inter adj) q) as [inter|] eqn:E2; [|discriminate]. cbn [bind] in Eq.
  destruct (mapM (inter_line zs2 mp2) inter) as [lines|] eqn:E3; [|discriminate]. cbn [bind] in Eq.
  destruct (mapM (mapM (table_at q)) faces); [|discriminate]. cbn [bind] in Eq.
  inversion Eq; subst f. cbn [pf_inner pf_inter]. split; [apply (O1 q inner E1)|].
  destruct (O2 q inter E2) as [N _].
  replace (map (fun '(_, i, j, _, _) => (i, j)) lines) with (map snd inter); auto.
  clear -E3. revert lines E3. induction inter as [|[r [i j]] t IH]; simpl; intros lines E3.
  - inversion E3; reflexivity.
  - destruct (cell_npe zs2 mp2 i); [|discriminate]. cbn [bind] in E3.
    destruct (cell_npe zs2 mp2 j); [|discriminate]. cbn [bind] in E3.
    destruct (mapM (inter_line zs2 mp2) t) as [ls|]; [|discriminate]. inversion E3; subst.
    simpl. f_equal. auto.
Qed.

(** one line of faces per boundary section *)
Lemma files_face_shape {A} (inj : nat -> A) prj cell_dim n_parts graph cell_parts (zs : list (Zone A)) zs2 mp2 files :
  PartitionAndShuffle inj prj cell_dim n_parts graph cell_parts zs = Some (zs2, mp2, files) ->
  forall p f, nth_error files p = Some f -> length (pf_faces f) = length zs2 /\
    forall z zn, at1 zs2 z = Some zn -> exists l, at1 (pf_faces f) z = Some l /\
      length l = length (z_sections zn) /\
      forall s sec r, at1 (z_sections zn) s = Some sec -> at1 l s = Some r ->
        ((s_dim sec + 1 <> cell_dim)%Z -> r = None).
Proof.
  intros E p f Hf. unfold PartitionAndShuffle in E.
  destruct (Map cell_dim zs) as [[mp mesh]|]; [|discriminate]. cbn [bind] in E.
  destruct (IsValid mp) as [[|]|]; cbn [bind] in E; try discriminate.
  destruct (GetNodeParts mesh cell_parts n_parts) as [np|]; [|discriminate]. cbn [bind] in E.
  destruct (WriteParts inj cell_dim mp cell_parts np zs) as [zs1|]; [|discriminate]. cbn [bind] in E.
  destruct (FillFaceParts cell_dim cell_parts mp zs1) as [fps|]; [|discriminate]. cbn [bind] in E.
  destruct (Shuffle cell_dim cell_parts np zs1 mp) as [[zs2' mp2']|]; [|discriminate]. cbn [bind] in E.
  destruct (IsValid mp2') as [[|]|]; cbn [bind] in E; try discriminate.
  destruct (WritePartitionInfo _ _ _ _ _ _ _ _ _ _) as [files'|] eqn:Ew; [|discriminate]. cbn [bind] in E.
  inversion E; subst zs2' mp2' files'. clear E. unfold WritePartitionInfo in Ew.
  destruct (mapM (zone_node_table prj n_parts) zs2) as [nodes|]; [|discriminate]. cbn [bind] in Ew.
  destruct (mapM (zone_cell_tables prj cell_dim n_parts) zs2) as [cells|]; [|discriminate]. cbn [bind] in Ew.
  destruct (Nat.eqb_spec (length fps) (length zs2)) as [Lf|]; [|discriminate].
  destruct (mapM (zone_face_tables cell_dim n_parts) (combine zs2 fps)) as [faces|] eqn:Ef; [|discriminate].
  cbn [bind] in Ew.
  destruct (BuildAdjacency cell_parts np mesh graph n_parts) as [adj|]; [|discriminate]. cbn [bind] in Ew.
  apply nth_error_In in Hf. destruct (mapM_In _ _ _ _ Ew Hf) as (q & _ & Eq). unfold write_file in Eq.
  destruct (mapM (fun t => nth_error t q) nodes); [|discriminate]. cbn [bind] in Eq.
  destruct (nth_error (a_send adj) q); [|discriminate]. cbn [bind] in Eq.
  destruct (nth_error (a_recv adj) q); [|discriminate]. cbn [bind] in Eq.
  destruct (mapM (recv_line mp2) _); [|discriminate]. cbn [bind] in Eq.
  destruct (mapM (mapM (table_at q)) cells); [|discriminate]. cbn [bind] in Eq.
  destruct (nth_error (a_inner adj) q) as [inner|]; [|discriminate]. cbn [bind] in Eq.
  destruct (nth_error (a_inter adj) q) as [inter|]; [|discriminate]. cbn [bind] in Eq.
  destruct (mapM (inter_line zs2 mp2) inter) as [lines|]; [|discriminate]. cbn [bind] in Eq.
  destruct (mapM (mapM (table_at q)) faces) as [fp|] eqn:Et; [|discriminate]. cbn [bind] in Eq.
  inversion Eq; subst f. cbn [pf_faces].
  pose proof (mapM_length _ _ _ Et) as L1. pose proof (mapM_length _ _ _ Ef) as L2.
  rewrite combine_length, Lf, Nat.min_id in L2. split; [lia|].
  intros z zn Hz.
  destruct (at1_some fps z) as [fz Hfz]; [rewrite Lf; apply (at1_lt _ _ _ Hz)|].
  destruct (mapM_at1 _ _ _ z (zn, fz) Ef) as (tz & E1 & H1); [apply combine_at1; auto|].
  destruct (mapM_at1 _ _ _ z tz Et) as (lz & E2 & H2); [auto|].
  exists lz. split; auto. unfold zone_face_tables in E1.
  destruct (Nat.eqb_spec (length fz) (length (z_sections zn))) as [Ls|]; [|discriminate].
  pose proof (mapM_length _ _ _ E1) as L3. rewrite combine_length, Ls, Nat.min_id in L3.
  pose proof (mapM_length _ _ _ E2) as L4. split; [lia|].
  intros s sec r Hs Hr Hd.
  destruct (at1_some fz s) as [fs Hfs]; [rewrite Ls; apply (at1_lt _ _ _ Hs)|].
  destruct (mapM_at1 _ _ _ s (sec, fs) E1) as (ts & E3 & H3); [apply combine_at1; auto|].
  destruct (mapM_at1 _ _ _ s ts E2) as (r' & E4 & H4); [auto|].
  rewrite Hr in H4. inversion H4; subst r'. unfold section_face_table in E3.
  destruct (Z.eqb_spec (s_dim sec + 1) cell_dim); [contradiction|].
  inversion E3; subst ts. cbn in E4. congruence.
Qed.
