(** The processes hold the right cells, and ghost cells get the coefficients of their owners. *)
From Coq Require Import List Arith ZArith Lia Bool Sorted.
From Verif Require Import Arrays Model_Cgns Model_Mapper Model_Metis Model_Partition Model_Part
  Spec_Mesh Spec_Metis Spec_Partition Spec_Part Proof_Mapper Proof_Shuffler Proof_Metis
  Proof_WriteParts Proof_Pipeline Proof_Exchange Proof_Part.
Import ListNotations.

Lemma NoDup_concat {X Y} (f : X -> Y) (ls : list (list X)) :
  (forall j l, nth_error ls j = Some l -> NoDup (map f l)) ->
  (forall i j a b x y, i <> j -> nth_error ls i = Some a -> nth_error ls j = Some b ->
     In x a -> In y b -> f x <> f y) ->
  NoDup (map f (concat ls)).
Proof.
  induction ls as [|l t IH]; intros H1 H2; simpl; [constructor|].
  rewrite map_app. apply NoDup_app_intro.
  - apply (H1 0 l). reflexivity.
  - apply IH.
    + intros j l' H. apply (H1 (S j)). auto.
    + intros i j a b x y Hne Ha Hb. apply (H2 (S i) (S j)); auto.
  - intros y Hy Hy'. apply in_map_iff in Hy. destruct Hy as (x & <- & Hx).
    apply in_map_iff in Hy'. destruct Hy' as (x' & E & Hx'). apply in_concat in Hx'.
    destruct Hx' as (b & Hb & Hx'). apply In_nth_error in Hb. destruct Hb as [j Hj].
    apply (H2 0 (S j) l b x x'); auto.
Qed.

Section Cells.
  Context {A : Type} (inj : nat -> A) (prj : A -> nat).
  Hypothesis Hprj : forall n, prj (inj n) = n.
  Variables (cell_dim : Z) (n_parts : nat) (graph : Graph) (cell_parts node_parts : list nat).
  Variables (zs : list (Zone A)) (mp : Mapper) (mesh : MetisMesh) (files : list PartFile).
  Hypothesis GF : good_files cell_dim n_parts graph cell_parts node_parts mesh zs mp files.
  Hypothesis V : valid_mapper cell_dim zs mp.
  Hypothesis IX : indexed inj zs mp mesh.
  Hypothesis Fc : Forall (fun p => p < n_parts) cell_parts.
  Hypothesis Lc : length cell_parts = length (m2c_cells mp).
  Hypothesis Sym : symmetric_graph graph.

  Lemma cell_nodes_at m : m < length cell_parts -> exists z s c row,
    nth_error (m2c_cells mp) m = Some (z, s, c) /\ cell_of mp z s c = Some m /\
    cell_nodes zs mp m = Some (z, row) /\
    exists mrow, csr_row mesh m = Some mrow /\ length mrow = length row.
  Proof.
    intros Hm. rewrite Lc in Hm. destruct (nth_error_lt_some _ _ Hm) as [[[z s] c] Em].
    apply (vm_cells _ _ _ V) in Em as Ec.
    destruct (ix_cells _ _ _ _ IX z s c m Ec) as (zn & f & mrow & Hz & _ & _ & Hr & Hcsr).
    unfold metis_row in Hr. rewrite Hz in Hr. cbn [bind] in Hr.
    destruct (at1 (z_sections zn) s) as [sec|] eqn:Es; [|discriminate]. cbn [bind] in Hr.
    destruct (cell_row sec c) as [row|] eqn:Er; [|discriminate]. cbn [bind] in Hr.
    exists z, s, c, row. split; auto. split; auto. split.
    - unfold cell_nodes. rewrite Em. cbn [bind]. rewrite Hz. cbn [bind]. rewrite Es. cbn [bind].
      rewrite Er. reflexivity.
    - exists mrow. split; auto. apply (mapM_length _ _ _ Hr).
  Qed.

  (** ** Local cells *)
  Definition good_section (p z s : nat) (l : list LocalCell) : Prop :=
    NoDup (map lc_metis l) /\
    forall x, In x l <-> lc_zone x = z /\ lc_sect x = s /\
      cell_of mp z s (lc_cell x) = Some (lc_metis x) /\
      nth_error cell_parts (lc_metis x) = Some p /\
      cell_nodes zs mp (lc_metis x) = Some (z, lc_nodes x).

  Lemma read_cells_ok p f z zn s sec field l r : nth_error files p = Some f -> at1 zs z = Some zn ->
    at1 (z_sections zn) s = Some sec -> nth_error (z_cell_fields zn) 1 = Some field ->
    at1 (pf_cells f) z = Some l -> at1 l s = Some r ->
    exists cells, read_cells prj z s field sec r = Some cells /\ good_section p z s cells.
  Proof.
    intros Hf Hz Hs Hfld Hl Hr.
    destruct (Z.eq_dec (s_dim sec) cell_dim) as [Hd|Hd].
    - destruct (gf_cells _ _ _ _ _ _ _ _ _ GF p f z s sec Hf) as (h & t & E & Hle & HI).
      { rewrite Hz. auto. }
      { auto. }
      rewrite Hl in E. cbn [bind] in E. rewrite Hr in E. inversion E; subst r. clear E.
      unfold read_cells.
      destruct (mapM_exists (fun c => do m <- at1 field c; do row <- cell_row sec c;
                     Some (mkCell (prj m) z s c row))
          (fun c x => lc_zone x = z /\ lc_sect x = s /\ lc_cell x = c /\
             cell_of mp z s c = Some (lc_metis x) /\ nth_error cell_parts (lc_metis x) = Some p /\
             cell_nodes zs mp (lc_metis x) = Some (z, lc_nodes x)) (seq h (t - h)))
        as (cells & Ec & F2).
      { intros c Hc. apply in_seq in Hc.
        destruct (proj1 (HI c)) as (m & Hm & Hp); [lia|].
        destruct (ix_cells _ _ _ _ IX z s c m Hm) as (zn' & f' & mrow & Hz' & Hf' & Hm' & Hrow & _).
        rewrite Hz in Hz'. inversion Hz'; subst zn'. rewrite Hfld in Hf'. inversion Hf'; subst f'.
        rewrite Hm'. cbn [bind].
        apply (vm_cells _ _ _ V) in Hm as Hm2.
        unfold metis_row in Hrow. rewrite Hz in Hrow. cbn [bind] in Hrow.
        rewrite Hs in Hrow. cbn [bind] in Hrow.
        destruct (cell_row sec c) as [row|] eqn:Er; [|discriminate]. cbn [bind].
        eexists. split; [reflexivity|]. cbn [lc_zone lc_sect lc_cell lc_metis lc_nodes].
        rewrite Hprj. repeat split; auto.
        unfold cell_nodes. rewrite Hm2. cbn [bind]. rewrite Hz. cbn [bind]. rewrite Hs. cbn [bind].
        rewrite Er. reflexivity. }
      exists cells. split; auto. split.
      + apply NoDup_nth_error. intros i j Hi E. rewrite map_length in Hi.
        rewrite !nth_error_map in E.
        destruct (nth_error_lt_some cells i Hi) as [x Hx]. rewrite Hx in E.
        destruct (nth_error cells j) as [y|] eqn:Hy; [|discriminate]. simpl in E.
        inversion E as [Exy].
        pose proof (mapM_length _ _ _ Ec) as LL. rewrite seq_length in LL.
        pose proof (nth_error_some_lt _ _ _ Hy) as Lj.
        pose proof (Forall2_nth _ _ _ i F2) as Gi. pose proof (Forall2_nth _ _ _ j F2) as Gj.
        rewrite Hx, nth_error_seq in Gi by lia. rewrite Hy, nth_error_seq in Gj by lia.
        destruct Gi as (_ & _ & _ & Gi & _). destruct Gj as (_ & _ & _ & Gj & _).
        rewrite Exy in Gi. apply (vm_cells _ _ _ V) in Gi. apply (vm_cells _ _ _ V) in Gj.
        rewrite Gi in Gj. inversion Gj. lia.
      + intros x. split.
        * intros Hx. apply In_nth_error in Hx. destruct Hx as [i Hi].
          pose proof (Forall2_nth _ _ _ i F2) as G. rewrite Hi in G.
          destruct (nth_error (seq h (t - h)) i) as [c|]; [|contradiction].
          destruct G as (G1 & G2 & G3 & G4 & G5 & G6). subst c. auto 10.
        * intros (G1 & G2 & G4 & G5 & G6).
          assert (Hc : h <= lc_cell x < t) by (apply HI; eauto).
          destruct (nth_error_lt_some cells (lc_cell x - h)) as [y Hy].
          { rewrite (mapM_length _ _ _ Ec), seq_length. lia. }
          pose proof (Forall2_nth _ _ _ (lc_cell x - h) F2) as G.
          rewrite Hy, nth_error_seq in G by lia.
          replace (h + (lc_cell x - h)) with (lc_cell x) in G by lia.
          destruct G as (K1 & K2 & K3 & K4 & K5 & K6).
          rewrite G4 in K4. inversion K4 as [Km].
          assert (x = y).
          { rewrite Km in G6. rewrite G6 in K6. inversion K6 as [Kn].
            destruct x as [x1 x2 x3 x4 x5], y as [y1 y2 y3 y4 y5]. cbn [lc_zone lc_sect lc_cell lc_metis lc_nodes] in *. congruence. }
          subst y. eapply nth_error_In; eauto.
    - destruct (gf_shape _ _ _ _ _ _ _ _ _ GF p f Hf) as (_ & _ & H).
      destruct (H z zn Hz) as (l' & E & _ & HN). rewrite Hl in E. inversion E; subst l'.
      rewrite (HN s sec Hs Hd) in Hr. inversion Hr; subst r.
      exists []. split; [reflexivity|]. split; [constructor|].
      intros x. split; [intros []|]. intros (_ & _ & H1 & _).
      destruct (proj1 (vm_cells_dom _ _ _ V z s (lc_cell x))) as (zn' & sec' & E1 & E2 & E3 & _); [eauto|].
      rewrite Hz in E1. inversion E1; subst zn'. congruence.
  Qed.

  Lemma read_sections_ok (P : nat -> list LocalCell -> Prop) z field ss : forall s0 rs,
    length rs = length ss ->
    (forall j sec r, nth_error ss j = Some sec -> nth_error rs j = Some r ->
       exists l, read_cells prj z (s0 + j) field sec r = Some l /\ P (s0 + j) l) ->
    exists ls, read_sections prj z s0 field ss rs = Some (concat ls) /\ length ls = length ss /\
      forall j l, nth_error ls j = Some l -> P (s0 + j) l.
  Proof.
    induction ss as [|sec t IH]; intros s0 rs HL H; destruct rs as [|r rs]; try discriminate.
    - exists []. repeat split; auto. intros [|j]; discriminate.
    - simpl. destruct (H 0 sec r eq_refl eq_refl) as (l & E & HP). rewrite Nat.add_0_r in *.
      rewrite E. cbn [bind].
      destruct (IH (S s0) rs) as (ls & E2 & L2 & HP2).
      { simpl in HL. lia. }
      { intros j sec' r' H1 H2. destruct (H (S j) sec' r' H1 H2) as (l' & E' & HP').
        rewrite Nat.add_succ_r in *. eauto. }
      rewrite E2. cbn [bind]. exists (l :: ls). simpl. split; auto. split; auto.
      intros [|j] l' Hj; simpl in Hj.
      + inversion Hj; subst. rewrite Nat.add_0_r. auto.
      + rewrite Nat.add_succ_r. apply HP2. auto.
  Qed.

  Definition good_zone (p z : nat) (l : list LocalCell) : Prop :=
    NoDup (map lc_metis l) /\
    forall x, In x l <-> lc_zone x = z /\
      cell_of mp z (lc_sect x) (lc_cell x) = Some (lc_metis x) /\
      nth_error cell_parts (lc_metis x) = Some p /\
      cell_nodes zs mp (lc_metis x) = Some (z, lc_nodes x).

  Lemma zone_cells_ok p f z zn field l : nth_error files p = Some f -> at1 zs z = Some zn ->
    nth_error (z_cell_fields zn) 1 = Some field -> at1 (pf_cells f) z = Some l ->
    exists cells, read_sections prj z 1 field (z_sections zn) l = Some cells /\ good_zone p z cells.
  Proof.
    intros Hf Hz Hfld Hl. destruct (gf_shape _ _ _ _ _ _ _ _ _ GF p f Hf) as (_ & _ & H).
    destruct (H z zn Hz) as (l' & E & LL & _). rewrite Hl in E. inversion E; subst l'. clear E H.
    destruct (read_sections_ok (good_section p z) z field (z_sections zn) 1 l LL)
      as (ls & E & L2 & HP).
    { intros j sec r Hj Hr. apply (read_cells_ok p f z zn (1 + j) sec field l r); auto. }
    exists (concat ls). split; auto. split.
    - apply NoDup_concat.
      + intros j l' Hj. apply (HP j l' Hj).
      + intros i j a b x y Hne Ha Hb Hx Hy E'.
        apply (HP i a Ha) in Hx. apply (HP j b Hb) in Hy.
        destruct Hx as (_ & _ & Hx & _). destruct Hy as (_ & _ & Hy & _).
        rewrite E' in Hx. apply (vm_cells _ _ _ V) in Hx. apply (vm_cells _ _ _ V) in Hy.
        rewrite Hx in Hy. inversion Hy. lia.
    - intros x. rewrite in_concat. split.
      + intros (l' & Hl' & Hx). apply In_nth_error in Hl'. destruct Hl' as [j Hj].
        apply (HP j l' Hj) in Hx. destruct Hx as (G1 & G2 & G3 & G4 & G5). rewrite G2. auto.
      + intros (G1 & G2 & G3 & G4).
        destruct (proj1 (vm_cells_dom _ _ _ V z (lc_sect x) (lc_cell x)))
          as (zn' & sec' & E1 & E2 & _); [eauto|].
        rewrite Hz in E1. inversion E1; subst zn'. apply at1_lt in E2 as Ls.
        destruct (nth_error_lt_some ls (lc_sect x - 1)) as [l' Hl']; [lia|].
        exists l'. split; [eapply nth_error_In; eauto|]. apply (HP _ _ Hl').
        replace (1 + (lc_sect x - 1)) with (lc_sect x) by lia. auto 10.
  Qed.

  Lemma read_cell_zones_ok (P : nat -> list LocalCell -> Prop) zs' : forall z0 rs,
    length rs = length zs' ->
    (forall j zn r, nth_error zs' j = Some zn -> nth_error rs j = Some r ->
       exists field l, nth_error (z_cell_fields zn) 1 = Some field /\
         read_sections prj (z0 + j) 1 field (z_sections zn) r = Some l /\ P (z0 + j) l) ->
    exists ls, read_cell_zones prj z0 zs' rs = Some (concat ls) /\ length ls = length zs' /\
      forall j l, nth_error ls j = Some l -> P (z0 + j) l.
  Proof.
    induction zs' as [|zn t IH]; intros z0 rs HL H; destruct rs as [|r rs]; try discriminate.
    - exists []. repeat split; auto. intros [|j]; discriminate.
    - cbn [read_cell_zones]. destruct (H 0 zn r eq_refl eq_refl) as (field & l & E0 & E & HP).
      rewrite Nat.add_0_r in *. rewrite E0. cbn [bind]. rewrite E. cbn [bind].
      destruct (IH (S z0) rs) as (ls & E2 & L2 & HP2).
      { simpl in HL. lia. }
      { intros j sec' r' H1 H2. destruct (H (S j) sec' r' H1 H2) as (f' & l' & E0' & E' & HP').
        rewrite Nat.add_succ_r in *. eauto. }
      rewrite E2. cbn [bind]. exists (l :: ls). simpl. split; auto. split; auto.
      intros [|j] l' Hj; simpl in Hj.
      + inversion Hj; subst. rewrite Nat.add_0_r. auto.
      + rewrite Nat.add_succ_r. apply HP2. auto.
  Qed.

  Definition good_locals (p : nat) (l : list LocalCell) : Prop :=
    NoDup (map lc_metis l) /\
    forall c, In c l <->
      nth_error cell_parts (lc_metis c) = Some p /\
      nth_error (m2c_cells mp) (lc_metis c) = Some (lc_zone c, lc_sect c, lc_cell c) /\
      cell_nodes zs mp (lc_metis c) = Some (lc_zone c, lc_nodes c).

  Lemma BuildLocalCells_ok p f : nth_error files p = Some f ->
    exists cells, BuildLocalCells prj zs f = Some cells /\ good_locals p cells.
  Proof.
    intros Hf. destruct (gf_shape _ _ _ _ _ _ _ _ _ GF p f Hf) as (_ & LL & _).
    destruct (read_cell_zones_ok (good_zone p) zs 1 (pf_cells f) LL) as (ls & E & L2 & HP).
    { intros j zn r Hj Hr. destruct (ix_fields _ _ _ _ IX (1 + j) zn Hj) as [_ L].
      destruct (nth_error_lt_some (z_cell_fields zn) 1) as [field Hfld]; [lia|].
      destruct (zone_cells_ok p f (1 + j) zn field r Hf Hj Hfld Hr) as (cells & E & G). eauto. }
    exists (concat ls). split; auto. split.
    - apply NoDup_concat.
      + intros j l' Hj. apply (HP j l' Hj).
      + intros i j a b x y Hne Ha Hb Hx Hy E'.
        apply (HP i a Ha) in Hx. apply (HP j b Hb) in Hy.
        destruct Hx as (_ & Hx & _). destruct Hy as (_ & Hy & _).
        rewrite E' in Hx. apply (vm_cells _ _ _ V) in Hx. apply (vm_cells _ _ _ V) in Hy.
        rewrite Hx in Hy. inversion Hy. lia.
    - intros x. rewrite in_concat. split.
      + intros (l' & Hl' & Hx). apply In_nth_error in Hl'. destruct Hl' as [j Hj].
        apply (HP j l' Hj) in Hx. destruct Hx as (G1 & G2 & G3 & G4). rewrite G1.
        apply (vm_cells _ _ _ V) in G2. auto.
      + intros (G1 & G2 & G3). apply (vm_cells _ _ _ V) in G2 as G4.
        destruct (proj1 (vm_cells_dom _ _ _ V (lc_zone x) (lc_sect x) (lc_cell x)))
          as (zn' & sec' & E1 & _); [eauto|].
        apply at1_lt in E1 as Ls.
        destruct (nth_error_lt_some ls (lc_zone x - 1)) as [l' Hl']; [lia|].
        exists l'. split; [eapply nth_error_In; eauto|]. apply (HP _ _ Hl').
        replace (1 + (lc_zone x - 1)) with (lc_zone x) by lia. auto 10.
  Qed.

  (** ** Which cells are sent and received *)
  Definition send_lines (f : PartFile) : list (nat * (nat * nat)) :=
    map (fun '(p, i, _, ni, _) => (p, (i, ni))) (pf_inter f).
  Definition recv_lines (f : PartFile) : list (nat * (nat * nat)) :=
    map (fun '(p, _, j, _, nj) => (p, (j, nj))) (pf_inter f).

  Definition npe_is (m n : nat) : Prop := exists row, csr_row mesh m = Some row /\ length row = n.

  Lemma npe_fun m n n' : npe_is m n -> npe_is m n' -> n = n'.
  Proof. intros (r & E & <-) (r' & E' & <-). congruence. Qed.

  Lemma npe_exists m : m < length cell_parts -> exists n, npe_is m n.
  Proof.
    intros H. destruct (cell_nodes_at m H) as (z & s & c & row & _ & _ & _ & mrow & E & _).
    exists (length mrow), mrow. auto.
  Qed.

  Lemma In_send_lines p f q i n : nth_error files p = Some f ->
    (In (q, (i, n)) (send_lines f) <->
     (exists j, nbr graph i j /\ nth_error cell_parts j = Some q) /\
     p <> q /\ nth_error cell_parts i = Some p /\ npe_is i n).
  Proof.
    intros Hf. unfold send_lines. rewrite in_map_iff. split.
    - intros ([[[[q' i'] j] ni] nj] & E & H). inversion E; subst.
      apply (gf_inter _ _ _ _ _ _ _ _ _ GF p f) in H; auto.
      destruct H as (H1 & H2 & H3 & H4 & H5 & H6). repeat split; eauto.
    - intros ((j & H1 & H2) & H3 & H4 & H5).
      destruct (npe_exists j) as [nj Hnj]; [eapply nth_error_some_lt; eauto|].
      exists (q, i, j, n, nj). split; auto.
      apply (gf_inter _ _ _ _ _ _ _ _ _ GF p f); auto 10.
  Qed.

  Lemma In_recv_lines p f q j n : nth_error files p = Some f ->
    (In (q, (j, n)) (recv_lines f) <->
     (exists i, nbr graph i j /\ nth_error cell_parts i = Some p) /\
     p <> q /\ nth_error cell_parts j = Some q /\ npe_is j n).
  Proof.
    intros Hf. unfold recv_lines. rewrite in_map_iff. split.
    - intros ([[[[q' i] j'] ni] nj] & E & H). inversion E; subst.
      apply (gf_inter _ _ _ _ _ _ _ _ _ GF p f) in H; auto.
      destruct H as (H1 & H2 & H3 & H4 & H5 & H6). repeat split; eauto.
    - intros ((i & H1 & H2) & H3 & H4 & H5).
      destruct (npe_exists i) as [ni Hni]; [eapply nth_error_some_lt; eauto|].
      exists (q, i, j, ni, n). split; auto.
      apply (gf_inter _ _ _ _ _ _ _ _ _ GF p f); auto 10.
  Qed.

  Lemma send_fun p f q : nth_error files p = Some f ->
    forall k v v', In (k, v) (sel q (send_lines f)) -> In (k, v') (sel q (send_lines f)) -> v = v'.
  Proof.
    intros Hf k v v' H H'. rewrite In_sel in H, H'.
    apply (In_send_lines p f) in H; auto. apply (In_send_lines p f) in H'; auto.
    eapply npe_fun; [apply H|apply H'].
  Qed.

  Lemma recv_fun p f q : nth_error files p = Some f ->
    forall k v v', In (k, v) (sel q (recv_lines f)) -> In (k, v') (sel q (recv_lines f)) -> v = v'.
  Proof.
    intros Hf k v v' H H'. rewrite In_sel in H, H'.
    apply (In_recv_lines p f) in H; auto. apply (In_recv_lines p f) in H'; auto.
    eapply npe_fun; [apply H|apply H'].
  Qed.

  Lemma same_lines p q fp fq x : nth_error files p = Some fp -> nth_error files q = Some fq ->
    (In x (sel q (send_lines fp)) <-> In x (sel p (recv_lines fq))).
  Proof.
    intros Hp Hq. destruct x as [m n]. rewrite !In_sel, (In_send_lines p fp), (In_recv_lines q fq) by auto.
    split; intros ((j & H1 & H2) & H3 & H4 & H5); repeat split; auto; exists j; auto.
  Qed.

  Theorem cells_agree_ok : cells_agree files.
  Proof.
    intros p q fp fq Hp Hq. unfold send_npes, recv_npes.
    change (lookup q (group put [] (send_lines fp)) = lookup p (group put [] (recv_lines fq))).
    rewrite !lookup_group.
    pose proof (fun x => same_lines p q fp fq x Hp Hq) as E.
    pose proof (fold_put _ (send_fun p fp q Hp)) as [S1 H1].
    pose proof (fold_put _ (recv_fun q fq p Hq)) as [S2 H2].
    destruct (sel q (send_lines fp)) as [|a t] eqn:E1, (sel p (recv_lines fq)) as [|b u] eqn:E2; auto.
    - exfalso. apply (proj2 (E b)). left. auto.
    - exfalso. apply (proj1 (E a)). left. auto.
    - f_equal. apply (sorted_unique (fun a b : nat * nat => fst a < fst b)); auto.
      + intros x. lia.
      + intros x y z. lia.
      + intros x. rewrite H1, H2. apply E.
  Qed.

  (** the entries of the maps *)
  Lemma send_npes_In p f q ms : nth_error files p = Some f -> In (q, ms) (send_npes f) ->
    ms <> [] /\ keys_sorted ms /\ forall m n, In (m, n) ms <-> In (q, (m, n)) (send_lines f).
  Proof.
    intros Hf H. apply lookup_iff in H; [|apply group_sorted]. unfold send_npes in H.
    rewrite lookup_group in H. change (map _ (pf_inter f)) with (send_lines f) in H.
    pose proof (fold_put _ (send_fun p f q Hf)) as [S1 H1].
    destruct (sel q (send_lines f)) as [|a t] eqn:E; [discriminate|]. rewrite <- E in *.
    injection H as <-. split; [|split; auto].
    - intros N. assert (Ha : In a (sel q (send_lines f))) by (rewrite E; left; auto).
      apply H1 in Ha. rewrite N in Ha. contradiction.
    - intros m n. rewrite H1, In_sel. reflexivity.
  Qed.

  Lemma recv_npes_In p f q ms : nth_error files p = Some f -> In (q, ms) (recv_npes f) ->
    ms <> [] /\ keys_sorted ms /\ forall m n, In (m, n) ms <-> In (q, (m, n)) (recv_lines f).
  Proof.
    intros Hf H. apply lookup_iff in H; [|apply group_sorted]. unfold recv_npes in H.
    rewrite lookup_group in H. change (map _ (pf_inter f)) with (recv_lines f) in H.
    pose proof (fold_put _ (recv_fun p f q Hf)) as [S1 H1].
    destruct (sel q (recv_lines f)) as [|a t] eqn:E; [discriminate|]. rewrite <- E in *.
    injection H as <-. split; [|split; auto].
    - intros N. assert (Ha : In a (sel q (recv_lines f))) by (rewrite E; left; auto).
      apply H1 in Ha. rewrite N in Ha. contradiction.
    - intros m n. rewrite H1, In_sel. reflexivity.
  Qed.

  Lemma recv_npes_ex f q m n : In (q, (m, n)) (recv_lines f) -> exists ms, In (q, ms) (recv_npes f).
  Proof.
    intros H. apply (proj2 (In_sel _ _ _)) in H. pose proof (lookup_group put [] (recv_lines f) q) as E.
    destruct (sel q (recv_lines f)) as [|a t]; [contradiction|].
    exists (fold_left put (a :: t) []). apply lookup_iff; [apply group_sorted|]. exact E.
  Qed.

  Lemma is_ghost_iff p f m : nth_error files p = Some f ->
    (is_ghost cell_parts graph p m <-> exists q n, In (q, (m, n)) (recv_lines f)).
  Proof.
    intros Hf. unfold is_ghost, needs_cell. split.
    - intros [[H|(i & q & H1 & H2 & H3 & H4)] Hn]; [contradiction|].
      destruct (npe_exists m) as [n Hnpe]; [eapply nth_error_some_lt; eauto|].
      exists q, n. apply (In_recv_lines p f); auto. repeat split; eauto.
    - intros (q & n & H). apply (In_recv_lines p f) in H; auto.
      destruct H as ((i & H1 & H2) & H3 & H4 & _). split; [|congruence].
      right. exists i, q. auto.
  Qed.

  (** ** Ghost cells *)
  Definition cell_msg (m : nat) : list nat :=
    match cell_nodes zs mp m with Some (z, row) => z :: row | None => [] end.

  Lemma cell_msg_ok m n p : nth_error cell_parts m = Some p -> npe_is m n ->
    exists z row, cell_nodes zs mp m = Some (z, row) /\ cell_msg m = z :: row /\ length row = n.
  Proof.
    intros Hp Hn. destruct (cell_nodes_at m) as (z & s & c & row & E1 & E2 & E3 & mrow & E4 & E5).
    { eapply nth_error_some_lt; eauto. }
    exists z, row. unfold cell_msg. rewrite E3. split; auto. split; auto.
    apply (npe_fun m); auto. exists mrow. auto.
  Qed.

  Lemma find_cell_ok p cells m : good_locals p cells -> nth_error cell_parts m = Some p ->
    exists c, find_cell cells m = Some c /\ lc_metis c = m /\
      cell_nodes zs mp m = Some (lc_zone c, lc_nodes c).
  Proof.
    intros [_ G] Hm. destruct (cell_nodes_at m) as (z & s & c & row & E1 & E2 & E3 & _).
    { eapply nth_error_some_lt; eauto. }
    assert (Hin : In (mkCell m z s c row) cells) by (apply G; auto).
    unfold find_cell. destruct (List.find _ cells) as [x|] eqn:E.
    - apply find_some in E. destruct E as [H1 H2]. apply Nat.eqb_eq in H2. exists x. split; auto.
      split; auto. apply G in H1. rewrite H2 in H1. apply H1.
    - pose proof (find_none _ _ E _ Hin) as N. simpl in N. rewrite Nat.eqb_refl in N. discriminate.
  Qed.

  Lemma pack_cells_ok p f cells q ms : nth_error files p = Some f -> good_locals p cells ->
    In (q, ms) (send_npes f) ->
    pack_cells cells (q, ms) = Some (q, concat (map (fun x => cell_msg (fst x)) ms)).
  Proof.
    intros Hf G H. destruct (send_npes_In p f q ms Hf H) as (_ & _ & HI).
    unfold pack_cells. cbn [fst snd]. rewrite (mapM_map _ (fun x => cell_msg (fst x))); [reflexivity|].
    intros [m n] Hm. apply HI in Hm. apply (In_send_lines p f) in Hm; auto.
    destruct Hm as (_ & _ & Hp & Hn). unfold pack_cell. cbn [fst snd].
    destruct (find_cell_ok p cells m G Hp) as (c & E1 & E2 & E3).
    destruct (cell_msg_ok m n p Hp Hn) as (z & row & E4 & E5 & E6).
    rewrite E1. cbn [bind]. rewrite E3 in E4. inversion E4; subst.
    rewrite Nat.eqb_refl. rewrite E5. reflexivity.
  Qed.

  Lemma recv_size p f q ms : nth_error files p = Some f -> In (q, ms) (recv_npes f) ->
    fold_right (fun y n => 1 + snd y + n) 0 ms = length (concat (map (fun x => cell_msg (fst x)) ms)).
  Proof.
    intros Hf H. destruct (recv_npes_In p f q ms Hf H) as (_ & _ & HI).
    assert (HA : forall m n, In (m, n) ms -> length (cell_msg m) = S n).
    { intros m n Hm. apply HI in Hm. apply (In_recv_lines p f) in Hm; auto.
      destruct Hm as (_ & _ & Hp & Hn). destruct (cell_msg_ok m n q Hp Hn) as (z & row & _ & -> & <-).
      reflexivity. }
    clear -HA. induction ms as [|[m n] t IH]; simpl; auto.
    rewrite app_length, (HA m n) by (left; auto). simpl. f_equal. f_equal. apply IH.
    intros; apply HA; right; auto.
  Qed.

  Definition ghost_list (ms : list (nat * nat)) : list (nat * (nat * list nat)) :=
    map (fun x => (fst x, match cell_nodes zs mp (fst x) with Some y => y | None => (0, []) end)) ms.

  Lemma ghost_cells_from_ok p f q ms : nth_error files p = Some f -> In (q, ms) (recv_npes f) ->
    ghost_cells_from ms (q, concat (map (fun x => cell_msg (fst x)) ms)) = Some (ghost_list ms).
  Proof.
    intros Hf H. destruct (recv_npes_In p f q ms Hf H) as (_ & _ & HI).
    assert (HA : forall m n, In (m, n) ms -> exists z row, cell_nodes zs mp m = Some (z, row) /\
              cell_msg m = z :: row /\ length row = n).
    { intros m n Hm. apply HI in Hm. apply (In_recv_lines p f) in Hm; auto.
      destruct Hm as (_ & _ & Hp & Hn). apply (cell_msg_ok m n q Hp Hn). }
    clear -HA. unfold ghost_cells_from. cbn [snd].
    replace (map (fun y => S (snd y)) ms) with (map (@length nat) (map (fun x => cell_msg (fst x)) ms)).
    2:{ rewrite map_map. apply map_ext_in. intros [m n] Hm. destruct (HA m n Hm) as (z & row & _ & E & <-).
        simpl. rewrite E. reflexivity. }
    rewrite chunks_concat. cbn [bind].
    induction ms as [|[m n] t IH]; simpl; auto.
    rewrite IH by (intros; apply HA; right; auto).
    unfold ghost_cell at 1. cbn [fst snd].
    destruct (HA m n (or_introl eq_refl)) as (z & row & E1 & E2 & _). rewrite E1, E2. reflexivity.
  Qed.

  Lemma BuildGhostCells_ok p f : nth_error files p = Some f ->
    BuildGhostCells f (map (fun x => (fst x, concat (map (fun y => cell_msg (fst y)) (snd x))))
                         (recv_npes f)) =
    Some (concat (map (fun x => ghost_list (snd x)) (recv_npes f))).
  Proof.
    intros Hf. unfold BuildGhostCells.
    assert (E : forall l, (forall x, In x l -> In x (recv_npes f)) ->
      zipM ghost_cells_from (map snd l)
        (map (fun x => (fst x, concat (map (fun y => cell_msg (fst y)) (snd x)))) l) =
      Some (map (fun x => ghost_list (snd x)) l)).
    { induction l as [|[q ms] t IH]; intros H; auto. cbn [map zipM fst snd].
      rewrite (ghost_cells_from_ok p f q ms Hf) by (apply H; left; auto). cbn [bind].
      rewrite IH by (intros; apply H; right; auto). reflexivity. }
    rewrite E; auto.
  Qed.

  Lemma ghosts_ok p f : nth_error files p = Some f ->
    let l := concat (map (fun x => ghost_list (snd x)) (recv_npes f)) in
    NoDup (map fst l) /\
    forall m x, In (m, x) l <->
      needs_cell cell_parts graph p m /\ nth_error cell_parts m <> Some p /\
      cell_nodes zs mp m = Some x.
  Proof.
    intros Hf l.
    assert (KS : keys_sorted (recv_npes f)) by apply group_sorted. split.
    - apply NoDup_concat.
      + intros j g Hg. rewrite nth_error_map in Hg.
        destruct (nth_error (recv_npes f) j) as [[q ms]|] eqn:Ej; [|discriminate]. inversion Hg; subst g.
        destruct (recv_npes_In p f q ms Hf) as (_ & S & _); [eapply nth_error_In; eauto|].
        unfold ghost_list. rewrite map_map. cbn [fst snd]. clear -S. induction S as [|[k v] t St IH F]; simpl; constructor; auto.
        intros Hin. apply in_map_iff in Hin. destruct Hin as ([k' v'] & E & Hin).
        rewrite Forall_forall in F. specialize (F _ Hin). simpl in *. lia.
      + intros i j a b x y Hne Ha Hb Hx Hy E. rewrite nth_error_map in Ha, Hb.
        destruct (nth_error (recv_npes f) i) as [[q ms]|] eqn:Ei; [|discriminate]. inversion Ha; subst a.
        destruct (nth_error (recv_npes f) j) as [[q' ms']|] eqn:Ej; [|discriminate]. inversion Hb; subst b.
        cbn [snd] in *. unfold ghost_list in Hx, Hy. apply in_map_iff in Hx. apply in_map_iff in Hy.
        destruct Hx as ([m n] & <- & Hx). destruct Hy as ([m' n'] & <- & Hy). cbn [fst] in E. subst m'.
        destruct (recv_npes_In p f q ms Hf) as (_ & _ & H1); [eapply nth_error_In; eauto|].
        destruct (recv_npes_In p f q' ms' Hf) as (_ & _ & H2); [eapply nth_error_In; eauto|].
        apply H1 in Hx. apply H2 in Hy. apply (In_recv_lines p f) in Hx; auto.
        apply (In_recv_lines p f) in Hy; auto. destruct Hx as (_ & _ & Hx & _). destruct Hy as (_ & _ & Hy & _).
        rewrite Hx in Hy. inversion Hy; subst q'.
        assert (K : forall l i j (a b : nat * list (nat * nat)), keys_sorted l -> i < j ->
                  nth_error l i = Some a -> nth_error l j = Some b -> fst a < fst b).
        { clear. induction l as [|c t IH]; intros [|i] [|j] a b S L H1 H2; try discriminate; try lia;
            inversion S as [|? ? St F]; subst; simpl in *.
          - inversion H1; subst. rewrite Forall_forall in F. apply F. eapply nth_error_In; eauto.
          - apply (IH i j); auto. lia. }
        destruct (Nat.lt_trichotomy i j) as [Hlt|[Heq|Hlt]]; [|lia|].
        * pose proof (K _ _ _ _ _ KS Hlt Ei Ej) as X. simpl in X. lia.
        * pose proof (K _ _ _ _ _ KS Hlt Ej Ei) as X. simpl in X. lia.
    - intros m x. unfold l. rewrite in_concat. split.
      + intros (g & Hg & Hin). apply in_map_iff in Hg. destruct Hg as ([q ms] & <- & Hq). cbn [snd] in Hin.
        unfold ghost_list in Hin. apply in_map_iff in Hin. destruct Hin as ([m' n] & E & Hm).
        cbn [fst] in E. inversion E; subst m'. clear E.
        destruct (recv_npes_In p f q ms Hf Hq) as (_ & _ & HI). apply HI in Hm.
        assert (G : is_ghost cell_parts graph p m) by (apply (is_ghost_iff p f); eauto).
        destruct G as [G1 G2]. split; auto. split; auto.
        apply (In_recv_lines p f) in Hm; auto. destruct Hm as (_ & _ & Hp & Hn).
        destruct (cell_msg_ok m n q Hp Hn) as (z & row & E & _). subst x. rewrite E. reflexivity.
      + intros (G1 & G2 & Hx). destruct (proj1 (is_ghost_iff p f m Hf)) as (q & n & Hq); [split; auto|].
        destruct (recv_npes_ex f q m n Hq) as [ms Hms].
        destruct (recv_npes_In p f q ms Hf Hms) as (_ & _ & HI).
        exists (ghost_list ms). split.
        * apply in_map_iff. exists (q, ms). auto.
        * unfold ghost_list. apply in_map_iff. exists (m, n). cbn [fst]. rewrite Hx. split; auto.
          apply HI. auto.
  Qed.

  (** the exchange along [send_npes] and [recv_npes] *)
  Lemma cell_exchange {X} (pay : nat -> nat * nat -> list X) sends recvs :
    length sends = n_parts -> length recvs = n_parts ->
    (forall p f, nth_error files p = Some f -> nth_error sends p =
       Some (map (fun x => (fst x, buffer pay p (snd x))) (send_npes f))) ->
    (forall q f, nth_error files q = Some f -> nth_error recvs q =
       Some (map (fun x => (fst x, length (buffer pay (fst x) (snd x)))) (recv_npes f))) ->
    exists bufs, exchange sends recvs = Some bufs /\ length bufs = n_parts /\
      forall q f, nth_error files q = Some f -> nth_error bufs q =
        Some (map (fun x => (fst x, buffer pay (fst x) (snd x))) (recv_npes f)).
  Proof.
    intros L1 L2 H1 H2. pose proof (gf_len _ _ _ _ _ _ _ _ _ GF) as LF.
    destruct (exchange_ok (map send_npes files) (map recv_npes files) pay sends recvs)
      as (bufs & E & L & H).
    - rewrite !map_length. auto.
    - intros p q sp rq Hp Hq. rewrite nth_error_map in Hp, Hq.
      destruct (nth_error files p) as [fp|] eqn:Fp; [|discriminate]. inversion Hp; subst sp.
      destruct (nth_error files q) as [fq|] eqn:Fq; [|discriminate]. inversion Hq; subst rq.
      apply (cells_agree_ok p q fp fq Fp Fq).
    - intros p sp Hp. rewrite nth_error_map in Hp.
      destruct (nth_error files p) as [fp|] eqn:Fp; [|discriminate]. inversion Hp; subst sp.
      split; [apply group_sorted|]. intros q ms Hq. rewrite map_length, LF.
      destruct (send_npes_In p fp q ms Fp Hq) as (Hne & _ & HI).
      destruct ms as [|[m n] t]; [contradiction|].
      assert (Hm : In (q, (m, n)) (send_lines fp)) by (apply HI; left; auto).
      apply (In_send_lines p fp) in Hm; auto. destruct Hm as ((j & _ & Hj) & _).
      rewrite Forall_forall in Fc. apply Fc. eapply nth_error_In; eauto.
    - intros p sp Hp. rewrite nth_error_map in Hp.
      destruct (nth_error files p) as [fp|] eqn:Fp; [|discriminate]. inversion Hp; subst sp.
      split; [apply group_sorted|]. intros q ms Hq. rewrite map_length, LF.
      destruct (recv_npes_In p fp q ms Fp Hq) as (Hne & _ & HI).
      destruct ms as [|[m n] t]; [contradiction|].
      assert (Hm : In (q, (m, n)) (recv_lines fp)) by (apply HI; left; auto).
      apply (In_recv_lines p fp) in Hm; auto. destruct Hm as (_ & _ & Hj & _).
      rewrite Forall_forall in Fc. apply Fc. eapply nth_error_In; eauto.
    - rewrite map_length. lia.
    - rewrite map_length. lia.
    - intros p sp Hp. rewrite nth_error_map in Hp.
      destruct (nth_error files p) as [fp|] eqn:Fp; [|discriminate]. inversion Hp; subst sp. auto.
    - intros p sp Hp. rewrite nth_error_map in Hp.
      destruct (nth_error files p) as [fp|] eqn:Fp; [|discriminate]. inversion Hp; subst sp. auto.
    - exists bufs. rewrite map_length in L. split; auto. split; [lia|].
      intros q f Hq. apply H. rewrite nth_error_map, Hq. reflexivity.
  Qed.

  Theorem BuildCells_ok : exists cells, BuildCells prj zs files = Some cells /\
    length cells = n_parts /\
    forall p c, nth_error cells p = Some c -> good_cells cell_parts graph zs mp p c.
  Proof.
    unfold BuildCells. pose proof (gf_len _ _ _ _ _ _ _ _ _ GF) as LF.
    destruct (mapM_exists_at (BuildLocalCells prj zs) (fun k f l => good_locals (k - 1) l) files)
      as (locals & El & Ll & Hl).
    { intros [|p] f Hf; [discriminate|]. cbn [at1] in Hf.
      destruct (BuildLocalCells_ok p f Hf) as (st & E & G). exists st. simpl. rewrite Nat.sub_0_r. auto. }
    assert (Hl' : forall p f, nth_error files p = Some f -> exists l,
              nth_error locals p = Some l /\ good_locals p l).
    { intros p f Hf. destruct (Hl (S p) f Hf) as (l & E & _ & G). exists l.
      simpl in G. rewrite Nat.sub_0_r in G. auto. }
    rewrite El. cbn [bind].
    assert (Snd : forall x, In x (combine locals files) ->
      mapM (pack_cells (fst x)) (send_npes (snd x)) =
      Some (map (fun y => (fst y, concat (map (fun z => cell_msg (fst z)) (snd y)))) (send_npes (snd x)))).
    { intros [l f] Hx. apply In_nth_error in Hx. destruct Hx as [p Hx].
      apply combine_nth_error in Hx. destruct Hx as [H1 Hf]. cbn [fst snd].
      destruct (Hl' p f Hf) as (l' & E & G). rewrite H1 in E. inversion E; subst l'.
      apply mapM_map. intros [q ms] Hq. cbn [fst snd]. apply (pack_cells_ok p f); auto. }
    rewrite (mapM_map _ _ _ Snd). cbn [bind]. clear Snd.
    match goal with |- context [exchange ?s ?r] =>
      destruct (cell_exchange (fun _ y => cell_msg (fst y)) s r) as (bufs & Eb & Lb & Hb) end.
    - rewrite map_length, combine_length. lia.
    - rewrite map_length. lia.
    - intros p f Hf. destruct (Hl' p f Hf) as (l & E & _).
      rewrite nth_error_map, (nth_error_combine _ _ _ _ _ E Hf). reflexivity.
    - intros q f Hf. rewrite nth_error_map, Hf. cbn [option_map]. f_equal. apply map_ext_in.
      intros [p ms] Hin. unfold recv_cells_size. cbn [fst snd]. f_equal.
      apply (recv_size q f p ms); auto.
    - rewrite Eb. cbn [bind].
      assert (Gh : forall x, In x (combine files bufs) -> BuildGhostCells (fst x) (snd x) =
        Some (concat (map (fun y => ghost_list (snd y)) (recv_npes (fst x))))).
      { intros [f b] Hx. apply In_nth_error in Hx. destruct Hx as [p Hx].
        apply combine_nth_error in Hx. destruct Hx as [Hf Hbp]. cbn [fst snd].
        rewrite (Hb p f Hf) in Hbp. inversion Hbp; subst b. apply (BuildGhostCells_ok p f Hf). }
      rewrite (mapM_map _ _ _ Gh). cbn [bind]. eexists. split; [reflexivity|].
      split; [rewrite !combine_length, map_length, combine_length; lia|].
      intros p [l g] Hp. apply combine_nth_error in Hp. destruct Hp as [H1 H2].
      rewrite nth_error_map in H2.
      destruct (nth_error (combine files bufs) p) as [[f b]|] eqn:E2; [|discriminate].
      apply combine_nth_error in E2. destruct E2 as [Hf _]. inversion H2; subst g. clear H2.
      destruct (Hl' p f Hf) as (l' & E & G1 & G2). rewrite H1 in E. inversion E; subst l'.
      destruct (ghosts_ok p f Hf) as [G3 G4].
      constructor; cbn [fst snd]; auto.
  Qed.

  (** ** Coefficients *)
  Section Coeffs.
    Variables (kF : nat) (cos : list (@Coeffs A)).
    Hypothesis Lco : length cos = n_parts.
    Hypothesis Wco : forall p co, nth_error cos p = Some co -> wf_coeffs kF cell_parts graph p co.

    Definition coeff_msg (p : nat) (x : nat * nat) : list A :=
      match nth_error cos p with
      | Some co => match lookup (fst x) (co_local co) with Some c => c | None => [] end
      | None => []
      end.

    Lemma coeff_msg_ok p co m n : nth_error cos p = Some co -> nth_error cell_parts m = Some p ->
      lookup m (co_local co) = Some (coeff_msg p (m, n)) /\ length (coeff_msg p (m, n)) = kF.
    Proof.
      intros Hco Hm. destruct (wc_local _ _ _ _ _ (Wco p co Hco) m Hm) as (c & E & L).
      unfold coeff_msg. rewrite Hco. cbn [fst]. rewrite E. auto.
    Qed.

    Lemma concat_length_const {X} (ls : list (list X)) n : Forall (fun l => length l = n) ls ->
      length (concat ls) = length ls * n.
    Proof. induction 1; simpl; auto. rewrite app_length. lia. Qed.

    Lemma pack_coeffs_ok p f co q ms : nth_error files p = Some f -> nth_error cos p = Some co ->
      In (q, ms) (send_npes f) ->
      pack_coeffs kF co (q, ms) = Some (q, concat (map (coeff_msg p) ms)).
    Proof.
      intros Hf Hco H. destruct (send_npes_In p f q ms Hf H) as (_ & _ & HI).
      assert (HA : forall x, In x ms -> lookup (fst x) (co_local co) = Some (coeff_msg p x) /\
                                   length (coeff_msg p x) = kF).
      { intros [m n] Hm. apply HI in Hm. apply (In_send_lines p f) in Hm; auto.
        destruct Hm as (_ & _ & Hp & _). apply (coeff_msg_ok p co m n); auto. }
      unfold pack_coeffs. cbn [fst snd]. rewrite (mapM_map _ (coeff_msg p)) by (intros; apply HA; auto).
      cbn [bind]. rewrite (concat_length_const _ kF).
      - rewrite map_length, Nat.eqb_refl. reflexivity.
      - apply Forall_forall. intros l Hl. apply in_map_iff in Hl. destruct Hl as (x & <- & Hx).
        apply HA. auto.
    Qed.

    Lemma set_coeff_ok m c (l : list (nat * list A)) : (exists c0, lookup m l = Some c0) ->
      exists l', set_coeff m c l = Some l' /\ map fst l' = map fst l /\
        forall k, lookup k l' = if k =? m then Some c else lookup k l.
    Proof.
      induction l as [|[k0 v] t IH]; intros [c0 H]; [discriminate|]. simpl in *.
      destruct (Nat.eqb_spec m k0) as [->|Hne].
      - exists ((k0, c) :: t). split; auto. split; auto. intros k. simpl.
        destruct (k =? k0); auto.
      - destruct IH as (l' & E & E1 & E2); [eauto|]. rewrite E. cbn [bind].
        eexists. split; [reflexivity|]. simpl. split; [congruence|]. intros k. rewrite E2.
        destruct (Nat.eqb_spec k k0); auto. destruct (Nat.eqb_spec k m); auto. congruence.
    Qed.

    Lemma set_fold p ms : forall g : list (nat * list A),
      (forall x, In x ms -> exists c, lookup (fst x) g = Some c) ->
      exists g', foldM (fun g y => set_coeff (fst (fst y)) (snd y) g)
                   (combine ms (map (coeff_msg p) ms)) g = Some g' /\
        map fst g' = map fst g /\
        (forall k, (forall x, In x ms -> fst x <> k) -> lookup k g' = lookup k g) /\
        (forall x, In x ms -> exists n, lookup (fst x) g' = Some (coeff_msg p (fst x, n))).
    Proof.
      induction ms as [|x t IH]; intros g H.
      - exists g. simpl. repeat split; auto. intros x [].
      - cbn [map combine foldM fst snd].
        destruct (set_coeff_ok (fst x) (coeff_msg p x) g) as (g1 & E1 & K1 & L1); [apply H; left; auto|].
        rewrite E1. cbn [bind].
        destruct (IH g1) as (g' & E & K & L & R).
        { intros y Hy. destruct (H y) as [c Hc]; [right; auto|]. rewrite L1.
          destruct (fst y =? fst x); eauto. }
        exists g'. split; auto. split; [congruence|]. split.
        + intros k Hk. rewrite L by (intros; apply Hk; right; auto). rewrite L1.
          destruct (Nat.eqb_spec k (fst x)) as [->|]; auto. exfalso. apply (Hk x); [left|]; auto.
        + intros y [<-|Hy]; [|auto].
          destruct (in_dec Nat.eq_dec (fst x) (map fst t)) as [Hin|Hin].
          * apply in_map_iff in Hin. destruct Hin as (y & Ey & Hy). destruct (R y Hy) as [n Hn].
            rewrite Ey in Hn. eauto.
          * exists (snd x). rewrite L.
            -- rewrite L1, Nat.eqb_refl. destruct x. reflexivity.
            -- intros y Hy Ey. apply Hin. rewrite <- Ey. apply in_map. auto.
    Qed.

    Lemma unpack_fold p f l : nth_error files p = Some f -> (forall x, In x l -> In x (recv_npes f)) ->
      keys_sorted l -> forall co,
      (forall q ms m n, In (q, ms) l -> In (m, n) ms -> exists c, lookup m (co_ghost co) = Some c) ->
      exists co', foldM (unpack_coeffs kF)
          (combine (map snd l) (map (fun x => concat (map (coeff_msg (fst x)) (snd x))) l)) co = Some co' /\
        co_local co' = co_local co /\ map fst (co_ghost co') = map fst (co_ghost co) /\
        (forall k, (forall q ms n, In (q, ms) l -> ~ In (k, n) ms) ->
           lookup k (co_ghost co') = lookup k (co_ghost co)) /\
        (forall q ms m n, In (q, ms) l -> In (m, n) ms ->
           exists n', lookup m (co_ghost co') = Some (coeff_msg q (m, n'))).
    Proof.
      intros Hf. induction l as [|[q ms] t IH]; intros Hl KS co Hco.
      - exists co. simpl. repeat split; auto. intros q ms m n [].
      - cbn [map combine foldM fst snd]. unfold unpack_coeffs at 1. cbn [fst snd].
        assert (Hq : In (q, ms) (recv_npes f)) by (apply Hl; left; auto).
        destruct (recv_npes_In p f q ms Hf Hq) as (_ & _ & HI).
        replace (repeat kF (length ms)) with (repeat kF (length (map (coeff_msg q) ms)))
          by (rewrite map_length; auto).
        rewrite chunks_repeat.
        2:{ apply Forall_forall. intros c Hc. apply in_map_iff in Hc. destruct Hc as ([m n] & <- & Hm).
            apply HI in Hm. apply (In_recv_lines p f) in Hm; auto. destruct Hm as (_ & _ & Hm & _).
            destruct (nth_error_lt_some cos q) as [cq Hcq].
            { rewrite Lco. rewrite Forall_forall in Fc. apply Fc. eapply nth_error_In; eauto. }
            apply (coeff_msg_ok q cq m n Hcq Hm). }
        cbn [bind].
        destruct (set_fold q ms (co_ghost co)) as (g & Eg & Kg & Lg & Rg).
        { intros [m n] Hm. apply (Hco q ms m n); auto. left; auto. }
        rewrite Eg. cbn [bind].
        destruct (StronglySorted_inv KS) as [KS' FK].
        destruct (IH (fun x Hx => Hl x (or_intror Hx)) KS' (mkCoeffs (co_local co) g))
          as (co' & E & L1 & K1 & O1 & R1).
        { intros q' ms' m n H1 H2. cbn [co_ghost].
          destruct (in_dec Nat.eq_dec m (map fst ms)) as [Hin|Hin].
          - apply in_map_iff in Hin. destruct Hin as (x & <- & Hx). destruct (Rg x Hx) as [n' Hn']. eauto.
          - rewrite Lg.
            + apply (Hco q' ms' m n); auto. right; auto.
            + intros x Hx Ex. apply Hin. rewrite <- Ex. apply in_map. auto. }
        exists co'. cbn [co_local co_ghost] in *. split; auto. split; auto. split; [congruence|]. split.
        + intros k Hk. rewrite O1.
          * apply Lg. intros [m n] Hm Em. cbn [fst] in Em. subst m. apply (Hk q ms n); [left|]; auto.
          * intros q' ms' n H1. apply (Hk q' ms' n). right. auto.
        + intros q' ms' m n [Eq|H1] H2; [|eauto]. inversion Eq; subst q' ms'.
          destruct (Rg (m, n) H2) as [n' Hn']. cbn [fst] in Hn'. exists n'. rewrite O1; auto.
          (* [m] belongs to part [q], not to the other sources *)
          intros q' ms' n2 H1 H3. apply HI in H2. apply (In_recv_lines p f) in H2; auto.
          destruct (recv_npes_In p f q' ms' Hf) as (_ & _ & HI'); [apply Hl; right; auto|].
          apply HI' in H3. apply (In_recv_lines p f) in H3; auto.
          destruct H2 as (_ & _ & H2 & _). destruct H3 as (_ & _ & H3 & _). rewrite H2 in H3.
          inversion H3; subst q'. rewrite Forall_forall in FK. specialize (FK _ H1). simpl in FK. lia.
    Qed.

    Theorem ShareCoeffs_ok : exists cos', ShareCoeffs kF files cos = Some cos' /\
      length cos' = n_parts /\
      forall p co co', nth_error cos p = Some co -> nth_error cos' p = Some co' ->
        coeffs_shared cell_parts graph cos p co co'.
    Proof.
      unfold ShareCoeffs. pose proof (gf_len _ _ _ _ _ _ _ _ _ GF) as LF.
      assert (Snd : forall x, In x (combine (seq 0 (length (combine files cos))) (combine files cos)) ->
        mapM (pack_coeffs kF (snd (snd x))) (send_npes (fst (snd x))) =
        Some (map (fun y => (fst y, buffer coeff_msg (fst x) (snd y))) (send_npes (fst (snd x))))).
      { intros [p [f co]] Hx. apply In_nth_error in Hx. destruct Hx as [k Hx].
        apply nth_error_combine_seq in Hx. cbn [fst snd] in Hx. destruct Hx as [Ek Hx].
        simpl in Ek. subst k. apply combine_nth_error in Hx. destruct Hx as [Hf Hco]. cbn [fst snd].
        apply mapM_map. intros [q ms] Hq. cbn [fst snd]. apply (pack_coeffs_ok p f co); auto. }
      destruct (mapM_exists_at (fun x => mapM (pack_coeffs kF (snd x)) (send_npes (fst x)))
        (fun k x y => y = map (fun z => (fst z, buffer coeff_msg (k - 1) (snd z))) (send_npes (fst x)))
        (combine files cos)) as (sends & Es & Ls & Hs).
      { intros [|p] [f co] Hx; [discriminate|]. cbn [at1] in Hx. simpl (S p - 1). rewrite Nat.sub_0_r.
        eexists. split; [|reflexivity].
        apply (Snd (p, (f, co))). eapply (nth_error_In _ p).
        rewrite (nth_error_seq_combine _ p (f, co) 0 Hx). reflexivity. }
      rewrite Es. cbn [bind]. clear Snd.
      match goal with |- context [exchange ?s ?r] =>
        destruct (cell_exchange coeff_msg s r) as (bufs & Eb & Lb & Hb) end.
      - rewrite Ls, combine_length. lia.
      - rewrite map_length. lia.
      - intros p f Hf. destruct (nth_error_lt_some cos p) as [co Hco].
        { rewrite Lco, <- LF. eapply nth_error_some_lt; eauto. }
        destruct (Hs (S p) (f, co)) as (y & E1 & _ & E2).
        { cbn [at1]. apply nth_error_combine; auto. }
        cbn [at1] in E1. simpl (S p - 1) in E2. rewrite Nat.sub_0_r in E2. subst y. auto.
      - intros q f Hf. rewrite nth_error_map, Hf. cbn [option_map]. f_equal. apply map_ext_in.
        intros [p ms] Hin. unfold recv_coeffs_size. cbn [fst snd]. f_equal. unfold buffer.
        destruct (recv_npes_In q f p ms Hf Hin) as (_ & _ & HI).
        rewrite (concat_length_const _ kF); [rewrite map_length; auto|].
        apply Forall_forall. intros c Hc. apply in_map_iff in Hc. destruct Hc as ([m n] & <- & Hm).
        apply HI in Hm. apply (In_recv_lines q f) in Hm; auto. destruct Hm as (_ & _ & Hm & _).
        destruct (nth_error_lt_some cos p) as [cq Hcq].
        { rewrite Lco. rewrite Forall_forall in Fc. apply Fc. eapply nth_error_In; eauto. }
        apply (coeff_msg_ok p cq m n Hcq Hm).
      - rewrite Eb. cbn [bind].
        destruct (mapM_exists_at (fun x => unpack_all kF (fst (fst x)) (snd (fst x)) (snd x))
          (fun k x co' => coeffs_shared cell_parts graph cos (k - 1) (snd (fst x)) co')
          (combine (combine files cos) bufs)) as (cos' & Ec & Lc' & Hc').
        { intros [|p] [[f co] b] Hx; [discriminate|]. cbn [at1] in Hx. cbn [fst snd].
          simpl (S p - 1). rewrite Nat.sub_0_r.
          apply combine_nth_error in Hx. destruct Hx as [Hx Hbp].
          apply combine_nth_error in Hx. destruct Hx as [Hf Hco].
          rewrite (Hb p f Hf) in Hbp. inversion Hbp; subst b. clear Hbp.
          unfold unpack_all. rewrite map_length, Nat.eqb_refl. rewrite map_map. cbn [snd].
          destruct (unpack_fold p f (recv_npes f) Hf (fun x H => H) (group_sorted _ _ _) co)
            as (co' & E & L1 & K1 & O1 & R1).
          { intros q ms m n H1 H2. destruct (recv_npes_In p f q ms Hf H1) as (_ & _ & HI).
            apply HI in H2. apply (wc_ghost _ _ _ _ _ (Wco p co Hco)). apply (is_ghost_iff p f); eauto. }
          exists co'. split; [exact E|]. constructor; auto.
          - intros m q owner Hg Hq Ho. apply (is_ghost_iff p f) in Hg; auto. destruct Hg as (q' & n & Hl').
            destruct (recv_npes_ex f q' m n Hl') as [ms Hms].
            destruct (recv_npes_In p f q' ms Hf Hms) as (_ & _ & HI).
            destruct (R1 q' ms m n Hms) as [n' Hn']; [apply HI; auto|].
            apply (In_recv_lines p f) in Hl'; auto. destruct Hl' as (_ & _ & Hq' & _).
            rewrite Hq in Hq'. inversion Hq'; subst q'. exists (coeff_msg q (m, n')). split; auto.
            apply (coeff_msg_ok q owner m n' Ho Hq).
          - intros m Hng. apply O1. intros q ms n H1 H2. apply Hng. apply (is_ghost_iff p f); auto.
            destruct (recv_npes_In p f q ms Hf H1) as (_ & _ & HI). exists q, n. apply HI. auto. }
        exists cos'. split; auto. split.
        + rewrite Lc', !combine_length. lia.
        + intros p co co' Hco Hco'. pose proof (nth_error_some_lt _ _ _ Hco) as Lp.
          destruct (nth_error_lt_some files p) as [f Hf]; [lia|].
          destruct (nth_error_lt_some bufs p) as [b Hbp]; [lia|].
          destruct (Hc' (S p) ((f, co), b)) as (y & E1 & _ & E2).
          { cbn [at1]. apply nth_error_combine; auto. apply nth_error_combine; auto. }
          cbn [at1] in E1. rewrite Hco' in E1. inversion E1; subst y. cbn [fst snd] in E2.
          simpl (S p - 1) in E2. rewrite Nat.sub_0_r in E2. auto.
    Qed.
  End Coeffs.
End Cells.
