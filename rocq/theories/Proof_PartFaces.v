(** The faces built by each process are those of the mesh. *)
From Coq Require Import List Arith ZArith Lia Permutation String.
From Verif Require Import Arrays Model_Cgns Model_Mapper Model_Metis Model_Partition Model_Part Model_PartFaces
  Spec_Mesh Spec_Metis Spec_Partition Spec_Part Spec_PartFaces Proof_Pipeline.
From Verif Require Spec_Faces Proof_Faces.
Import ListNotations.
Local Open Scope nat_scope.

Local Notation length := List.length.

(** ** Sides of cells *)

Lemma reference_nodes n c : reference n = Some c -> Spec_Faces.n_nodes c = n.
Proof.
  do 9 (destruct n as [|n]; [intros E; try discriminate; inversion E; reflexivity|]). discriminate.
Qed.

Lemma side_size n c pl : reference n = Some c -> In pl (Spec_Faces.planes c) ->
  length (Spec_Faces.nodes_on c pl) = 3 \/ length (Spec_Faces.nodes_on c pl) = 4.
Proof.
  do 9 (destruct n as [|n]; [intros E; try discriminate; inversion E; subst c; intros H; simpl in H;
    repeat (destruct H as [<-|H]; [vm_compute; auto|]); contradiction|]). discriminate.
Qed.

Lemma nodes_on_lt c pl i : In i (Spec_Faces.nodes_on c pl) -> i < Spec_Faces.n_nodes c.
Proof. intros H. apply filter_In in H. destruct H as [H _]. apply in_seq in H. lia. Qed.

Lemma nodes_on_once c pl : NoDup (Spec_Faces.nodes_on c pl).
Proof. apply NoDup_filter, seq_NoDup. Qed.

Lemma sort_side row face : NoDup row -> is_side row face ->
  exists nodes, SortNodesOnFace row face = Some nodes /\ outward_side row nodes /\ Permutation nodes face /\
    (length nodes = 3 \/ length nodes = 4).
Proof.
  intros Hn (c & pl & Hc & Hpl & Hp).
  assert (S : exists sort, SortNodesOnFace row face = sort row face /\ Spec_Faces.sorts c sort).
  { unfold SortNodesOnFace. destruct (length row) as [|[|[|[|[|[|[|[|[|n]]]]]]]]]; try discriminate;
      inversion Hc; subst c; eexists; (split; [reflexivity|]).
    - apply Proof_Faces.tetra4_sorts.
    - apply Proof_Faces.pyramid5_sorts.
    - apply Proof_Faces.wedge6_sorts.
    - apply Proof_Faces.hexa_sorts. simpl; auto. }
  destruct S as (sort & E & S).
  destruct (S row pl face) as (l & Pl & O & Es); auto.
  { rewrite (reference_nodes _ _ Hc). reflexivity. }
  exists (map (fun i => nth i row 0) l). split; [congruence|]. split; [|split].
  - exists c, pl, l. auto.
  - rewrite Hp. apply Permutation_map. exact Pl.
  - rewrite map_length, (Permutation_length Pl). eapply side_size; eauto.
Qed.

Lemma side_in row face k : is_side row face -> In k face -> In k row.
Proof.
  intros (c & pl & Hc & _ & Hp) H. apply (Permutation_in _ Hp) in H. apply in_map_iff in H.
  destruct H as (i & <- & Hi). apply nth_In. rewrite <- (reference_nodes _ _ Hc). eapply nodes_on_lt; eauto.
Qed.

Lemma side_length row face : is_side row face -> length face = 3 \/ length face = 4.
Proof.
  intros (c & pl & Hc & Hpl & Hp). rewrite (Permutation_length Hp), map_length. eapply side_size; eauto.
Qed.

Lemma side_once row face : is_side row face -> NoDup row -> NoDup face.
Proof.
  intros (c & pl & Hc & _ & Hp) Hn. apply (Permutation_NoDup (Permutation_sym Hp)).
  pose proof (nodes_on_once c pl) as N.
  assert (L : forall i, In i (Spec_Faces.nodes_on c pl) -> i < length row).
  { intros i Hi. rewrite <- (reference_nodes _ _ Hc). eapply nodes_on_lt; eauto. }
  clear Hp. induction N as [|i t Hi N IH]; simpl; constructor.
  - intros H. apply in_map_iff in H. destruct H as (j & Ej & Hj).
    apply Hi. replace i with j; auto. apply (proj1 (NoDup_nth row 0) Hn); auto; apply L; simpl; auto.
  - apply IH. intros j Hj. apply L. right; auto.
Qed.

(** numbering the nodes otherwise *)
Section Renumber.
  Context (g : nat -> option nat).
  Lemma mapM_nth_nat l r i : mapM g l = Some r -> i < length l -> g (nth i l 0) = Some (nth i r 0).
  Proof.
    intros H Hi. destruct (nth_error l i) as [x|] eqn:E; [|apply nth_error_None in E; lia].
    destruct (mapM_nth _ _ _ _ _ H E) as (y & Ey & Er).
    rewrite (nth_error_nth _ _ _ E), (nth_error_nth _ _ _ Er). exact Ey.
  Qed.

  Lemma mapM_NoDup l r : mapM g l = Some r -> NoDup r -> NoDup l.
  Proof.
    intros H N. apply (NoDup_nth l 0). intros i j Hi Hj E.
    pose proof (mapM_nth_nat _ _ _ H Hi) as E1. pose proof (mapM_nth_nat _ _ _ H Hj) as E2.
    rewrite E, E2 in E1. inversion E1 as [E3]. symmetry.
    apply (proj1 (NoDup_nth r 0) N); auto; rewrite (mapM_length _ _ _ H); auto.
  Qed.

  Lemma side_renumber row mrow side face : mapM g row = Some mrow -> NoDup mrow -> is_side mrow side ->
    NoDup face ->
    (forall k, In k face <-> In k row /\ exists n, g k = Some n /\ In n side) -> is_side row face.
  Proof.
    intros H N (c & pl & Hc & Hpl & Hp) Nf Hf. pose proof (mapM_length _ _ _ H) as L.
    pose proof (mapM_NoDup _ _ H N) as Nr.
    exists c, pl. split; [rewrite <- L; auto|]. split; auto.
    assert (Li : forall i, In i (Spec_Faces.nodes_on c pl) -> i < length row).
    { intros i Hi. rewrite <- L, <- (reference_nodes _ _ Hc). eapply nodes_on_lt; eauto. }
    apply NoDup_Permutation; auto.
    - assert (S : is_side row (map (fun i => nth i row 0) (Spec_Faces.nodes_on c pl))).
      { exists c, pl. rewrite <- L. auto. }
      eapply side_once; eauto.
    - intros k. rewrite Hf, in_map_iff. split.
      + intros (Hk & n & Hn & Hs). apply (Permutation_in _ Hp), in_map_iff in Hs.
        destruct Hs as (i & Ei & Hi). exists i. split; auto.
        destruct (In_nth _ _ 0 Hk) as (j & Lj & Ej). subst k.
        rewrite (mapM_nth_nat _ _ _ H Lj) in Hn. inversion Hn as [En]. rewrite <- Ei in En.
        f_equal. symmetry. apply (proj1 (NoDup_nth mrow 0) N); auto; rewrite L; auto.
      + intros (i & <- & Hi). split; [apply nth_In; auto|].
        exists (nth i mrow 0). split; [apply mapM_nth_nat; auto|].
        apply (Permutation_in _ (Permutation_sym Hp)). apply in_map_iff. exists i. auto.
  Qed.
End Renumber.

(** ** Common nodes *)
Lemma common_nodes_ok order hr sr : (forall l, Permutation (order l) (nodup Nat.eq_dec l)) ->
  NoDup hr -> NoDup sr ->
  NoDup (common_nodes order hr sr) /\ forall k, In k (common_nodes order hr sr) <-> In k hr /\ In k sr.
Proof.
  intros Ho N1 N2. unfold common_nodes. split.
  - apply NoDup_filter. apply (Permutation_NoDup (Permutation_sym (Ho _))), NoDup_nodup.
  - intros k. rewrite filter_In, Nat.eqb_eq, count_occ_app.
    assert (C : forall l, NoDup l -> (In k l /\ count_occ Nat.eq_dec l k = 1) \/ (~ In k l /\ count_occ Nat.eq_dec l k = 0)).
    { intros l N. destruct (in_dec Nat.eq_dec k l) as [H|H].
      - left. split; auto. apply NoDup_count_occ'; auto.
      - right. split; auto. apply count_occ_not_In; auto. }
    destruct (C hr N1) as [[H1 E1]|[H1 E1]], (C sr N2) as [[H2 E2]|[H2 E2]]; rewrite E1, E2; split;
      try (intros [_ X]; lia); try tauto.
    intros _. split; auto. apply (Permutation_in _ (Permutation_sym (Ho _))), nodup_In, in_app_iff. auto.
Qed.

(** ** Numbers of faces *)
Lemma number_ok {A X} (f : nat -> X -> option (@PartFace A)) (Q : X -> PartFace -> Prop) l :
  (forall id x, In x l -> exists y, f id x = Some y /\ f_id y = id /\ Q x y) ->
  forall id, exists ys, number f id l = Some ys /\ map f_id ys = seq id (length ys) /\ Forall2 Q l ys.
Proof.
  induction l as [|x t IH]; intros H id; simpl.
  - exists []. repeat split; auto.
  - destruct (H id x (or_introl eq_refl)) as (y & E & Ei & Hq). rewrite E. cbn [bind].
    destruct (IH (fun i x' Hx => H i x' (or_intror Hx)) (S id)) as (ys & E' & Es & F). rewrite E'. cbn [bind].
    exists (y :: ys). split; auto. split; [simpl; congruence|auto].
Qed.

Lemma Forall2_map_eq {X Y Z} (f : X -> Z) (g : Y -> Z) (Q : X -> Y -> Prop) l l' :
  Forall2 Q l l' -> (forall x y, Q x y -> g y = f x) -> map g l' = map f l.
Proof. induction 1; intros H1; simpl; auto. rewrite IHForall2 by auto. f_equal. auto. Qed.

Lemma Forall2_In_r {X Y} (Q : X -> Y -> Prop) l l' y : Forall2 Q l l' -> In y l' -> exists x, In x l /\ Q x y.
Proof.
  induction 1 as [|a b t t' H F IH]; intros Hy; [contradiction|].
  destruct Hy as [<-|Hy]; [exists a; split; [left|]; auto|].
  destruct (IH Hy) as (x & Hx & Hq). exists x. split; [right|]; auto.
Qed.

(** ** The holder of a boundary face *)
Lemma holder_loop_ok npe cnt keys m : In m keys -> cnt m = npe -> (forall k, In k keys -> cnt k <= npe) ->
  (forall k, In k keys -> cnt k = npe -> k = m) -> holder_loop npe cnt keys = Some m.
Proof.
  induction keys as [|k t IH]; simpl; intros H E Hle Hu; [contradiction|].
  destruct (Nat.ltb_spec npe (cnt k)) as [L|L]; [specialize (Hle k (or_introl eq_refl)); lia|].
  destruct (Nat.eqb_spec (cnt k) npe) as [Ek|Ne]; [f_equal; apply Hu; auto|].
  destruct H as [->|H]; [contradiction|]. apply IH; auto.
Qed.

Section Process.
  Context {A : Type} (inj : nat -> A).
  Variable order : list nat -> list nat.
  Hypothesis Ho : forall l, Permutation (order l) (nodup Nat.eq_dec l).
  Variables (cell_dim : Z) (n_parts : nat) (graph : Graph) (cell_parts node_parts : list nat).
  Variables (zs : list (Zone A)) (mp : Mapper) (mesh : MetisMesh) (files : list PartFile).
  Hypothesis GF : good_files cell_dim n_parts graph cell_parts node_parts mesh zs mp files.
  Hypothesis V : valid_mapper cell_dim zs mp.
  Hypothesis IX : indexed inj zs mp mesh.
  Hypothesis Lc : length cell_parts = length (m2c_cells mp).
  Hypothesis Gr : wf_graph graph (length (m2c_cells mp)).
  Hypothesis Simple : simple_cells mesh.
  Hypothesis Sides : forall i j ri rj, nbr graph i j -> csr_row mesh i = Some ri -> csr_row mesh j = Some rj ->
    i <> j /\ exists side, is_side ri side /\ forall k, In k side <-> In k ri /\ In k rj.
  Hypothesis Bound : forall z s sec f row m rm,
    (do zn <- at1 zs z; at1 (z_sections zn) s) = Some sec -> (s_dim sec + 1 = cell_dim)%Z ->
    metis_row zs mp z s f = Some row -> in_cell mesh row m -> csr_row mesh m = Some rm ->
    is_side rm row /\ forall m', in_cell mesh row m' -> m' = m.
  Variables (p : nat) (f : PartFile) (cells : list LocalCell) (ghosts : list (nat * (nat * list nat)))
    (st : @NodeStore A).
  Hypothesis Hf : nth_error files p = Some f.
  Hypothesis GC : good_cells cell_parts graph zs mp p (cells, ghosts).
  Hypothesis NF : forall m z row i, needs_cell cell_parts graph p m -> cell_nodes zs mp m = Some (z, row) ->
    In i row -> exists v, node_coords zs z i = Some v /\ GetCoord st z i = Some v.
  Hypothesis Once : NoDup (pf_inner f) /\ NoDup (ghost_pairs f).
  Hypothesis Shape : length (pf_faces f) = length zs /\
    forall z zn, at1 zs z = Some zn -> exists l, at1 (pf_faces f) z = Some l /\
      length l = length (z_sections zn) /\
      forall s sec r, at1 (z_sections zn) s = Some sec -> at1 l s = Some r ->
        ((s_dim sec + 1 <> cell_dim)%Z -> r = None).

  (** *** Cells *)
  Lemma rows_of m : m < length cell_parts -> exists z s c row mrow,
    nth_error (m2c_cells mp) m = Some (z, s, c) /\ cell_nodes zs mp m = Some (z, row) /\
    mapM (node_of mp z) row = Some mrow /\ csr_row mesh m = Some mrow.
  Proof.
    intros Hm. rewrite Lc in Hm. destruct (nth_error_lt_some _ _ Hm) as [[[z s] c] Em].
    apply (vm_cells _ _ _ V) in Em as Ec.
    destruct (ix_cells _ _ _ _ IX z s c m Ec) as (zn & fl & mrow & Hz & _ & _ & Hr & Hcsr).
    unfold metis_row in Hr. rewrite Hz in Hr. cbn [bind] in Hr.
    destruct (at1 (z_sections zn) s) as [sec|] eqn:Es; [|discriminate]. cbn [bind] in Hr.
    destruct (cell_row sec c) as [row|] eqn:Er; [|discriminate]. cbn [bind] in Hr.
    exists z, s, c, row, mrow. split; auto. split; [|auto].
    unfold cell_nodes. rewrite Em. cbn [bind]. rewrite Hz. cbn [bind]. rewrite Es. cbn [bind].
    rewrite Er. reflexivity.
  Qed.

  Lemma row_of m z row : cell_nodes zs mp m = Some (z, row) -> exists mrow,
    mapM (node_of mp z) row = Some mrow /\ csr_row mesh m = Some mrow /\ NoDup mrow /\ NoDup row.
  Proof.
    intros H. assert (Hm : m < length cell_parts).
    { rewrite Lc. unfold cell_nodes in H. destruct (nth_error (m2c_cells mp) m) as [x|] eqn:E; [|discriminate].
      eapply nth_error_some_lt; eauto. }
    destruct (rows_of m Hm) as (z' & s & c & row' & mrow & _ & E & Em & Er).
    rewrite H in E. inversion E; subst z' row'. exists mrow. split; auto. split; auto.
    pose proof (Simple m mrow Er) as N. split; auto. eapply mapM_NoDup; eauto.
  Qed.

  Lemma node_zone z i z' i' k : node_of mp z i = Some k -> node_of mp z' i' = Some k -> z = z' /\ i = i'.
  Proof.
    intros H H'. apply (vm_nodes _ _ _ V) in H. apply (vm_nodes _ _ _ V) in H'.
    rewrite H in H'. inversion H'; auto.
  Qed.

  (** common METIS nodes are common CGNS nodes *)
  Lemma nbr_rows i j : nbr graph i j -> exists z ri rj, i <> j /\
    cell_nodes zs mp i = Some (z, ri) /\ cell_nodes zs mp j = Some (z, rj) /\ NoDup ri /\ NoDup rj /\
    forall face, NoDup face -> (forall k, In k face <-> In k ri /\ In k rj) -> is_side ri face.
  Proof.
    intros H. destruct (wg_lt _ _ Gr i j H) as [Li Lj]. rewrite <- Lc in Li, Lj.
    destruct (rows_of i Li) as (zi & _ & _ & ri & mi & _ & Ei & Mi & Ri).
    destruct (rows_of j Lj) as (zj & _ & _ & rj & mj & _ & Ej & Mj & Rj).
    destruct (Sides i j mi mj H Ri Rj) as (Hne & side & S & HS).
    destruct (row_of i zi ri Ei) as (_ & _ & _ & _ & Ni). destruct (row_of j zj rj Ej) as (_ & _ & _ & _ & Nj).
    assert (zi = zj) as ->.
    { assert (X : exists k, In k side).
      { destruct side as [|k t]; [|exists k; left; auto]. destruct (side_length _ _ S); discriminate. }
      destruct X as [k Hk]. apply HS in Hk. destruct Hk as [K1 K2].
      destruct (mapM_In _ _ _ _ Mi K1) as (a & _ & Ea). destruct (mapM_In _ _ _ _ Mj K2) as (b & _ & Eb).
      destruct (node_zone _ _ _ _ _ Ea Eb); auto. }
    exists zj, ri, rj. repeat (split; [assumption|]).
    intros face Nf HF. apply (side_renumber (node_of mp zj) ri mi side face); auto.
    - apply (Simple i); auto.
    - intros k. rewrite HF. split.
      + intros [K1 K2]. split; auto. destruct (mapM_In' _ _ _ _ Mi K1) as (n & En & Hn).
        destruct (mapM_In' _ _ _ _ Mj K2) as (n' & En' & Hn'). rewrite En in En'. inversion En'; subst n'.
        exists n. split; auto. apply HS. auto.
      + intros (K1 & n & En & Hn). split; auto. apply HS in Hn. destruct Hn as [_ Hn].
        destruct (mapM_In _ _ _ _ Mj Hn) as (k' & Hk' & Ek'). destruct (node_zone _ _ _ _ _ En Ek') as [_ ->]. auto.
  Qed.

  Lemma find_cell_held m : nth_error cell_parts m = Some p -> exists c, find_cell cells m = Some c /\
    lc_metis c = m /\ In c cells.
  Proof.
    intros Hm. destruct (rows_of m) as (z & s & c & row & mrow & E1 & E2 & _ & _).
    { eapply nth_error_some_lt; eauto. }
    assert (I : In (mkCell m z s c row) cells).
    { apply (gc_local _ _ _ _ _ _ GC). cbn. auto. }
    unfold find_cell. destruct (List.find (fun c => lc_metis c =? m) cells) as [x|] eqn:E.
    - apply find_some in E. destruct E as [Ix E]. apply Nat.eqb_eq in E. eauto.
    - apply (find_none _ _ E) in I. cbn in I. rewrite Nat.eqb_refl in I. discriminate.
  Qed.

  Lemma held c : In c cells -> nth_error cell_parts (lc_metis c) = Some p /\
    nth_error (m2c_cells mp) (lc_metis c) = Some (lc_zone c, lc_sect c, lc_cell c) /\
    cell_nodes zs mp (lc_metis c) = Some (lc_zone c, lc_nodes c).
  Proof. apply (gc_local _ _ _ _ _ _ GC). Qed.

  Lemma held_eq c c' : In c cells -> In c' cells -> lc_metis c = lc_metis c' -> c = c'.
  Proof.
    intros H H' E. destruct (held c H) as (_ & P1 & R1). destruct (held c' H') as (_ & P2 & R2).
    rewrite E in P1, R1. rewrite P1 in P2. rewrite R1 in R2. destruct c, c'. cbn in *. congruence.
  Qed.

  Lemma cell_at_held c : In c cells -> cell_at cells (lc_zone c) (lc_sect c) (lc_cell c) = Some c.
  Proof.
    intros H. unfold cell_at.
    destruct (List.find (fun x => (lc_zone x =? lc_zone c) && (lc_sect x =? lc_sect c) && (lc_cell x =? lc_cell c))%bool cells)
      as [x|] eqn:E.
    - apply find_some in E. destruct E as [Ix E]. apply andb_prop in E. destruct E as [E E3].
      apply andb_prop in E. destruct E as [E1 E2]. apply Nat.eqb_eq in E1, E2, E3.
      f_equal. apply held_eq; auto. destruct (held c H) as (_ & P1 & _). destruct (held x Ix) as (_ & P2 & _).
      apply (vm_cells _ _ _ V) in P1. apply (vm_cells _ _ _ V) in P2. rewrite E1, E2, E3 in P2. congruence.
    - apply (find_none _ _ E) in H. rewrite !Nat.eqb_refl in H. discriminate.
  Qed.

  Lemma coords_ok m z row nodes : needs_cell cell_parts graph p m -> cell_nodes zs mp m = Some (z, row) ->
    (forall k, In k nodes -> In k row) -> length nodes = 3 \/ length nodes = 4 ->
    exists xs, BuildGaussForFace st z nodes = Some xs /\ mapM (node_coords zs z) nodes = Some xs.
  Proof.
    intros Hm Hc Hin L.
    assert (E : mapM (GetCoord st z) nodes = mapM (node_coords zs z) nodes /\
                exists xs, mapM (node_coords zs z) nodes = Some xs).
    { clear L. induction nodes as [|k t IH]; simpl; [eauto|].
      destruct (NF m z row k Hm Hc) as (v & E1 & E2); [apply Hin; left; auto|].
      destruct IH as (E & xs & Ex); [intros; apply Hin; right; auto|].
      rewrite E1, E2, E, Ex. eauto. }
    destruct E as (E & xs & Ex). exists xs. split; auto. unfold BuildGaussForFace.
    destruct L as [-> | ->]; rewrite E; exact Ex.
  Qed.

  (** *** Local and ghost faces *)
  Lemma local_face_ok id i j : In (i, j) (pf_inner f) -> exists F,
    local_face order cells st id (i, j) = Some F /\ f_id F = id /\ face_between zs mp F i j.
  Proof.
    intros H. apply (gf_inner _ _ _ _ _ _ _ _ _ GF p f i j Hf) in H. destruct H as (Hn & _ & Hi & Hj).
    destruct (nbr_rows i j Hn) as (z & ri & rj & _ & Ei & Ej & Ni & Nj & HS).
    destruct (find_cell_held i Hi) as (ci & Fi & Mi & Ii). destruct (find_cell_held j Hj) as (cj & Fj & Mj & Ij).
    destruct (held ci Ii) as (_ & _ & Ri). destruct (held cj Ij) as (_ & _ & Rj). rewrite Mi, Ei in Ri. rewrite Mj, Ej in Rj.
    injection Ri as Zi Ri. injection Rj as Zj Rj.
    unfold local_face. cbn [fst snd]. rewrite Fi. cbn [bind]. rewrite Fj. cbn [bind].
    rewrite (cell_at_held ci Ii). cbn [bind].
    replace (lc_zone ci) with (lc_zone cj) by congruence. rewrite (cell_at_held cj Ij). cbn [bind].
    rewrite <- Ri, <- Rj, <- Zj.
    destruct (common_nodes_ok order ri rj Ho Ni Nj) as [Nc Hc].
    destruct (sort_side ri _ Ni (HS _ Nc Hc)) as (nodes & Es & Os & Ps & L). rewrite Es. cbn [bind].
    assert (Hin : forall k, In k nodes <-> In k ri /\ In k rj).
    { intros k. rewrite <- Hc. split; apply Permutation_in; [auto|apply Permutation_sym; auto]. }
    destruct (coords_ok i z ri nodes (or_introl Hi) Ei) as (xs & B & Cx); [intros k Hk; apply Hin; auto|auto|].
    rewrite B. cbn [bind]. eexists; split; [reflexivity|]. split; [reflexivity|].
    split; [exact Mi|]. split; [cbn; congruence|]. cbn [f_zone f_nodes f_coords].
    exists ri, rj. repeat (split; [assumption|]). split; [|auto].
    apply (Permutation_NoDup (Permutation_sym Ps)). auto.
  Qed.

  Lemma ghost_face_ok id i j : In (i, j) (ghost_pairs f) -> exists F,
    ghost_face order cells ghosts st id (i, j) = Some F /\ f_id F = id /\ face_between zs mp F i j.
  Proof.
    intros H. unfold ghost_pairs in H. apply in_map_iff in H. destruct H as ([[[[q i'] j'] ni] nj] & E & H).
    inversion E; subst i' j'. clear E.
    apply (gf_inter _ _ _ _ _ _ _ _ _ GF p f q i j ni nj Hf) in H. destruct H as (Hn & Hpq & Hi & Hj & _).
    destruct (nbr_rows i j Hn) as (z & ri & rj & _ & Ei & Ej & Ni & Nj & HS).
    destruct (find_cell_held i Hi) as (ci & Fi & Mi & Ii).
    destruct (held ci Ii) as (_ & _ & Ri). rewrite Mi, Ei in Ri. injection Ri as Zi Ri.
    assert (Lg : lookup j ghosts = Some (z, rj)).
    { assert (I : In (j, (z, rj)) ghosts).
      { apply (gc_ghost _ _ _ _ _ _ GC). split; [|split; auto; congruence].
        right. exists i, q. auto. }
      pose proof (gc_ghost_once _ _ _ _ _ _ GC) as N. cbn [snd] in N. clear -I N.
      induction ghosts as [|[k v] t IH]; [contradiction|]. simpl in *. inversion N; subst.
      destruct I as [I|I].
      - inversion I; subst. rewrite Nat.eqb_refl. reflexivity.
      - destruct (Nat.eqb_spec j k) as [->|Ne]; auto. exfalso. apply H1. apply (in_map fst) in I. exact I. }
    unfold ghost_face. cbn [fst snd]. rewrite Fi. cbn [bind]. rewrite Lg. cbn [bind].
    rewrite (cell_at_held ci Ii). cbn [bind]. rewrite <- Ri, <- Zi.
    destruct (common_nodes_ok order ri rj Ho Ni Nj) as [Nc Hc].
    destruct (sort_side ri _ Ni (HS _ Nc Hc)) as (nodes & Es & Os & Ps & L). rewrite Es. cbn [bind].
    assert (Hin : forall k, In k nodes <-> In k ri /\ In k rj).
    { intros k. rewrite <- Hc. split; apply Permutation_in; [auto|apply Permutation_sym; auto]. }
    destruct (coords_ok i z ri nodes (or_introl Hi) Ei) as (xs & B & Cx); [intros k Hk; apply Hin; auto|auto|].
    rewrite B. cbn [bind]. eexists; split; [reflexivity|]. split; [reflexivity|].
    split; [exact Mi|]. split; [reflexivity|]. cbn [f_zone f_nodes f_coords].
    exists ri, rj. repeat (split; [assumption|]). split; [|auto].
    apply (Permutation_NoDup (Permutation_sym Ps)). auto.
  Qed.

  (** *** Boundary faces *)
  Definition shared (row nodes : list nat) : nat :=
    length (filter (fun k => if in_dec Nat.eq_dec k nodes then true else false) row).

  Lemma shared_le row nodes : shared row nodes <= length row.
  Proof. unfold shared. induction row as [|k t IH]; simpl; auto. destruct (in_dec _ _ _); simpl; lia. Qed.

  Lemma shared_all row nodes : shared row nodes = length row <-> forall k, In k row -> In k nodes.
  Proof.
    unfold shared. induction row as [|k t IH]; simpl; [split; auto; contradiction|].
    pose proof (shared_le t nodes) as L. unfold shared in L.
    destruct (in_dec Nat.eq_dec k nodes) as [H|H]; simpl; split.
    - intros E k' [<-|Hk]; auto. apply IH; auto.
    - intros X. f_equal. apply IH. auto.
    - intros E. lia.
    - intros X. exfalso. apply H. auto.
  Qed.

  Lemma count_node z k c : In c cells -> lc_zone c = z ->
    count_occ Nat.eq_dec (cells_of_node cells z k) (lc_metis c) = if in_dec Nat.eq_dec k (lc_nodes c) then 1 else 0.
  Proof.
    intros Hc Hz. pose proof (gc_local_once _ _ _ _ _ _ GC) as N. cbn [fst] in N.
    assert (NC : NoDup (lc_nodes c)).
    { destruct (held c Hc) as (_ & _ & R). destruct (row_of _ _ _ R) as (_ & _ & _ & _ & X). auto. }
    unfold cells_of_node. clear -Hc Hz N NC. induction cells as [|x t IH]; [contradiction|].
    simpl in N. inversion N; subst. simpl. rewrite count_occ_app.
    assert (R : forall m n, count_occ Nat.eq_dec (repeat m n) (lc_metis c) = if Nat.eq_dec m (lc_metis c) then n else 0).
    { intros m n. induction n as [|n IHn]; simpl; [destruct (Nat.eq_dec _ _); auto|].
      destruct (Nat.eq_dec m (lc_metis c)); rewrite IHn; auto. }
    destruct Hc as [->|Hc].
    - rewrite Nat.eqb_refl, R. destruct (Nat.eq_dec (lc_metis c) (lc_metis c)) as [_|X]; [|contradiction].
      replace (count_occ Nat.eq_dec (flat_map _ t) (lc_metis c)) with 0.
      + rewrite Nat.add_0_r. destruct (in_dec Nat.eq_dec k (lc_nodes c)) as [X|X].
        * apply NoDup_count_occ'; auto.
        * apply count_occ_not_In; auto.
      + symmetry. apply count_occ_not_In. intros X. apply in_flat_map in X. destruct X as (y & Hy & X).
        destruct (lc_zone y =? lc_zone c); [|contradiction]. apply repeat_spec in X. apply H1. rewrite X. apply in_map; auto.
    - rewrite IH by auto. replace (count_occ Nat.eq_dec (if lc_zone x =? lc_zone c then _ else []) (lc_metis c)) with 0; auto.
      destruct (lc_zone x =? lc_zone c); auto. rewrite R.
      destruct (Nat.eq_dec (lc_metis x) (lc_metis c)) as [X|X]; auto. exfalso. apply H1. rewrite X. apply in_map; auto.
  Qed.

  Lemma count_users z row c : In c cells -> lc_zone c = z ->
    count_occ Nat.eq_dec (flat_map (cells_of_node cells z) row) (lc_metis c) = shared row (lc_nodes c).
  Proof.
    intros Hc Hz. unfold shared. induction row as [|k t IH]; simpl; auto.
    rewrite count_occ_app, IH, (count_node z k c Hc Hz). destruct (in_dec _ _ _); auto.
  Qed.

  Lemma users_held z row m : In m (flat_map (cells_of_node cells z) row) ->
    exists c, In c cells /\ lc_zone c = z /\ lc_metis c = m.
  Proof.
    intros H. apply in_flat_map in H. destruct H as (k & _ & H). unfold cells_of_node in H.
    apply in_flat_map in H. destruct H as (c & Hc & H). destruct (Nat.eqb_spec (lc_zone c) z); [|contradiction].
    apply repeat_spec in H. eauto.
  Qed.

  Definition is_bound_section z s sec : Prop :=
    (do zn <- at1 zs z; at1 (z_sections zn) s) = Some sec /\ (s_dim sec + 1 = cell_dim)%Z.

  Lemma metis_row_eq z s sec c row : (do zn <- at1 zs z; at1 (z_sections zn) s) = Some sec ->
    cell_row sec c = Some row -> metis_row zs mp z s c = mapM (node_of mp z) row.
  Proof.
    intros H E. unfold metis_row. destruct (at1 zs z) as [zn|]; [|discriminate]. cbn [bind] in *.
    rewrite H. cbn [bind]. rewrite E. reflexivity.
  Qed.

  Lemma boundary_face_ok id z s sec c m row mrow : is_bound_section z s sec -> cell_row sec c = Some row ->
    metis_row zs mp z s c = Some mrow -> in_cell mesh mrow m -> nth_error cell_parts m = Some p ->
    exists F, boundary_face order cells st z id row = Some F /\ f_id F = id /\
      forall c', cell_row sec c' = Some row -> face_at zs mp mesh z s sec c' m F.
  Proof.
    intros [HS Hd] Er Em Hm Hp. rewrite (metis_row_eq z s sec c row HS Er) in Em.
    destruct (find_cell_held m Hp) as (h & Fh & Mh & Ih). destruct (held h Ih) as (_ & _ & Rh). rewrite Mh in Rh.
    destruct (row_of m _ _ Rh) as (mr & Emr & Ecsr & Nm & Nr).
    destruct (Bound z s sec c mrow m mr HS Hd) as (Sd & U); auto.
    { rewrite (metis_row_eq z s sec c row HS Er). auto. }
    assert (Hz : lc_zone h = z).
    { assert (X : exists k, In k mrow).
      { destruct mrow as [|k t]; [|exists k; left; auto]. destruct (side_length _ _ Sd); discriminate. }
      destruct X as [k Hk]. destruct (mapM_In _ _ _ _ Em Hk) as (a & _ & Ea).
      destruct (Hm k Hk) as (mr' & Er' & Hk'). rewrite Ecsr in Er'. inversion Er'; subst mr'.
      destruct (mapM_In _ _ _ _ Emr Hk') as (b & _ & Eb). destruct (node_zone _ _ _ _ _ Ea Eb); auto. }
    (* nodes of the face in a cell of this zone *)
    assert (IC : forall x, In x cells -> lc_zone x = z -> (forall k, In k row -> In k (lc_nodes x)) -> lc_metis x = m).
    { intros x Hx Zx Hk. apply U. destruct (held x Hx) as (_ & _ & Rx).
      destruct (row_of _ _ _ Rx) as (mx & Emx & Ecx & _). intros n Hn.
      destruct (mapM_In _ _ _ _ Em Hn) as (k & Ik & Ek). exists mx. split; auto.
      destruct (mapM_In' _ _ _ _ Emx (Hk k Ik)) as (n' & En' & In'). rewrite Zx, Ek in En'. congruence. }
    assert (RH : forall k, In k row -> In k (lc_nodes h)).
    { intros k Hk. destruct (mapM_In' _ _ _ _ Em Hk) as (n & En & Hn).
      destruct (Hm n Hn) as (mr' & Er' & Hn'). rewrite Ecsr in Er'. inversion Er'; subst mr'.
      destruct (mapM_In _ _ _ _ Emr Hn') as (k' & Hk' & Ek'). destruct (node_zone _ _ _ _ _ En Ek') as [_ ->]. auto. }
    unfold boundary_face.
    assert (HL : holder_loop (length row) (count_occ Nat.eq_dec (flat_map (cells_of_node cells z) row))
                   (order (flat_map (cells_of_node cells z) row)) = Some m).
    { assert (K : forall k, In k (order (flat_map (cells_of_node cells z) row)) -> In k (flat_map (cells_of_node cells z) row)).
      { intros k Hk. apply (Permutation_in _ (Ho _)), nodup_In in Hk. auto. }
      apply holder_loop_ok.
      - apply (Permutation_in _ (Permutation_sym (Ho _))), nodup_In.
        apply (count_occ_In Nat.eq_dec). rewrite <- Mh, (count_users z row h Ih Hz).
        rewrite (proj2 (shared_all row (lc_nodes h)) RH).
        rewrite <- (mapM_length _ _ _ Em). destruct (side_length _ _ Sd); lia.
      - rewrite <- Mh, (count_users z row h Ih Hz). apply shared_all. auto.
      - intros k Hk. destruct (users_held z row k (K k Hk)) as (x & Hx & Zx & <-).
        rewrite (count_users z row x Hx Zx). apply shared_le.
      - intros k Hk Ek. destruct (users_held z row k (K k Hk)) as (x & Hx & Zx & <-).
        rewrite (count_users z row x Hx Zx) in Ek. apply IC; auto. apply shared_all; auto. }
    rewrite HL. cbn [bind]. rewrite Fh. cbn [bind]. rewrite (cell_at_held h Ih). cbn [bind].
    assert (SR : is_side (lc_nodes h) row).
    { apply (side_renumber (node_of mp z) (lc_nodes h) mr mrow row); auto.
      - rewrite <- Hz. auto.
      - apply (mapM_NoDup (node_of mp z) row mrow Em). eapply side_once; eauto.
      - intros k. split.
        + intros Hk. split; auto. destruct (mapM_In' _ _ _ _ Em Hk) as (n & En & Hn). eauto.
        + intros (_ & n & En & Hn). destruct (mapM_In _ _ _ _ Em Hn) as (k' & Hk' & Ek').
          destruct (node_zone _ _ _ _ _ En Ek') as [_ ->]. auto. }
    destruct (sort_side _ _ Nr SR) as (nodes & Es & Os & Ps & L). rewrite Es. cbn [bind].
    rewrite Hz in Rh.
    destruct (coords_ok m z (lc_nodes h) nodes (or_introl Hp) Rh) as (xs & B & Cx); [|auto|].
    { intros k Hk. apply RH. apply (Permutation_in _ Ps). auto. }
    rewrite B. cbn [bind]. eexists; split; [reflexivity|]. split; [reflexivity|].
    intros c' Ec'. split; [exact Mh|]. split; [reflexivity|]. split; [reflexivity|]. split.
    - exists mrow. split; auto. rewrite (metis_row_eq z s sec c' row HS Ec'). auto.
    - exists row, (lc_nodes h). cbn. auto.
  Qed.

  (** what one line of the file gives *)
  Definition section_result (z s : nat) (sec : Section) (r : option (nat * nat)) (l : list (@BoundFaces A)) : Prop :=
    match r with
    | None => l = []
    | Some (h, t) => exists fs, l = [mkBound z s (s_name sec) fs] /\
        Forall2 (fun c F => exists m, nth_error cell_parts m = Some p /\ face_at zs mp mesh z s sec c m F)
          (seq h (t - h)) fs
    end.

  Definition ids_from (id : nat) (l : list (@BoundFaces A)) : Prop :=
    map f_id (flat_map b_faces l) = seq id (count_faces l).

  Lemma count_faces_length (l : list (@BoundFaces A)) : count_faces l = length (flat_map b_faces l).
  Proof.
    unfold count_faces. induction l as [|b t IH]; simpl; auto. rewrite app_length, IH. reflexivity.
  Qed.

  Lemma count_faces_app (l l' : list (@BoundFaces A)) : count_faces (l ++ l') = count_faces l + count_faces l'.
  Proof. unfold count_faces. rewrite map_app, list_sum_app. reflexivity. Qed.

  Lemma ids_from_app id l l' : ids_from id l -> ids_from (id + count_faces l) l' -> ids_from id (l ++ l').
  Proof.
    unfold ids_from. intros H H'. rewrite flat_map_app, map_app, H, H', count_faces_app.
    rewrite seq_app. reflexivity.
  Qed.

  Lemma section_faces_ok z s sec r id : (do zn <- at1 zs z; at1 (z_sections zn) s) = Some sec ->
    (do l <- at1 (pf_faces f) z; at1 l s) = Some r ->
    exists l, section_faces order cells st z s id sec r = Some l /\ ids_from id l /\ section_result z s sec r l.
  Proof.
    intros HS Hr. destruct r as [[h t]|]; [|exists []; repeat split; reflexivity].
    assert (Hd : (s_dim sec + 1 = cell_dim)%Z).
    { destruct (Z.eq_dec (s_dim sec + 1) cell_dim) as [E|E]; auto. exfalso.
      destruct Shape as [_ Sh]. destruct (at1 zs z) as [zn|] eqn:Ez; [|discriminate]. cbn [bind] in HS.
      destruct (Sh z zn Ez) as (l & El & _ & Hl). rewrite El in Hr. cbn [bind] in Hr.
      specialize (Hl s sec _ HS Hr E). discriminate. }
    destruct (gf_faces _ _ _ _ _ _ _ _ _ GF p f z s sec Hf HS Hd) as (h' & t' & Er & Hle & Hc).
    rewrite Hr in Er. inversion Er; subst h' t'. clear Er.
    assert (HR : forall c, In c (seq h (t - h)) -> exists row mrow m, cell_row sec c = Some row /\
      metis_row zs mp z s c = Some mrow /\ in_cell mesh mrow m /\ nth_error cell_parts m = Some p).
    { intros c Ic. apply in_seq in Ic. destruct (proj1 (Hc c)) as (mrow & m & E & I & Pm); [lia|].
      pose proof E as E'. unfold metis_row in E'. destruct (at1 zs z) as [zn|]; [|discriminate]. cbn [bind] in *.
      rewrite HS in E'. cbn [bind] in E'. destruct (cell_row sec c) as [row|]; [|discriminate]. eauto 10. }
    unfold section_faces.
    destruct (mapM (cell_row sec) (seq h (t - h))) as [rows|] eqn:Em.
    2: { exfalso. clear -HR Em. induction (seq h (t - h)) as [|c u IH]; simpl in Em; [discriminate|].
         destruct (HR c (or_introl eq_refl)) as (row & _ & _ & E & _). rewrite E in Em.
         destruct (mapM (cell_row sec) u) eqn:Eu; [discriminate|]. apply IH; auto.
         intros; apply HR; right; auto. }
    cbn [bind].
    set (Q := fun row F => exists m, nth_error cell_parts m = Some p /\
                forall c', cell_row sec c' = Some row -> face_at zs mp mesh z s sec c' m F).
    destruct (number_ok (boundary_face order cells st z) Q rows) with (id := id) as (fs & E & Ei & F2).
    { intros i row Hrow. destruct (mapM_In _ _ _ _ Em Hrow) as (c & Ic & Ec).
      destruct (HR c Ic) as (row' & mrow & m & E1 & E2 & E3 & E4). rewrite Ec in E1. inversion E1; subst row'.
      destruct (boundary_face_ok i z s sec c m row mrow (conj HS Hd) Ec E2 E3 E4) as (F & B1 & B2 & B3).
      exists F. split; auto. split; auto. exists m. auto. }
    rewrite E. cbn [bind]. eexists; split; [reflexivity|]. split.
    - unfold ids_from, count_faces. simpl. rewrite app_nil_r, Nat.add_0_r. exact Ei.
    - exists fs. split; auto. clear -Em F2. revert rows fs Em F2.
      induction (seq h (t - h)) as [|c u IH]; simpl; intros rows fs Em F2.
      + inversion Em; subst. inversion F2; subst. constructor.
      + destruct (cell_row sec c) as [row|] eqn:Ec; [|discriminate].
        destruct (mapM (cell_row sec) u) as [rs|]; [|discriminate]. inversion Em; subst.
        inversion F2; subst. constructor; [|eauto].
        destruct H1 as (m & H1 & H2). exists m. auto.
  Qed.

  Definition place (b : @BoundFaces A) : nat * nat := (b_zone b, b_sect b).

  Lemma section_result_in z s sec r l b : section_result z s sec r l -> In b l ->
    b_zone b = z /\ b_sect b = s.
  Proof.
    unfold section_result. destruct r as [[h t]|].
    - intros (fs & -> & _) [<-|[]]. auto.
    - intros -> [].
  Qed.

  Lemma zone_faces_ok z : forall ss rs s id, length rs = length ss ->
    (forall k sec r, nth_error ss k = Some sec -> nth_error rs k = Some r ->
       (do zn <- at1 zs z; at1 (z_sections zn) (s + k)) = Some sec /\
       (do l <- at1 (pf_faces f) z; at1 l (s + k)) = Some r) ->
    exists l, zone_faces order cells st z s id ss rs = Some l /\ ids_from id l /\ NoDup (map place l) /\
      (forall b, In b l -> exists k sec r l', nth_error ss k = Some sec /\ nth_error rs k = Some r /\
         section_result z (s + k) sec r l' /\ In b l') /\
      (forall k sec r, nth_error ss k = Some sec -> nth_error rs k = Some r ->
         exists l', section_result z (s + k) sec r l' /\ incl l' l).
  Proof.
    induction ss as [|sec ss IH]; intros rs s id L H; destruct rs as [|r rs]; try discriminate.
    - exists []. split; auto. split; [reflexivity|]. split; [constructor|]. split; [intros b []|].
      intros [|k]; discriminate.
    - destruct (H 0 sec r eq_refl eq_refl) as [H1 H2]. rewrite Nat.add_0_r in H1, H2.
      destruct (section_faces_ok z s sec r id H1 H2) as (l & E & I & SR).
      destruct (IH rs (S s) (id + count_faces l)) as (l' & E' & I' & N' & B' & A'); [simpl in L; lia| |].
      { intros k sec' r' K1 K2. specialize (H (S k) sec' r' K1 K2). rewrite <- plus_n_Sm in H. exact H. }
      exists (l ++ l'). simpl. rewrite E. cbn [bind]. rewrite E'. cbn [bind].
      split; auto. split; [apply ids_from_app; auto|]. split; [|split].
      + rewrite map_app. apply NoDup_app_intro; auto.
        * destruct r as [[h t]|]; simpl in SR.
          -- destruct SR as (fs & -> & _). repeat constructor; auto.
          -- subst l. constructor.
        * intros x Hx Hx'. apply in_map_iff in Hx. destruct Hx as (b & <- & Hb).
          apply in_map_iff in Hx'. destruct Hx' as (b' & Eb & Hb').
          destruct (section_result_in _ _ _ _ _ _ SR Hb) as [_ S1].
          destruct (B' b' Hb') as (k & sec' & r' & l'' & _ & _ & SR' & Hb'').
          destruct (section_result_in _ _ _ _ _ _ SR' Hb'') as [_ S2].
          unfold place in Eb. inversion Eb. lia.
      + intros b Hb. apply in_app_iff in Hb. destruct Hb as [Hb|Hb].
        * exists 0, sec, r, l. rewrite Nat.add_0_r. auto.
        * destruct (B' b Hb) as (k & sec' & r' & l'' & K1 & K2 & K3 & K4).
          exists (S k), sec', r', l''. rewrite <- plus_n_Sm. auto.
      + intros [|k] sec' r' K1 K2.
        * inversion K1; inversion K2; subst. exists l. rewrite Nat.add_0_r. split; auto. apply incl_appl, incl_refl.
        * destruct (A' k sec' r' K1 K2) as (l'' & SR' & Il). exists l''. rewrite <- plus_n_Sm. split; auto.
          apply incl_appr. auto.
  Qed.
  Hypothesis HasCells : forall z zn, at1 zs z = Some zn -> exists s sec,
    at1 (z_sections zn) s = Some sec /\ s_dim sec = cell_dim.

  Definition good_bound (b : @BoundFaces A) : Prop := exists sec h t,
    (do zn <- at1 zs (b_zone b); at1 (z_sections zn) (b_sect b)) = Some sec /\
    (do l <- at1 (pf_faces f) (b_zone b); at1 l (b_sect b)) = Some (Some (h, t)) /\
    b_name b = s_name sec /\
    Forall2 (fun c F => exists m, nth_error cell_parts m = Some p /\
      face_at zs mp mesh (b_zone b) (b_sect b) sec c m F) (seq h (t - h)) (b_faces b).

  Lemma zone_ok z zn rs id : at1 zs z = Some zn -> at1 (pf_faces f) z = Some rs ->
    exists l, zone_faces order cells st z 1 id (z_sections zn) rs = Some l /\ ids_from id l /\
      NoDup (map place l) /\ (forall b, In b l -> b_zone b = z /\ good_bound b) /\
      (forall s x, at1 rs s = Some (Some x) -> In (z, s) (map place l)).
  Proof.
    intros Hz Hr. destruct Shape as [_ Sh]. destruct (Sh z zn Hz) as (rs' & E & L & _).
    rewrite Hr in E. inversion E; subst rs'. clear E.
    destruct (zone_faces_ok z (z_sections zn) rs 1 id L) as (l & E & I & N & B & Al).
    { intros k sec r K1 K2. rewrite Hz, Hr. cbn [bind]. auto. }
    exists l. split; auto. split; auto. split; auto. split.
    - intros b Hb. destruct (B b Hb) as (k & sec & r & l' & K1 & K2 & SR & Hb').
      destruct (section_result_in _ _ _ _ _ _ SR Hb') as [Z1 S1]. split; auto.
      destruct r as [[h t]|]; simpl in SR; [|subst l'; contradiction].
      destruct SR as (fs & -> & F2). destruct Hb' as [<-|[]]. exists sec, h, t. cbn [b_zone b_sect b_name b_faces].
      rewrite Hz, Hr. cbn [bind]. auto.
    - intros s x Hx. destruct s as [|s]; [discriminate|]. cbn [at1] in Hx.
      destruct (nth_error_lt_some (z_sections zn) s) as [sec Hs].
      { rewrite <- L. eapply nth_error_some_lt; eauto. }
      destruct (Al s sec _ Hs Hx) as (l' & SR & Il). destruct x as [h t]. simpl in SR.
      destruct SR as (fs & -> & _). apply in_map_iff. eexists. split; [|apply Il; left; reflexivity]. reflexivity.
  Qed.

  Lemma bound_faces_ok : forall zl z id cl fl, length cl = length zl -> length fl = length zl ->
    (forall k zn cs rs, nth_error zl k = Some zn -> nth_error cl k = Some cs -> nth_error fl k = Some rs ->
       at1 zs (z + k) = Some zn /\ at1 (pf_cells f) (z + k) = Some cs /\ at1 (pf_faces f) (z + k) = Some rs) ->
    exists l, bound_faces order cells st z id zl cl fl = Some l /\ ids_from id l /\
      NoDup (map place l) /\ (forall b, In b l -> z <= b_zone b /\ good_bound b) /\
      (forall k s rs x, nth_error fl k = Some rs -> at1 rs s = Some (Some x) -> In (z + k, s) (map place l)).
  Proof.
    induction zl as [|zn zl IH]; intros z id cl fl L1 L2 H;
      destruct cl as [|cs cl]; try discriminate; destruct fl as [|rs fl]; try discriminate.
    - exists []. split; auto. split; [reflexivity|]. split; [constructor|]. split; [intros b []|].
      intros [|k]; discriminate.
    - destruct (H 0 zn cs rs eq_refl eq_refl eq_refl) as (Hz & Hc & Hr). rewrite Nat.add_0_r in Hz, Hc, Hr.
      cbn [bound_faces].
      assert (X : existsb is_some cs = true).
      { destruct (HasCells z zn Hz) as (s & sec & Hs & Hd).
        destruct (gf_cells _ _ _ _ _ _ _ _ _ GF p f z s sec Hf) as (h & t & E & _); auto.
        { rewrite Hz. cbn [bind]. auto. }
        rewrite Hc in E. cbn [bind] in E. apply existsb_exists. exists (Some (h, t)). split; auto.
        destruct s as [|s]; [discriminate|]. eapply nth_error_In; eauto. }
      rewrite X. cbn [negb]. rewrite Bool.andb_false_r.
      destruct (zone_ok z zn rs id Hz Hr) as (l & E & I & N & B & Al).
      destruct (IH (S z) (id + count_faces l) cl fl) as (l' & E' & I' & N' & B' & A'); [simpl in *; lia|simpl in *; lia| |].
      { intros k zn' cs' rs' K1 K2 K3. replace (S z + k) with (z + S k) by lia. apply H; auto. }
      exists (l ++ l'). rewrite E. cbn [bind]. rewrite E'. cbn [bind]. split; auto.
      split; [apply ids_from_app; auto|]. split; [|split].
      + rewrite map_app. apply NoDup_app_intro; auto.
        intros x Hx Hx'. apply in_map_iff in Hx. destruct Hx as (b & <- & Hb).
        apply in_map_iff in Hx'. destruct Hx' as (b' & Eb & Hb').
        destruct (B b Hb) as [Z1 _]. destruct (B' b' Hb') as [Z2 _]. unfold place in Eb. inversion Eb. lia.
      + intros b Hb. apply in_app_iff in Hb. destruct Hb as [Hb|Hb].
        * destruct (B b Hb) as [Z1 G]. split; auto. lia.
        * destruct (B' b Hb) as [Z1 G]. split; auto. lia.
      + intros [|k] s rs' x K1 K2; rewrite map_app; apply in_app_iff.
        * inversion K1; subst rs'. rewrite Nat.add_0_r. left. eapply Al; eauto.
        * right. replace (z + S k) with (S z + k) by lia. eapply A'; eauto.
  Qed.

  Lemma ghost_pairs_spec i j : In (i, j) (ghost_pairs f) <->
    nbr graph i j /\ nth_error cell_parts i = Some p /\ nth_error cell_parts j <> Some p.
  Proof.
    unfold ghost_pairs. rewrite in_map_iff. split.
    - intros ([[[[q i'] j'] ni] nj] & E & H). inversion E; subst i' j'.
      apply (gf_inter _ _ _ _ _ _ _ _ _ GF p f q i j ni nj Hf) in H. destruct H as (H1 & H2 & H3 & H4 & _).
      repeat split; auto. congruence.
    - intros (H1 & H2 & H3). destruct (wg_lt _ _ Gr i j H1) as [Li Lj]. rewrite <- Lc in Li, Lj.
      destruct (nth_error_lt_some _ _ Lj) as [q Hq].
      destruct (rows_of i Li) as (_ & _ & _ & _ & mi & _ & _ & _ & Ri).
      destruct (rows_of j Lj) as (_ & _ & _ & _ & mj & _ & _ & _ & Rj).
      exists (q, i, j, length mi, length mj). split; auto.
      apply (gf_inter _ _ _ _ _ _ _ _ _ GF p f q i j _ _ Hf).
      repeat split; eauto. congruence.
  Qed.

  Theorem BuildFaces_ok : exists fs, BuildFaces order zs f (cells, ghosts) st = Some fs /\
    good_faces cell_dim cell_parts graph mesh zs mp p fs.
  Proof.
    unfold BuildFaces, BuildLocalFaces, BuildGhostFaces, BuildBoundaryFaces. cbn [fst snd].
    destruct (number_ok (local_face order cells st) (fun x F => face_between zs mp F (fst x) (snd x)) (pf_inner f))
      with (id := 0) as (ls & El & Il & Fl).
    { intros id [i j] Hx. apply local_face_ok; auto. }
    rewrite El. cbn [bind].
    destruct (number_ok (ghost_face order cells ghosts st) (fun x F => face_between zs mp F (fst x) (snd x)) (ghost_pairs f))
      with (id := length ls) as (gs & Eg & Ig & Fg).
    { intros id [i j] Hx. apply ghost_face_ok; auto. }
    rewrite Eg. cbn [bind].
    destruct (gf_shape _ _ _ _ _ _ _ _ _ GF p f Hf) as (_ & Lcl & _). destruct Shape as [Lfl _].
    destruct (bound_faces_ok zs 1 (length ls + length gs) (pf_cells f) (pf_faces f) Lcl Lfl)
      as (bs & Eb & Ib & Nb & Bb & Ab).
    { intros k zn cs rs K1 K2 K3. cbn [Nat.add at1]. auto. }
    rewrite Eb. cbn [bind]. eexists; split; [reflexivity|].
    assert (FP : forall l fs, Forall2 (fun x F => face_between zs mp F (fst x) (snd x)) l fs ->
      map face_pair fs = map (fun x => (fst x, Some (snd x))) l).
    { intros l fs F. apply (Forall2_map_eq _ _ _ _ _ F). intros x y (H1 & H2 & _). unfold face_pair. congruence. }
    assert (FI : forall l fs i j, Forall2 (fun x F => face_between zs mp F (fst x) (snd x)) l fs ->
      In (i, Some j) (map face_pair fs) <-> In (i, j) l).
    { intros l fs i j F. rewrite (FP _ _ F), in_map_iff. split.
      - intros ([a b] & X & Hx). inversion X; subst. auto.
      - intros Hx. exists (i, j). auto. }
    assert (FN : forall l fs, Forall2 (fun x F => face_between zs mp F (fst x) (snd x)) l fs -> NoDup l ->
      NoDup (map face_pair fs)).
    { intros l fs F N. rewrite (FP _ _ F). clear F. induction N as [|[i j] t Hi N IH]; simpl; constructor; auto.
      intros X. apply in_map_iff in X. destruct X as ([a b] & X & Hx). inversion X; subst. auto. }
    constructor; cbn [fs_local fs_ghost fs_bound].
    - unfold all_faces. cbn [fs_local fs_ghost fs_bound]. rewrite !map_app, Il, Ig.
      unfold ids_from in Ib. rewrite Ib, count_faces_length, !app_length, !seq_app. cbn [Nat.add].
      reflexivity.
    - intros F HF. destruct (Forall2_In_r _ _ _ _ Fl HF) as ([i j] & _ & X). eauto.
    - intros i j. rewrite (FI _ _ i j Fl). apply (gf_inner _ _ _ _ _ _ _ _ _ GF p f i j Hf).
    - apply (FN _ _ Fl). apply Once.
    - intros F HF. destruct (Forall2_In_r _ _ _ _ Fg HF) as ([i j] & _ & X). eauto.
    - intros i j. rewrite (FI _ _ i j Fg). apply ghost_pairs_spec.
    - apply (FN _ _ Fg). apply Once.
    - intros b Hb. destruct (Bb b Hb) as (_ & sec & h & t & Hs & Hr & Hn & F2).
      assert (Hd : (s_dim sec + 1 = cell_dim)%Z).
      { destruct (Z.eq_dec (s_dim sec + 1) cell_dim) as [X|X]; auto. exfalso.
        destruct Shape as [_ Sh]. destruct (at1 zs (b_zone b)) as [zn|] eqn:Ez; [|discriminate]. cbn [bind] in Hs.
        destruct (Sh _ zn Ez) as (l & El' & _ & Hl). rewrite El' in Hr. cbn [bind] in Hr.
        specialize (Hl _ sec _ Hs Hr X). discriminate. }
      exists sec, (seq h (t - h)). split; auto. split; auto. split; auto. split; [apply seq_NoDup|]. split; auto.
      destruct (gf_faces _ _ _ _ _ _ _ _ _ GF p f _ _ sec Hf Hs Hd) as (h' & t' & Er & Hle & Hc).
      rewrite Hr in Er. inversion Er; subst h' t'. intros c. rewrite <- Hc, in_seq. lia.
    - intros z s sec Hs Hd. destruct (gf_faces _ _ _ _ _ _ _ _ _ GF p f z s sec Hf Hs Hd) as (h & t & Er & _).
      destruct (at1 (pf_faces f) z) as [rs|] eqn:Ez; [|discriminate]. cbn [bind] in Er.
      destruct z as [|z]; [discriminate|]. apply (Ab z s rs (h, t)); auto.
    - exact Nb.
  Qed.
End Process.
