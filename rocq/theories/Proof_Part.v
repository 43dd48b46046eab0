(** The processes find all nodes, and agree on the messages. *)
From Coq Require Import List Arith ZArith Lia Bool Sorted.
From Verif Require Import Arrays Model_Cgns Model_Mapper Model_Metis Model_Partition Model_Part
  Spec_Mesh Spec_Metis Spec_Partition Spec_Part Proof_Mapper Proof_Shuffler Proof_Metis Proof_WriteParts
  Proof_Pipeline Proof_Exchange.
Import ListNotations.

Lemma nth_error_combine {X Y} (l : list X) (l' : list Y) k x y :
  nth_error l k = Some x -> nth_error l' k = Some y -> nth_error (combine l l') k = Some (x, y).
Proof. intros H1 H2. exact (combine_at1 l l' (S k) x y H1 H2). Qed.

Lemma combine_nth_error {X Y} (l : list X) (l' : list Y) k x y :
  nth_error (combine l l') k = Some (x, y) -> nth_error l k = Some x /\ nth_error l' k = Some y.
Proof. intros H. exact (at1_combine l l' (S k) x y H). Qed.

Lemma sel_sorted q (l : list (nat * nat)) : StronglySorted pair_lt l -> StronglySorted lt (sel q l).
Proof.
  induction 1 as [|[k v] t Ht IH F]; [constructor|]. unfold sel in *. simpl.
  destruct (Nat.eqb_spec k q) as [->|]; simpl; auto. constructor; auto.
  apply Forall_forall. intros x Hx. fold (sel q t) in Hx. apply In_sel in Hx.
  rewrite Forall_forall in F. specialize (F _ Hx). unfold pair_lt in F. simpl in F. lia.
Qed.

Lemma sorted_lt_is_sorted l : StronglySorted lt l -> is_sorted l = true.
Proof.
  induction 1 as [|a t Ht IH F]; auto. destruct t as [|b u]; auto.
  change (is_sorted (a :: b :: u)) with ((a <=? b) && is_sorted (b :: u)).
  rewrite IH, andb_true_r. apply Nat.leb_le. inversion F; subst. lia.
Qed.

Lemma is_sorted_sel q (l : list (nat * nat)) : StronglySorted pair_lt l -> is_sorted (sel q l) = true.
Proof. intros H. apply sorted_lt_is_sorted. apply sel_sorted. auto. Qed.

Section Part.
  Context {A : Type} (inj : nat -> A) (prj : A -> nat).
  Hypothesis Hprj : forall n, prj (inj n) = n.
  Variables (cell_dim : Z) (n_parts : nat) (graph : Graph) (cell_parts node_parts : list nat).
  Variables (zs : list (Zone A)) (mp : Mapper) (mesh : MetisMesh) (files : list PartFile).
  Hypothesis GF : good_files cell_dim n_parts graph cell_parts node_parts mesh zs mp files.
  Hypothesis V : valid_mapper cell_dim zs mp.
  Hypothesis IX : indexed inj zs mp mesh.
  Hypothesis Fn : Forall (fun p => p < n_parts) node_parts.
  Hypothesis Fc : Forall (fun p => p < n_parts) cell_parts.

  Definition recv_pairs (f : PartFile) : list (nat * nat) :=
    map (fun '(p, k, _, _) => (p, k)) (pf_recv f).

  Lemma In_recv_pairs p f q k : nth_error files p = Some f ->
    (In (q, k) (recv_pairs f) <->
     needs_node cell_parts mesh graph p k /\ nth_error node_parts k = Some q /\ q <> p /\
     exists z i, nth_error (m2c_nodes mp) k = Some (z, i)).
  Proof.
    intros Hf. unfold recv_pairs. rewrite in_map_iff. split.
    - intros ([[[q' k'] z] i] & E & H). inversion E; subst.
      apply (gf_recv _ _ _ _ _ _ _ _ _ GF p f) in H; auto. destruct H as (H1 & H2 & H3 & H4). eauto 10.
    - intros (H1 & H2 & H3 & z & i & H4). exists (q, k, z, i). split; auto.
      apply (gf_recv _ _ _ _ _ _ _ _ _ GF p f); auto.
  Qed.

  (** every node has a place *)
  Hypothesis Lnp : length node_parts = length (m2c_nodes mp).

  Lemma Hplace k : k < length node_parts -> exists z i, nth_error (m2c_nodes mp) k = Some (z, i).
  Proof.
    rewrite Lnp. intros H. destruct (nth_error_lt_some _ _ H) as [[z i] E]. eauto.
  Qed.

  Lemma agree_nodes p q fp fq : nth_error files p = Some fp -> nth_error files q = Some fq ->
    sel q (pf_send fp) = sel p (recv_pairs fq).
  Proof.
    intros Hp Hq. apply (sorted_unique lt Nat.lt_irrefl Nat.lt_trans).
    - apply sel_sorted. eapply gf_send_sorted; eauto.
    - apply sel_sorted. unfold recv_pairs. eapply gf_recv_sorted; eauto.
    - intros k. rewrite !In_sel. rewrite (In_recv_pairs q fq p k Hq).
      rewrite (gf_send _ _ _ _ _ _ _ _ _ GF p fp q k Hp). split.
      + intros (H1 & H2 & H3). repeat split; auto. apply Hplace. eapply nth_error_some_lt; eauto.
      + intros (H1 & H2 & H3 & _). auto.
  Qed.

  Lemma recv_sel p (l : list (nat * nat * nat * nat)) :
    map (fun '(_, k, _, _) => k) (filter (fun '(r, _, _, _) => r =? p) l) =
    sel p (map (fun '(p, k, _, _) => (p, k)) l).
  Proof.
    unfold sel. induction l as [|[[[q k] z] i] t IH]; simpl; auto.
    destruct (q =? p); simpl; auto. f_equal. auto.
  Qed.

  Theorem nodes_agree_ok : nodes_agree files.
  Proof.
    intros p q fp fq Hp Hq. rewrite recv_sel. apply (agree_nodes p q fp fq Hp Hq).
  Qed.

  (** ** Local nodes *)

  Lemma read_nodes_ok p f z zn h t : nth_error files p = Some f -> at1 zs z = Some zn ->
    at1 (pf_nodes f) z = Some (h, t) ->
    exists xs idx, read_nodes prj z zn (h, t) = Some (h, xs, idx) /\ length xs = t - h /\ h <= t /\
      (forall i, h <= i < t -> nth_error xs (i - h) = node_coords zs z i) /\
      (forall k z' i, In (k, (z', i)) idx <-> z' = z /\ h <= i < t /\ node_of mp z i = Some k).
  Proof.
    intros Hf Hz Hr.
    destruct (gf_nodes _ _ _ _ _ _ _ _ _ GF p f z zn Hf Hz) as (h' & t' & E & Hle & HI).
    rewrite Hr in E. inversion E; subst h' t'. clear E.
    assert (Hi : forall i, h <= i < t -> exists m, node_of mp z i = Some m).
    { intros i H. apply HI in H. destruct H as (m & Hm & _). eauto. }
    destruct (ix_fields _ _ _ _ IX z zn Hz) as [L2 _].
    destruct (nth_error_lt_some (z_node_fields zn) 1) as [fld Hfld]; [lia|].
    assert (Hv : forall i m, node_of mp z i = Some m -> at1 fld i = Some (inj m) /\
                  exists v, node_coords zs z i = Some v).
    { intros i m Hm. destruct (ix_nodes _ _ _ _ IX z i m Hm) as (zn' & f' & v & E1 & E2 & E3 & E4).
      rewrite Hz in E1. inversion E1; subst zn'. rewrite Hfld in E2. inversion E2; subst f'. eauto. }
    unfold read_nodes. cbn [fst snd].
    destruct (mapM_exists (fun i => do x <- at1 (z_x zn) i; do y <- at1 (z_y zn) i;
                            do w <- at1 (z_z zn) i; Some (x, y, w))
               (fun i v => node_coords zs z i = Some v) (seq h (t - h))) as (xs & Ex & Fx).
    { intros i H. apply in_seq in H. destruct (Hi i) as [m Hm]; [lia|].
      destruct (Hv i m Hm) as (_ & v & Ev). exists v. unfold node_coords in *. rewrite Hz in Ev.
      rewrite Hz. cbn [bind] in *. auto. }
    rewrite Ex. cbn [bind]. rewrite Hfld. cbn [bind].
    destruct (mapM_exists (at1 fld) (fun i v => node_of mp z i = Some (prj v)) (seq h (t - h)))
      as (ms & Em & Fm).
    { intros i H. apply in_seq in H. destruct (Hi i) as [m Hm]; [lia|].
      destruct (Hv i m Hm) as (Ef & _). exists (inj m). rewrite Hprj. auto. }
    rewrite Em. cbn [bind].
    pose proof (mapM_length _ _ _ Ex) as Lx. pose proof (mapM_length _ _ _ Em) as Lm.
    rewrite seq_length in Lx, Lm.
    exists xs, (combine (map prj ms) (map (pair z) (seq h (t - h)))). split; auto.
    split; auto. split; auto. split.
    - intros i H. pose proof (Forall2_nth _ _ _ (i - h) Fx) as G.
      rewrite nth_error_seq in G by lia. replace (h + (i - h)) with i in G by lia.
      unfold Point in *. destruct (nth_error xs (i - h)) as [v|]; [symmetry; exact G|contradiction].
    - intros k z' i. split.
      + intros H. apply In_nth_error in H. destruct H as [j Hj].
        apply combine_nth_error in Hj. destruct Hj as [H1 H2].
        rewrite nth_error_map in H1, H2.
        pose proof (Forall2_nth _ _ _ j Fm) as G.
        destruct (nth_error ms j) as [v|] eqn:Ev; [|discriminate].
        pose proof (nth_error_some_lt _ _ _ Ev) as Lj.
        rewrite nth_error_seq in G, H2 by lia. simpl in H1, H2. inversion H1; inversion H2; subst.
        split; auto. split; auto. lia.
      + intros (-> & H & Hk). eapply (nth_error_In _ (i - h)).
        destruct (nth_error_lt_some ms (i - h)) as [v Hvv]; [lia|].
        pose proof (Forall2_nth _ _ _ (i - h) Fm) as G. rewrite Hvv, nth_error_seq in G by lia.
        replace (h + (i - h)) with i in G by lia. rewrite Hk in G. inversion G; subst.
        apply nth_error_combine; rewrite nth_error_map.
        * rewrite Hvv. reflexivity.
        * rewrite nth_error_seq by lia. simpl. f_equal. f_equal. lia.
  Qed.

  Definition good_local (p : nat) (st : @NodeStore A) : Prop :=
    ns_ghost st = [] /\
    (forall z zn, at1 zs z = Some zn -> exists h t xs, at1 (ns_local st) z = Some (h, xs) /\
       length xs = t - h /\ h <= t /\
       (forall i, h <= i < t <-> exists m, node_of mp z i = Some m /\ nth_error node_parts m = Some p) /\
       (forall i, h <= i < t -> nth_error xs (i - h) = node_coords zs z i)) /\
    (forall k z i, In (k, (z, i)) (ns_index st) <->
       node_of mp z i = Some k /\ nth_error node_parts k = Some p).

  Lemma read_zones_ok (P : nat -> nat -> list (@Point A) -> list (nat * (nat * nat)) -> Prop)
      zs' : forall z0 rs', length rs' = length zs' ->
    (forall j zn r, nth_error zs' j = Some zn -> nth_error rs' j = Some r ->
       exists h xs idx, read_nodes prj (z0 + j) zn r = Some (h, xs, idx) /\ P (z0 + j) h xs idx) ->
    exists st, read_zones prj z0 zs' rs' = Some st /\ ns_ghost st = [] /\
      exists idxs, length idxs = length zs' /\ ns_index st = concat idxs /\
      length (ns_local st) = length zs' /\
      forall j zn, nth_error zs' j = Some zn -> exists h xs idx,
        nth_error (ns_local st) j = Some (h, xs) /\ nth_error idxs j = Some idx /\
        P (z0 + j) h xs idx.
  Proof.
    induction zs' as [|zn t IH]; intros z0 rs' HL H; destruct rs' as [|r rs']; try discriminate.
    - simpl. eexists. split; [reflexivity|]. split; auto. exists []. repeat split; auto.
      intros [|j]; discriminate.
    - simpl. destruct (H 0 zn r eq_refl eq_refl) as (h & xs & idx & E & HP).
      rewrite Nat.add_0_r in *. rewrite E. cbn [bind].
      destruct (IH (S z0) rs') as (st & E2 & G & idxs & G1 & G2 & G3 & G4).
      { simpl in HL. lia. }
      { intros j zn' r' H1 H2. destruct (H (S j) zn' r' H1 H2) as (h' & xs' & idx' & E' & HP').
        rewrite Nat.add_succ_r in *. exists h', xs', idx'. auto. }
      rewrite E2. cbn [bind]. eexists. split; [reflexivity|]. cbn [ns_ghost ns_index ns_local].
      split; auto. exists (idx :: idxs). split; [simpl; auto|]. split; [simpl; congruence|].
      split; [simpl; auto|]. intros [|j] zn' Hj; simpl in Hj |- *.
      + rewrite Nat.add_0_r. exists h, xs, idx. auto.
      + rewrite Nat.add_succ_r. apply (G4 j zn' Hj).
  Qed.

  Lemma BuildLocalNodes_ok p f : nth_error files p = Some f ->
    exists st, BuildLocalNodes prj zs f = Some st /\ good_local p st.
  Proof.
    intros Hf. destruct (gf_shape _ _ _ _ _ _ _ _ _ GF p f Hf) as (Ln & _ & _).
    destruct (read_zones_ok (fun z h xs idx => exists t, length xs = t - h /\ h <= t /\
        (forall i, h <= i < t <-> exists m, node_of mp z i = Some m /\ nth_error node_parts m = Some p) /\
        (forall i, h <= i < t -> nth_error xs (i - h) = node_coords zs z i) /\
        (forall k z' i, In (k, (z', i)) idx <-> z' = z /\ h <= i < t /\ node_of mp z i = Some k))
      zs 1 (pf_nodes f) Ln) as (st & E & G & idxs & G1 & G2 & G3 & G4).
    { intros j zn [h t] Hz Hr.
      destruct (read_nodes_ok p f (1 + j) zn h t Hf Hz Hr) as (xs & idx & E & HL & Hle & HX & HI).
      exists h, xs, idx. split; auto. exists t. split; auto. split; auto. split; auto.
      destruct (gf_nodes _ _ _ _ _ _ _ _ _ GF p f (1 + j) zn Hf Hz) as (h' & t' & E' & _ & HI').
      cbn [at1 Nat.add] in E'. rewrite Hr in E'. inversion E'; subst. auto. }
    exists st. split; auto. split; auto. split.
    - intros [|z] zn Hz; [discriminate|]. cbn [at1] in Hz.
      destruct (G4 z zn Hz) as (h & xs & idx & H1 & H2 & t & H3 & H4 & H5 & H6 & _).
      exists h, t, xs. cbn [at1]. auto.
    - intros k z i. rewrite G2. split.
      + intros H. apply in_concat in H. destruct H as (idx & Hidx & H).
        apply In_nth_error in Hidx. destruct Hidx as [j Hj].
        destruct (nth_error_lt_some zs j) as [zn Hz].
        { rewrite <- G1. eapply nth_error_some_lt; eauto. }
        destruct (G4 j zn Hz) as (h & xs & idx' & H1 & H2 & t & H3 & H4 & H5 & H6 & H7).
        rewrite Hj in H2. inversion H2; subst idx'. apply H7 in H. destruct H as (-> & Hi & Hk).
        split; auto. apply H5 in Hi. destruct Hi as (m & Hm & Hp). rewrite Hk in Hm.
        inversion Hm; subst. auto.
      + intros [Hk Hp].
        destruct (proj1 (vm_nodes_dom _ _ _ V z i)) as (zn & Hz & _); [eauto|].
        destruct z as [|z]; [discriminate|]. cbn [at1] in Hz.
        destruct (G4 z zn Hz) as (h & xs & idx' & H1 & H2 & t & H3 & H4 & H5 & H6 & H7).
        apply in_concat. exists idx'. split; [eapply nth_error_In; eauto|].
        apply H7. split; auto. split; auto. apply H5. eauto.
  Qed.

  (** index and coordinates of an own node *)
  Lemma local_node p st k z i : good_local p st -> nth_error (m2c_nodes mp) k = Some (z, i) ->
    nth_error node_parts k = Some p ->
    lookup k (ns_index st) = Some (z, i) /\
    exists v, node_coords zs z i = Some v /\ GetCoord st z i = Some v.
  Proof.
    intros (G1 & G2 & G3) Hk Hp. apply (vm_nodes _ _ _ V) in Hk as Hn. split.
    - apply lookup_fun.
      + intros [z' i'] H. apply G3 in H. destruct H as [H _]. apply (vm_nodes _ _ _ V) in H. congruence.
      + apply G3. auto.
    - destruct (ix_nodes _ _ _ _ IX z i k Hn) as (zn & f & v & Hz & _ & _ & Ev). exists v.
      split; auto. destruct (G2 z zn Hz) as (h & t & xs & H1 & H2 & H3 & H4 & H5).
      assert (Hi : h <= i < t) by (apply H4; eauto).
      unfold GetCoord. rewrite H1.
      destruct (Nat.leb_spec h i); [|lia]. destruct (Nat.ltb_spec i (length xs + h)); [|lia].
      simpl. rewrite H5; auto.
  Qed.

  (** after [ShareGhostNodes] and [BuildGhostNodes] *)
  Definition place (k : nat) : nat * nat :=
    match nth_error (m2c_nodes mp) k with Some x => x | None => (0, 0) end.

  (** the coordinates of node [k] as they are sent *)
  Definition node_msg (k : nat) : list A :=
    match node_coords zs (fst (place k)) (snd (place k)) with
    | Some v => point_data v
    | None => []
    end.

  Lemma node_msg_ok k q : nth_error node_parts k = Some q -> exists z i v,
    nth_error (m2c_nodes mp) k = Some (z, i) /\ node_coords zs z i = Some v /\ node_msg k = point_data v.
  Proof.
    intros Hq. destruct (Hplace k) as (z & i & Hk); [eapply nth_error_some_lt; eauto|].
    apply (vm_nodes _ _ _ V) in Hk as Hn.
    destruct (ix_nodes _ _ _ _ IX z i k Hn) as (zn & f & v & Hz & _ & _ & Ev).
    exists z, i, v. unfold node_msg, place. rewrite Hk. simpl. rewrite Ev. auto.
  Qed.

  Lemma pack_nodes_ok p st q ks : good_local p st -> is_sorted ks = true ->
    (forall k, In k ks -> nth_error node_parts k = Some p) ->
    pack_nodes st (q, ks) = Some (q, concat (map node_msg ks)).
  Proof.
    intros G S H. unfold pack_nodes. cbn [fst snd]. rewrite S. clear S.
    assert (E : exists pts, mapM (fun m => do (z, i) <- lookup m (ns_index st); GetCoord st z i) ks = Some pts /\
              map point_data pts = map node_msg ks).
    { induction ks as [|k t IH]; [exists []; auto|].
      destruct IH as (pts & E & Em); [intros; apply H; right; auto|].
      destruct (node_msg_ok k p) as (z & i & v & Hk & Ev & Emsg); [apply H; left; auto|].
      destruct (local_node p st k z i G Hk) as (H1 & v' & H2 & H3); [apply H; left; auto|].
      rewrite Ev in H2. inversion H2; subst v'.
      exists (v :: pts). simpl. rewrite H1. cbn [bind]. rewrite H3, E. simpl. rewrite Em, Emsg. auto. }
    destruct E as (pts & E & Em). rewrite E. cbn [bind]. rewrite Em. reflexivity.
  Qed.

  Definition good_store (p : nat) (st0 st : @NodeStore A) : Prop :=
    ns_local st = ns_local st0 /\
    (forall z i v, In (z, i, v) (ns_ghost st) -> node_coords zs z i = Some v).

  Lemma ghost_at_ok p st0 st z i v : good_store p st0 st -> In (z, i, v) (ns_ghost st) ->
    ghost_at st z i = node_coords zs z i.
  Proof.
    intros [_ G] H. unfold ghost_at.
    destruct (List.find _ (ns_ghost st)) as [[[z' i'] v']|] eqn:E.
    - apply find_some in E. destruct E as [H1 H2]. simpl in H2. apply andb_true_iff in H2.
      destruct H2 as [E1 E2]. apply Nat.eqb_eq in E1. apply Nat.eqb_eq in E2. subst.
      simpl. symmetry. apply G. auto.
    - pose proof (find_none _ _ E _ H) as N. simpl in N. rewrite !Nat.eqb_refl in N. discriminate.
  Qed.

  Lemma store_node_fold ks : forall st,
    (forall z i v, In (z, i, v) (ns_ghost st) -> node_coords zs z i = Some v) ->
    (forall k, In k ks -> exists q, nth_error node_parts k = Some q) ->
    (forall k z i, In k ks -> nth_error (m2c_nodes mp) k = Some (z, i) -> lookup k (ns_index st) = Some (z, i)) ->
    exists st', foldM store_node (combine ks (map node_msg ks)) st = Some st' /\
      ns_local st' = ns_local st /\ ns_index st' = ns_index st /\
      (forall z i v, In (z, i, v) (ns_ghost st') -> node_coords zs z i = Some v) /\
      (forall x, In x (ns_ghost st) -> In x (ns_ghost st')) /\
      (forall k z i, In k ks -> nth_error (m2c_nodes mp) k = Some (z, i) ->
         exists v, In (z, i, v) (ns_ghost st')).
  Proof.
    induction ks as [|k t IH]; intros st HG HP HI.
    - exists st. simpl. repeat split; auto. intros k z i [].
    - cbn [map combine foldM].
      destruct (HP k) as [q Hq]; [left; auto|].
      destruct (node_msg_ok k q Hq) as (z & i & [[a b] c] & Hk & Ev & Emsg).
      unfold store_node at 1. cbn [fst snd]. rewrite Emsg. cbn [point_data].
      rewrite (HI k z i) by (simpl; auto). cbn [bind].
      destruct (IH (mkNodes (ns_local st) (ns_index st) ((z, i, (a, b, c)) :: ns_ghost st)))
        as (st' & E & L1 & L2 & L3 & L4 & L5).
      + cbn [ns_ghost]. intros z' i' v' [H|H]; [inversion H; subst; auto|auto].
      + intros; apply HP; right; auto.
      + cbn [ns_index]. intros; apply HI; auto. right; auto.
      + exists st'. split; auto. cbn [ns_local ns_index ns_ghost] in *. repeat split; auto.
        * intros x Hx. apply L4. right. auto.
        * intros k' z' i' [->|H] Hk'; [|eauto]. rewrite Hk in Hk'. inversion Hk'; subst.
          exists (a, b, c). apply L4. left. auto.
  Qed.

  Lemma store_nodes_fold lists : forall st,
    (forall z i v, In (z, i, v) (ns_ghost st) -> node_coords zs z i = Some v) ->
    (forall ks k, In ks lists -> In k ks -> exists q, nth_error node_parts k = Some q) ->
    (forall ks k z i, In ks lists -> In k ks -> nth_error (m2c_nodes mp) k = Some (z, i) ->
       lookup k (ns_index st) = Some (z, i)) ->
    exists st', foldM store_nodes (combine lists (map (fun ks => concat (map node_msg ks)) lists)) st = Some st' /\
      ns_local st' = ns_local st /\
      (forall z i v, In (z, i, v) (ns_ghost st') -> node_coords zs z i = Some v) /\
      (forall x, In x (ns_ghost st) -> In x (ns_ghost st')) /\
      (forall ks k z i, In ks lists -> In k ks -> nth_error (m2c_nodes mp) k = Some (z, i) ->
         exists v, In (z, i, v) (ns_ghost st')).
  Proof.
    induction lists as [|ks t IH]; intros st HG HP HI.
    - exists st. simpl. repeat split; auto. intros ks k z i [].
    - cbn [map combine foldM]. unfold store_nodes at 1. cbn [fst snd].
      replace (repeat 3 (length ks)) with (repeat 3 (length (map node_msg ks))) by (rewrite map_length; auto).
      rewrite chunks_repeat.
      2:{ apply Forall_forall. intros l Hl. apply in_map_iff in Hl. destruct Hl as (k & <- & Hk).
          destruct (HP ks k) as [q Hq]; [left; auto|auto|].
          destruct (node_msg_ok k q Hq) as (z & i & [[a b] c] & _ & _ & ->). reflexivity. }
      cbn [bind].
      destruct (store_node_fold ks st HG) as (st1 & E1 & A1 & A2 & A3 & A4 & A5).
      { intros k Hk. eapply HP; eauto. left; auto. }
      { intros k z i Hk. eapply HI; eauto. left; auto. }
      rewrite E1. cbn [bind].
      destruct (IH st1 A3) as (st2 & E2 & B1 & B3 & B4 & B5).
      { intros ks' k H1 H2. eapply HP; eauto. right; auto. }
      { intros ks' k z i H1 H2 H3. rewrite A2. eapply HI; eauto. right; auto. }
      exists st2. split; auto. split; [congruence|]. split; auto. split; auto.
      intros ks' k z i [->|H1] H2 H3; [|eauto].
      destruct (A5 k z i H2 H3) as [v Hv]. eauto.
  Qed.

  (** index after the receive lines are read *)
  Lemma ghost_index p f st k q z i : nth_error files p = Some f -> good_local p st ->
    In (q, k) (recv_pairs f) -> nth_error (m2c_nodes mp) k = Some (z, i) ->
    lookup k (ns_index (add_ghost_index st f)) = Some (z, i).
  Proof.
    intros Hf (_ & _ & G3) Hq Hk. unfold add_ghost_index. cbn [ns_index].
    apply lookup_fun.
    - intros [z' i'] H. apply in_app_iff in H. destruct H as [H|H].
      + apply G3 in H. destruct H as [H _]. apply (vm_nodes _ _ _ V) in H. congruence.
      + apply in_map_iff in H. destruct H as ([[[q' k'] z1] i1] & E & H). inversion E; subst.
        apply (gf_recv _ _ _ _ _ _ _ _ _ GF p f) in H; auto. destruct H as (_ & _ & _ & H). congruence.
    - apply in_app_iff. right. apply in_map_iff. exists (q, k, z, i). split; auto.
      apply (In_recv_pairs p f q k Hf) in Hq. destruct Hq as (H1 & H2 & H3 & _).
      apply (gf_recv _ _ _ _ _ _ _ _ _ GF p f); auto.
  Qed.

  Lemma group_push_In (lines : list (nat * nat)) q ks : In (q, ks) (group push [] lines) ->
    ks = sel q lines.
  Proof.
    intros H. apply lookup_iff in H; [|apply group_sorted]. rewrite lookup_group_push in H.
    destruct (sel q lines); [discriminate|]. congruence.
  Qed.

  Lemma BuildNodes_ok : exists stores, BuildNodes prj zs files = Some stores /\
    length stores = n_parts /\
    forall p st, nth_error stores p = Some st -> exists f st0,
      nth_error files p = Some f /\ good_local p st0 /\ good_store p st0 st /\
      forall q k z i, In (q, k) (recv_pairs f) -> nth_error (m2c_nodes mp) k = Some (z, i) ->
        exists v, In (z, i, v) (ns_ghost st).
  Proof.
    unfold BuildNodes.
    destruct (mapM_exists_at (BuildLocalNodes prj zs) (fun k f st => good_local (k - 1) st) files)
      as (sts & Est & Lst & Hst).
    { intros [|p] f Hf; [discriminate|]. cbn [at1] in Hf.
      destruct (BuildLocalNodes_ok p f Hf) as (st & E & G). exists st. simpl. rewrite Nat.sub_0_r. auto. }
    assert (Hst' : forall p f, nth_error files p = Some f -> exists st,
              nth_error sts p = Some st /\ good_local p st).
    { intros p f Hf. destruct (Hst (S p) f Hf) as (st & E & _ & G). exists st.
      simpl in G. rewrite Nat.sub_0_r in G. auto. }
    rewrite Est. cbn [bind]. pose proof (gf_len _ _ _ _ _ _ _ _ _ GF) as LF.
    assert (Snd : forall x, In x (combine sts files) ->
      mapM (pack_nodes (fst x)) (send_nodes (snd x)) =
      Some (map (fun y => (fst y, concat (map node_msg (snd y)))) (send_nodes (snd x)))).
    { intros [st f] Hx. apply In_nth_error in Hx. destruct Hx as [p Hx].
      apply combine_nth_error in Hx. destruct Hx as [H1 Hf]. cbn [fst snd].
      destruct (Hst' p f Hf) as (st' & E & G). rewrite H1 in E. inversion E; subst st'.
      apply mapM_map. intros [q ks] Hq. cbn [fst snd]. apply (pack_nodes_ok p); auto.
      - apply group_push_In in Hq. subst ks. apply is_sorted_sel.
        eapply gf_send_sorted; eauto.
      - apply group_push_In in Hq. subst ks. intros k Hk. apply In_sel in Hk.
        apply (gf_send _ _ _ _ _ _ _ _ _ GF p f q k Hf) in Hk. apply Hk. }
    rewrite (mapM_map _ _ _ Snd). cbn [bind]. clear Snd.
    assert (Rcv : forall f, In f files -> mapM recv_nodes_size (recv_nodes f) =
      Some (map (fun y => (fst y, 3 * length (snd y))) (recv_nodes f))).
    { intros f Hf. apply In_nth_error in Hf. destruct Hf as [p Hf].
      apply mapM_map. intros [q ks] Hq. unfold recv_nodes_size. cbn [fst snd].
      apply group_push_In in Hq. subst ks. rewrite is_sorted_sel; auto.
      eapply gf_recv_sorted; eauto. }
    rewrite (mapM_map _ _ _ Rcv). cbn [bind]. clear Rcv.
    destruct (exchange_ok (map send_nodes files) (map recv_nodes files) (fun _ => node_msg)
      (map (fun x => map (fun y => (fst y, concat (map node_msg (snd y)))) (send_nodes (snd x)))
         (combine sts files))
      (map (fun f => map (fun y => (fst y, 3 * length (snd y))) (recv_nodes f)) files))
      as (bufs & Eb & Lb & Hb).
    - rewrite !map_length. auto.
    - intros p q sp rq Hp Hq. rewrite nth_error_map in Hp, Hq.
      destruct (nth_error files p) as [fp|] eqn:Fp; [|discriminate]. inversion Hp; subst sp.
      destruct (nth_error files q) as [fq|] eqn:Fq; [|discriminate]. inversion Hq; subst rq.
      unfold send_nodes, recv_nodes. rewrite !lookup_group_push.
      change (map _ (pf_recv fq)) with (recv_pairs fq).
      rewrite (agree_nodes p q fp fq Fp Fq). reflexivity.
    - intros p sp Hp. rewrite nth_error_map in Hp.
      destruct (nth_error files p) as [fp|] eqn:Fp; [|discriminate]. inversion Hp; subst sp.
      split; [apply group_sorted|]. intros q ks Hq. rewrite map_length, LF.
      apply lookup_iff in Hq; [|apply group_sorted]. unfold send_nodes in Hq.
      rewrite lookup_group_push in Hq. destruct (sel q (pf_send fp)) as [|k t] eqn:Es; [discriminate|].
      assert (Hk : In (q, k) (pf_send fp)) by (apply In_sel; rewrite Es; left; auto).
      apply (gf_send _ _ _ _ _ _ _ _ _ GF p fp q k Fp) in Hk. destruct Hk as ((m & Hm & _) & _).
      rewrite Forall_forall in Fc. apply Fc.
      destruct Hm as [Hm|(i & q' & Hi & _)]; eapply nth_error_In; eauto.
    - intros p rp Hp. rewrite nth_error_map in Hp.
      destruct (nth_error files p) as [fp|] eqn:Fp; [|discriminate]. inversion Hp; subst rp.
      split; [apply group_sorted|]. intros q ks Hq. rewrite map_length, LF.
      apply lookup_iff in Hq; [|apply group_sorted]. unfold recv_nodes in Hq.
      rewrite lookup_group_push in Hq. fold (recv_pairs fp) in Hq.
      destruct (sel q (recv_pairs fp)) as [|k t] eqn:Es; [discriminate|].
      assert (Hk : In (q, k) (recv_pairs fp)) by (apply In_sel; rewrite Es; left; auto).
      apply (In_recv_pairs p fp q k Fp) in Hk. destruct Hk as (_ & Hk & _).
      rewrite Forall_forall in Fn. apply Fn. eapply nth_error_In; eauto.
    - rewrite !map_length, combine_length. lia.
    - rewrite !map_length. lia.
    - intros p sp Hp. rewrite nth_error_map in Hp.
      destruct (nth_error files p) as [fp|] eqn:Fp; [|discriminate]. inversion Hp; subst sp.
      destruct (Hst' p fp Fp) as (st & Est' & _).
      rewrite nth_error_map, (nth_error_combine _ _ _ _ _ Est' Fp). reflexivity.
    - intros q rq Hq. rewrite nth_error_map in Hq.
      destruct (nth_error files q) as [fq|] eqn:Fq; [|discriminate]. inversion Hq; subst rq.
      rewrite nth_error_map, Fq. cbn [option_map]. f_equal. apply map_ext_in.
      intros [p ks] Hin. cbn [fst snd]. f_equal.
      apply group_push_In in Hin. subst ks. unfold buffer.
      assert (Hall : forall k, In k (sel p (map (fun '(p, k, _, _) => (p, k)) (pf_recv fq))) ->
                length (node_msg k) = 3).
      { intros k Hk. apply In_sel in Hk. apply (In_recv_pairs q fq p k Fq) in Hk.
        destruct Hk as (_ & Hk & _).
        destruct (node_msg_ok k p Hk) as (z & i & [[a b] c] & _ & _ & ->). reflexivity. }
      clear -Hall. revert Hall. generalize (sel p (map (fun '(p, k, _, _) => (p, k)) (pf_recv fq))).
      induction l as [|k t IH]; intros H; auto.
      cbn [map concat length]. rewrite app_length, (H k) by (left; auto).
      rewrite <- IH by (intros; apply H; right; auto). lia.
    - rewrite Eb. cbn [bind]. rewrite map_length, LF in Lb.
      destruct (mapM_exists_at
        (fun x => BuildGhostNodes (add_ghost_index (fst (fst x)) (snd (fst x))) (snd (fst x)) (snd x))
        (fun j x st => good_store (j - 1) (fst (fst x)) st /\
           forall q k z i, In (q, k) (recv_pairs (snd (fst x))) ->
             nth_error (m2c_nodes mp) k = Some (z, i) -> exists v, In (z, i, v) (ns_ghost st))
        (combine (combine sts files) bufs)) as (stores & Es & Ls & Hs).
      + intros [|p] [[st0 f] b] Hx; [discriminate|]. cbn [at1] in Hx. cbn [fst snd].
        apply combine_nth_error in Hx. destruct Hx as [Hx Hbp].
        apply combine_nth_error in Hx. destruct Hx as [H0 Hf].
        destruct (Hst' p f Hf) as (st' & E & G). rewrite H0 in E. inversion E; subst st'.
        rewrite (Hb p (recv_nodes f)) in Hbp by (rewrite nth_error_map, Hf; auto).
        inversion Hbp; subst b. clear Hbp. unfold BuildGhostNodes.
        rewrite map_length, Nat.eqb_refl. rewrite map_map. cbn [snd]. unfold buffer.
        replace (map (fun x => concat (map node_msg (snd x))) (recv_nodes f))
          with (map (fun ks => concat (map node_msg ks)) (map snd (recv_nodes f)))
          by (rewrite map_map; reflexivity).
        destruct (store_nodes_fold (map snd (recv_nodes f)) (add_ghost_index st0 f))
          as (st & E1 & B1 & B2 & B3 & B4).
        * destruct G as (Gg & _). unfold add_ghost_index. cbn [ns_ghost]. rewrite Gg. intros z i v [].
        * intros ks k Hks Hk. apply in_map_iff in Hks. destruct Hks as ([q ks'] & Eq & Hks).
          simpl in Eq. subst ks'. apply group_push_In in Hks. subst ks. apply In_sel in Hk.
          apply (In_recv_pairs p f q k Hf) in Hk. destruct Hk as (_ & Hk & _). eauto.
        * intros ks k z i Hks Hk. apply in_map_iff in Hks. destruct Hks as ([q ks'] & Eq & Hks).
          simpl in Eq. subst ks'. apply group_push_In in Hks. subst ks. apply In_sel in Hk.
          apply (ghost_index p f st0 k q); auto.
        * exists st. split; auto. split; [split; auto|].
          intros q k z i Hk Hp. apply (B4 (sel q (recv_pairs f)) k z i); auto.
          -- apply in_map_iff. exists (q, sel q (recv_pairs f)). split; auto.
             apply lookup_iff; [apply group_sorted|]. unfold recv_nodes. rewrite lookup_group_push.
             fold (recv_pairs f). destruct (sel q (recv_pairs f)) eqn:Esel; auto.
             apply In_sel in Hk. rewrite Esel in Hk. contradiction.
          -- apply In_sel. auto.
      + exists stores. split; auto. rewrite Ls, !combine_length. split; [lia|].
        intros p st Hp. pose proof (nth_error_some_lt _ _ _ Hp) as Lp. rewrite Ls, !combine_length in Lp.
        destruct (nth_error_lt_some files p) as [f Hf]; [lia|].
        destruct (Hst' p f Hf) as (st0 & E0 & G0).
        destruct (nth_error_lt_some bufs p) as [b Hbp]; [lia|].
        destruct (Hs (S p) ((st0, f), b)) as (st' & E1 & _ & G1 & G2).
        { cbn [at1]. apply nth_error_combine; auto. apply nth_error_combine; auto. }
        cbn [at1] in E1. rewrite Hp in E1. inversion E1; subst st'. cbn [fst snd] in *.
        exists f, st0. simpl in G1. rewrite Nat.sub_0_r in G1. auto.
  Qed.

  (** ** Every needed node is found *)
  Lemma cell_nodes_uses m z row i : cell_nodes zs mp m = Some (z, row) -> In i row ->
    exists k, node_of mp z i = Some k /\ uses mesh m k.
  Proof.
    intros Hc Hi. unfold cell_nodes in Hc.
    destruct (nth_error (m2c_cells mp) m) as [[[z0 s] c]|] eqn:Em; [|discriminate]. cbn [bind] in Hc.
    apply (vm_cells _ _ _ V) in Em.
    destruct (ix_cells _ _ _ _ IX z0 s c m Em) as (zn & f & mrow & Hz & _ & _ & Hr & Hcsr).
    unfold metis_row in Hr. rewrite Hz in Hc, Hr. cbn [bind] in Hc, Hr.
    destruct (at1 (z_sections zn) s) as [sec|]; [|discriminate]. cbn [bind] in Hc, Hr.
    destruct (cell_row sec c) as [row'|]; [|discriminate]. cbn [bind] in Hc, Hr.
    inversion Hc; subst. destruct (mapM_In' _ _ _ _ Hr Hi) as (k & Hk & Hin).
    exists k. split; auto. exists mrow. auto.
  Qed.

  Theorem nodes_found_ok : exists stores, BuildNodes prj zs files = Some stores /\
    length stores = n_parts /\ nodes_found cell_parts graph zs mp stores.
  Proof.
    destruct BuildNodes_ok as (stores & E & L & H). exists stores. split; auto. split; auto.
    intros p st m z row i Hst Hm Hc Hi.
    destruct (H p st Hst) as (f & st0 & Hf & G0 & GS & Hg).
    destruct (cell_nodes_uses m z row i Hc Hi) as (k & Hk & Hu).
    apply (vm_nodes _ _ _ V) in Hk as Hk'.
    destruct (ix_nodes _ _ _ _ IX z i k Hk) as (zn & fl & v & Hz & _ & _ & Ev).
    exists v. split; auto.
    assert (Lk : exists q, nth_error node_parts k = Some q).
    { apply nth_error_lt_some. rewrite Lnp. eapply nth_error_some_lt; eauto. }
    destruct Lk as [q Hq].
    destruct GS as [GS1 GS2]. destruct G0 as (Gg & GL & GI).
    destruct (Nat.eq_dec q p) as [->|Hne].
    - destruct (local_node p st0 k z i) as (_ & v' & E1 & E2); [split; auto|auto|auto|].
      rewrite Ev in E1. inversion E1; subst v'. unfold GetCoord in *. rewrite GS1.
      destruct (GL z zn Hz) as (h & t & xs & H1 & H2 & H3 & H4 & H5). rewrite H1 in *.
      assert (Hr : h <= i < t) by (apply H4; eauto).
      destruct (Nat.leb_spec h i); [|lia]. destruct (Nat.ltb_spec i (length xs + h)); [|lia]. auto.
    - destruct (GL z zn Hz) as (h & t & xs & H1 & H2 & H3 & H4 & H5).
      assert (Hr : ~ h <= i < t).
      { intros Hr. apply H4 in Hr. destruct Hr as (k' & Hk2 & Hp). rewrite Hk in Hk2.
        inversion Hk2; subst. congruence. }
      destruct (Hg q k z i) as [v' Hv']; [|auto|].
      { apply (In_recv_pairs p f q k Hf). repeat split; eauto. exists m. auto. }
      unfold GetCoord. rewrite GS1, H1.
      destruct (Nat.leb_spec h i), (Nat.ltb_spec i (length xs + h)); simpl; try lia;
        rewrite (ghost_at_ok p st0 st z i v'); auto; split; auto.
  Qed.
End Part.
