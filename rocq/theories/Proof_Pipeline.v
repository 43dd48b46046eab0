(** [PartitionAndShuffle] as a whole. *)
From Coq Require Import List Arith ZArith Lia Permutation Sorted.
From Verif Require Import Arrays Model_Cgns Model_Mapper Model_Metis Model_Shuffle Model_Shuffler
  Model_Partition Spec_Shuffle Spec_Mesh Spec_Metis Spec_Partition Proof_Shuffle Proof_Mapper
  Proof_Metis Proof_Shuffler Proof_Ranges Proof_Adjacency Proof_WriteParts Proof_FaceParts.
Import ListNotations.

(** ** the METIS mesh of [Map] is well-formed *)
Lemma csr_position mesh n : nth_error (mm_range mesh) 0 = Some 0 ->
  length (mm_range mesh) = S n ->
  (forall i a b, nth_error (mm_range mesh) i = Some a ->
     nth_error (mm_range mesh) (S i) = Some b -> a <= b) ->
  forall m b, m <= n -> nth_error (mm_range mesh) m = Some b -> forall j, j < b ->
  exists m' a' b', m' < m /\ nth_error (mm_range mesh) m' = Some a' /\
    nth_error (mm_range mesh) (S m') = Some b' /\ a' <= j < b'.
Proof.
  intros H0 HL Hm. induction m as [|m IH]; intros b Lm Hb j Hj.
  - rewrite H0 in Hb. inversion Hb; subst. lia.
  - destruct (nth_error_lt_some (mm_range mesh) m) as [a Ha]; [lia|].
    destruct (Nat.lt_ge_cases j a) as [Hja|Hja].
    + destruct (IH a ltac:(lia) Ha j Hja) as (m' & a' & b' & Hlt & H1 & H2 & H3).
      exists m', a', b'. repeat split; auto; lia.
    + exists m, a, b. repeat split; auto.
Qed.

Lemma nth_error_slice {X} (l : list X) a n r k : slice l a n = Some r -> k < n ->
  nth_error r k = nth_error l (a + k).
Proof.
  unfold slice. destruct (_ <=? _); [|discriminate]. intros E Hk. inversion E; subst.
  rewrite nth_error_firstn_lt by auto.
  clear -l. revert l; induction a as [|a IH]; intros l; auto.
  destruct l; simpl; auto. destruct k; reflexivity.
Qed.

Lemma mapM_In {X Y} (f : X -> option Y) l r y : mapM f l = Some r -> In y r ->
  exists x, In x l /\ f x = Some y.
Proof.
  revert r; induction l as [|x t IH]; simpl; intros r H Hy.
  - inversion H; subst. destruct Hy.
  - destruct (f x) as [y0|] eqn:E; [|discriminate]. destruct (mapM f t) as [ys|]; [|discriminate].
    inversion H; subst. destruct Hy as [<-|Hy]; [eauto|].
    destruct (IH ys eq_refl Hy) as (x' & H1 & H2). eauto.
Qed.

Lemma mapM_In' {X Y} (f : X -> option Y) l r x : mapM f l = Some r -> In x l ->
  exists y, f x = Some y /\ In y r.
Proof.
  intros H Hx. apply In_nth_error in Hx. destruct Hx as [k Hk].
  destruct (mapM_nth _ _ _ _ _ H Hk) as (y & E & Hy). exists y. split; auto.
  eapply nth_error_In; eauto.
Qed.

Lemma Map_wf_csr {A} cell_dim (zs : list (Zone A)) mp mesh :
  (cell_dim = 2 \/ cell_dim = 3)%Z -> Forall (wf_zone cell_dim) zs ->
  Map cell_dim zs = Some (mp, mesh) -> wf_csr mesh (length (m2c_cells mp)).
Proof.
  intros Hd W HM.
  destruct (Map_rows cell_dim zs mp mesh Hd W HM) as (H1 & H2 & H3 & H4 & H5 & H6).
  destruct (Map_valid cell_dim zs Hd W) as (mp' & mesh' & E & V & _).
  rewrite HM in E. inversion E; subst mp' mesh'.
  constructor; auto.
  apply Forall_forall. intros k Hk. apply In_nth_error in Hk. destruct Hk as [j Hj].
  destruct (csr_position mesh _ H2 H1 H5 _ _ (Nat.le_refl _) H3 j) as (m & a & b & Hm & Ha & Hb & Hab).
  { eapply nth_error_some_lt; eauto. }
  destruct (nth_error_lt_some (m2c_cells mp) m) as [[[z s] c] Hc]; [lia|].
  destruct (H6 _ _ _ _ Hc) as (row & Er & Em).
  unfold csr_row in Er. rewrite Ha, Hb in Er. cbn [bind] in Er.
  destruct (a <=? b); [|discriminate].
  pose proof (nth_error_slice _ _ _ _ (j - a) Er ltac:(lia)) as En.
  replace (a + (j - a)) with j in En by lia. rewrite Hj in En. apply nth_error_In in En.
  unfold metis_row in Em. destruct (at1 zs z) as [zn|]; [|discriminate]. cbn [bind] in Em.
  destruct (at1 (z_sections zn) s) as [sec|]; [|discriminate]. cbn [bind] in Em.
  destruct (cell_row sec c) as [r|]; [|discriminate]. cbn [bind] in Em.
  destruct (mapM_In _ _ _ _ Em En) as (i & _ & Hi).
  apply (vm_nodes _ _ _ V) in Hi. rewrite H4. eapply nth_error_some_lt; eauto.
Qed.

(** ** sorting the part numbers of faces *)
Lemma insert_by_ltb_sorted x l : StronglySorted le l -> StronglySorted le (insert_by Nat.ltb x l).
Proof.
  induction 1 as [|h t Ht IH Hh]; simpl; [repeat constructor|].
  destruct (Nat.ltb_spec h x).
  - constructor; auto. apply Forall_forall. intros y Hy.
    apply (Permutation_in _ (insert_by_perm Nat.ltb x t)) in Hy. destruct Hy as [<-|Hy]; [lia|].
    rewrite Forall_forall in Hh. auto.
  - constructor; [constructor; auto|]. constructor; auto. eapply Forall_impl; [|exact Hh].
    simpl. intros; lia.
Qed.

Lemma sort_ltb_sorted l : StronglySorted le (sort_by Nat.ltb l).
Proof. induction l as [|h t IH]; simpl; [constructor|]. apply insert_by_ltb_sorted; auto. Qed.

Lemma sorted_le_unique l1 : StronglySorted le l1 -> forall l2, StronglySorted le l2 ->
  Permutation l1 l2 -> l1 = l2.
Proof.
  induction 1 as [|a t Ht IH Ha]; intros l2 H2 P.
  - apply Permutation_nil in P. auto.
  - destruct l2 as [|b u]; [apply Permutation_sym, Permutation_nil in P; discriminate|].
    inversion H2 as [|? ? Hu Hb]; subst. rewrite Forall_forall in *.
    assert (a = b).
    { assert (I1 : In a (b :: u)) by (eapply Permutation_in; [exact P|left; auto]).
      assert (I2 : In b (a :: t)) by (eapply Permutation_in; [apply Permutation_sym; exact P|left; auto]).
      destruct I1 as [E|I1]; auto. destruct I2 as [E|I2]; auto.
      specialize (Ha _ I2). specialize (Hb _ I1). lia. }
    subst. f_equal. apply IH; auto. eapply Permutation_cons_inv; eauto.
Qed.

(** the [k]-th sorted part number is the one of face [n2o k] *)
Lemma sorted_parts_order ps n2o o2n k old : is_new_order ps n2o o2n ->
  nth_error n2o k = Some old -> nth_error (sort_by Nat.ltb ps) k = nth_error ps old.
Proof.
  intros N Hk.
  assert (Hlt : forall x, In x n2o -> x < length ps).
  { intros x Hx. apply (Permutation_in _ (no_perm _ _ _ N)) in Hx. apply in_seq in Hx. lia. }
  assert (E : sort_by Nat.ltb ps = map (fun i => nth i ps 0) n2o).
  { apply sorted_le_unique; [apply sort_ltb_sorted| |].
    - apply nth_StronglySorted. intros i j a b Hij Hi Hj.
      apply nth_error_map_inv in Hi. apply nth_error_map_inv in Hj.
      destruct Hi as (x & Hx & Ex). destruct Hj as (y & Hy & Ey). subst.
      destruct (no_sorted _ _ _ N i j x y Hij Hx Hy) as (p & q & Hp & Hq & Hpq).
      rewrite (nth_error_nth _ _ 0 Hp), (nth_error_nth _ _ 0 Hq). lia.
    - rewrite sort_by_perm. rewrite (Permutation_map _ (no_perm _ _ _ N)).
      assert (Em : map (fun i => nth i ps 0) (seq 0 (length ps)) = ps).
      { apply nth_error_ext. intros i. rewrite nth_error_map.
        destruct (Nat.lt_ge_cases i (length ps)) as [Hi|Hi].
        - rewrite nth_error_seq by auto. simpl. symmetry. apply nth_error_nth'. auto.
        - rewrite (proj2 (nth_error_None _ _)) by (rewrite seq_length; auto).
          symmetry. apply nth_error_None. auto. }
      rewrite Em. apply Permutation_refl. }
  rewrite E, nth_error_map, Hk. simpl. symmetry. apply nth_error_nth'.
  apply Hlt. eapply nth_error_In; eauto.
Qed.

(** ** tables of a sequence of ids whose part numbers are known *)
Lemma table_of_parts n_parts first (parts : list nat) (owner : nat -> option nat) :
  1 <= first -> parts <> [] ->
  (forall k p, nth_error parts k = Some p -> owner (first + k) = Some p) ->
  (forall i j p q, i < j -> owner i = Some p -> owner j = Some q -> p <= q) ->
  (forall i p, owner i = Some p -> p < n_parts) ->
  (forall i, owner i <> None -> first <= i < first + length parts) ->
  exists table, slice_parts n_parts first parts = Some table /\ length table = n_parts /\
    forall p h t, nth_error table p = Some (h, t) -> h <= t /\
      forall i, h <= i < t <-> owner i = Some p.
Proof.
  intros H1 Hne Ho Hs Hlt Hdom.
  destruct (slice_parts_correct n_parts first parts) as (T & E & L & R); auto.
  - apply nth_StronglySorted. intros i j a b Hij Hi Hj.
    apply (Hs (first + i) (first + j)); auto. lia.
  - apply Forall_forall. intros q Hq. apply In_nth_error in Hq. destruct Hq as [k Hk].
    eapply Hlt; eauto.
  - exists T. split; auto. split; auto. intros p h t Hp. destruct (R p h t Hp) as [R1 R2].
    split; auto. intros i. rewrite R2. split.
    + intros [Hi Hk]. apply Ho in Hk. replace (first + (i - first)) with i in Hk by lia. auto.
    + intros Hi. assert (Hb : first <= i < first + length parts) by (apply Hdom; congruence).
      split; [lia|]. destruct (nth_error_lt_some parts (i - first)) as [q Hq]; [lia|].
      pose proof (Ho _ _ Hq) as E2. replace (first + (i - first)) with i in E2 by lia.
      congruence.
Qed.

Lemma Forall_at1 {X} (P : X -> Prop) l i x : Forall P l -> at1 l i = Some x -> P x.
Proof.
  intros F H. destruct i as [|i]; [discriminate|]. simpl in H.
  rewrite Forall_forall in F. apply F. eapply nth_error_In; eauto.
Qed.

Lemma mapM_at1 {X Y} (f : X -> option Y) l r i x : mapM f l = Some r -> at1 l i = Some x ->
  exists y, f x = Some y /\ at1 r i = Some y.
Proof.
  intros H Hi. destruct i as [|i]; [discriminate|]. simpl in *. eapply mapM_nth; eauto.
Qed.

Lemma cell_row_range s c row : cell_row s c = Some row -> 1 <= s_npe s ->
  length (s_conn s) = s_npe s * s_count s ->
  s_first s <= c < s_first s + s_count s /\ length row = s_npe s.
Proof.
  unfold cell_row. destruct (Nat.ltb_spec c (s_first s)); [discriminate|].
  unfold slice. destruct (Nat.leb_spec (s_npe s * (c - s_first s) + s_npe s) (length (s_conn s)));
    [|discriminate].
  intros E Hn HL. inversion E. rewrite firstn_length, skipn_length. split; [|lia].
  split; auto. assert (c - s_first s < s_count s); [|lia]. rewrite HL in *. nia.
Qed.

Lemma mapM_exists_at {X Y} (g : X -> option Y) (R : nat -> X -> Y -> Prop) l :
  (forall k x, at1 l k = Some x -> exists y, g x = Some y /\ R k x y) ->
  exists l', mapM g l = Some l' /\ length l' = length l /\
    forall k x, at1 l k = Some x -> exists y, at1 l' k = Some y /\ g x = Some y /\ R k x y.
Proof.
  intros H.
  destruct (mapM_exists g (fun _ _ => True) l) as (l' & E & _).
  { intros x Hx. apply In_nth_error in Hx. destruct Hx as [k Hk].
    destruct (H (S k) x Hk) as (y & Ey & _). eauto. }
  exists l'. split; auto. split; [eapply mapM_length; eauto|].
  intros k x Hx. destruct (mapM_at1 _ _ _ _ _ E Hx) as (y & Ey & Hy).
  destruct (H k x Hx) as (y' & Ey' & HR). rewrite Ey in Ey'. inversion Ey'; subst. eauto.
Qed.

Lemma at1_lt {X} (l : list X) k x : at1 l k = Some x -> 1 <= k <= length l.
Proof. destruct k; [discriminate|]. simpl. intros H. apply nth_error_some_lt in H. lia. Qed.

Lemma at1_some {X} (l : list X) k : 1 <= k <= length l -> exists x, at1 l k = Some x.
Proof. destruct k; [lia|]. simpl. intros H. apply nth_error_lt_some. lia. Qed.

Lemma at1_combine {X Y} (l : list X) (l' : list Y) k x y :
  at1 (combine l l') k = Some (x, y) -> at1 l k = Some x /\ at1 l' k = Some y.
Proof.
  destruct k as [|k]; [discriminate|]. cbn [at1].
  revert l' k; induction l as [|a t IH]; intros [|b u] [|k]; simpl; intros H; try discriminate; auto.
  inversion H; auto.
Qed.

Lemma combine_at1 {X Y} (l : list X) (l' : list Y) k x y :
  at1 l k = Some x -> at1 l' k = Some y -> at1 (combine l l') k = Some (x, y).
Proof.
  destruct k as [|k]; [discriminate|]. cbn [at1].
  revert l' k; induction l as [|a t IH]; intros [|b u] [|k]; simpl; intros H1 H2; try discriminate; auto.
  congruence.
Qed.

Section Pipeline.
  Context {A : Type} (inj : nat -> A) (prj : A -> nat).
  Hypothesis Hprj : forall n, prj (inj n) = n.
  Variables (cell_dim : Z) (n_parts : nat) (graph : Graph) (cell_parts : list nat).
  Variables (zs : list (Zone A)) (mp : Mapper) (mesh : MetisMesh).
  Hypothesis VI : valid_input cell_dim n_parts graph cell_parts zs mp mesh.
  Hypothesis VU : all_nodes_used mesh.

  (** the written mesh [zs1], shuffled to [zs2], [mp2] *)
  Variables (node_parts : list nat) (zs1 zs2 : list (Zone A)) (mp2 : Mapper).
  Variable fps : list (list (option (list nat))).
  Hypothesis Ln : length node_parts = length (m2c_nodes mp).
  Hypothesis Fn : Forall (fun p => p < n_parts) node_parts.
  Hypothesis L1 : length zs1 = length zs.
  Hypothesis HW : forall k zn, nth_error zs k = Some zn ->
    exists zn', nth_error zs1 k = Some zn' /\
      zone_written inj cell_dim mp cell_parts node_parts (S k) zn zn'.
  Hypothesis V : valid_mapper cell_dim zs mp.
  Hypothesis SM : same_mesh cell_dim zs1 zs2 mp mp2.
  Hypothesis V2 : valid_mapper cell_dim zs2 mp2.
  Hypothesis PS : parts_sorted cell_parts node_parts mp2.
  Hypothesis FF : faces_follow cell_dim zs1 zs2 mp mp2 fps.

  (** a zone of [zs2] and its originals *)
  Lemma zone2 z zn2 : at1 zs2 z = Some zn2 -> exists zn zn1,
    at1 zs z = Some zn /\ at1 zs1 z = Some zn1 /\
    zone_written inj cell_dim mp cell_parts node_parts z zn zn1 /\
    CountNodes zn2 = CountNodes zn /\ length (z_sections zn2) = length (z_sections zn) /\
    length (z_node_fields zn2) = length (z_node_fields zn1) /\
    length (z_cell_fields zn2) = length (z_cell_fields zn1).
  Proof.
    destruct z as [|z]; [discriminate|]. intros Hz. cbn [at1] in Hz.
    destruct (nth_error_lt_some zs z) as [zn Ez].
    { rewrite <- L1, <- (sm_zones _ _ _ _ _ SM). eapply nth_error_some_lt; eauto. }
    destruct (HW z zn Ez) as (zn1 & E1 & W1).
    destruct (sm_shape _ _ _ _ _ SM (S z) zn1 E1) as (zn2' & E2 & S1 & S2 & S3 & S4).
    cbn [at1] in E2. rewrite Hz in E2. inversion E2; subst zn2'.
    exists zn, zn1. split; auto. split; auto. split; auto.
    destruct W1 as (? & ? & ? & ? & -> & _). cbn [z_sections] in *.
    unfold CountNodes in *. cbn [z_x] in *. auto.
  Qed.

  Lemma zone_wf z zn : at1 zs z = Some zn -> wf_zone cell_dim zn.
  Proof. apply Forall_at1. apply (vi_zones _ _ _ _ _ _ _ VI). Qed.

  Lemma node_moved z i m : node_of mp2 z i = Some m -> exists i0, node_of mp z i0 = Some m /\
    exists d, node_data zs1 z i0 = Some d /\ node_data zs2 z i = Some d.
  Proof.
    intros H. apply (vm_nodes _ _ _ V2) in H.
    destruct (nth_error_lt_some (m2c_nodes mp) m) as [[z0 i0] H0].
    { rewrite <- (sm_nodes_len _ _ _ _ _ SM). eapply nth_error_some_lt; eauto. }
    destruct (sm_nodes _ _ _ _ _ SM m z0 i0 H0) as (i' & H1 & _ & d & D1 & D2).
    rewrite H in H1. inversion H1; subst. exists i0. split; [apply (vm_nodes _ _ _ V); auto|].
    eauto.
  Qed.

  Lemma cell_moved z s c m : cell_of mp2 z s c = Some m -> exists c0, cell_of mp z s c0 = Some m /\
    exists d, cell_data zs1 z c0 = Some d /\ cell_data zs2 z c = Some d.
  Proof.
    intros H. apply (vm_cells _ _ _ V2) in H.
    destruct (nth_error_lt_some (m2c_cells mp) m) as [[[z0 s0] c0] H0].
    { rewrite <- (sm_cells_len _ _ _ _ _ SM). eapply nth_error_some_lt; eauto. }
    destruct (sm_cells _ _ _ _ _ SM m z0 s0 c0 H0) as (c' & H1 & _ & d & D1 & D2).
    rewrite H in H1. inversion H1; subst. exists c0. split; [apply (vm_cells _ _ _ V); auto|].
    eauto.
  Qed.

  Lemma node_field z zn2 : at1 zs2 z = Some zn2 -> exists field rest,
    z_node_fields zn2 = field :: rest /\
    forall i m, node_of mp2 z i = Some m ->
      exists p, nth_error node_parts m = Some p /\ at1 field i = Some (inj p).
  Proof.
    intros Hz. destruct (zone2 z zn2 Hz) as (zn & zn1 & Ez & E1 & W1 & _ & _ & Lf & _).
    destruct W1 as (np & nm & cp & cm & -> & _ & _ & _ & _ & Wn & _).
    cbn [z_node_fields] in Lf. destruct (z_node_fields zn2) as [|field rest] eqn:Ef; [discriminate|].
    exists field, rest. split; auto. intros i m Hm.
    destruct (node_moved z i m Hm) as (i0 & H0 & d & D1 & D2).
    destruct (Wn i0 m H0) as (p & Hp & Hnp & _). exists p. split; auto.
    unfold node_data in D1, D2. rewrite E1 in D1. rewrite Hz in D2. cbn [bind z_node_fields] in *.
    rewrite Ef in D2. simpl in D1, D2. rewrite Hnp in D1.
    destruct (at1 nm i0); [|discriminate]. destruct (mapM _ (z_node_fields zn)); [|discriminate].
    inversion D1; subst. destruct (at1 field i); [|discriminate].
    destruct (mapM _ rest); [|discriminate]. inversion D2; subst. reflexivity.
  Qed.

  Lemma cell_field z zn2 : at1 zs2 z = Some zn2 -> exists field rest,
    z_cell_fields zn2 = field :: rest /\
    forall s c m, cell_of mp2 z s c = Some m ->
      exists p, nth_error cell_parts m = Some p /\ at1 field c = Some (inj p).
  Proof.
    intros Hz. destruct (zone2 z zn2 Hz) as (zn & zn1 & Ez & E1 & W1 & _ & _ & _ & Lf).
    destruct W1 as (np & nm & cp & cm & -> & _ & _ & _ & _ & _ & Wc).
    cbn [z_cell_fields] in Lf. destruct (z_cell_fields zn2) as [|field rest] eqn:Ef; [discriminate|].
    exists field, rest. split; auto. intros s c m Hm.
    destruct (cell_moved z s c m Hm) as (i0 & H0 & d & D1 & D2).
    destruct (Wc s i0 m H0) as (p & Hp & Hnp & _). exists p. split; auto.
    unfold cell_data in D1, D2. rewrite E1 in D1. rewrite Hz in D2. cbn [bind z_cell_fields] in *.
    rewrite Ef in D2. simpl in D1, D2. rewrite Hnp in D1.
    destruct (at1 cm i0); [|discriminate]. destruct (mapM _ (z_cell_fields zn)); [|discriminate].
    inversion D1; subst. destruct (at1 field c); [|discriminate].
    destruct (mapM _ rest); [|discriminate]. inversion D2; subst. reflexivity.
  Qed.

  Definition node_owner (z i : nat) : option nat :=
    do m <- node_of mp2 z i; nth_error node_parts m.
  Definition cell_owner (z s c : nat) : option nat :=
    do m <- cell_of mp2 z s c; nth_error cell_parts m.

  Lemma node_owner_iff z i p : node_owner z i = Some p <->
    exists m, node_of mp2 z i = Some m /\ nth_error node_parts m = Some p.
  Proof.
    unfold node_owner. destruct (node_of mp2 z i) as [m|]; cbn [bind]; split.
    - eauto.
    - intros (m' & E & H). congruence.
    - discriminate.
    - intros (m' & E & H). discriminate.
  Qed.

  Lemma cell_owner_iff z s i p : cell_owner z s i = Some p <->
    exists m, cell_of mp2 z s i = Some m /\ nth_error cell_parts m = Some p.
  Proof.
    unfold cell_owner. destruct (cell_of mp2 z s i) as [m|]; cbn [bind]; split.
    - eauto.
    - intros (m' & E & H). congruence.
    - discriminate.
    - intros (m' & E & H). discriminate.
  Qed.

  Definition good_table (owner : nat -> option nat) (table : list (nat * nat)) : Prop :=
    length table = n_parts /\
    forall p h t, nth_error table p = Some (h, t) -> h <= t /\
      forall i, h <= i < t <-> owner i = Some p.

  Lemma node_table_ok z zn2 : at1 zs2 z = Some zn2 ->
    exists T, zone_node_table prj n_parts zn2 = Some T /\ good_table (node_owner z) T.
  Proof.
    intros Hz. destruct (node_field z zn2 Hz) as (field & rest & Ef & Hf).
    destruct (zone2 z zn2 Hz) as (zn & zn1 & Ez & _ & _ & Ecn & _).
    pose proof (wz_nodes _ _ (zone_wf z zn Ez)) as Hcn. rewrite <- Ecn in Hcn.
    assert (Hdom : forall i, 1 <= i <= CountNodes zn2 -> exists m, node_of mp2 z i = Some m).
    { intros i Hi. apply (vm_nodes_dom _ _ _ V2). eauto. }
    assert (Lf : CountNodes zn2 <= length field).
    { destruct (Hdom (CountNodes zn2)) as [m Hm]; [lia|]. destruct (Hf _ _ Hm) as (p & _ & Hat).
      destruct (CountNodes zn2) as [|n]; [lia|]. simpl in Hat. apply nth_error_some_lt in Hat. lia. }
    unfold zone_node_table. rewrite Ef. cbn [nth_error bind].
    rewrite slice_some by (simpl; lia). cbn [bind skipn].
    set (parts := map prj (firstn (CountNodes zn2) field)).
    assert (Lp : length parts = CountNodes zn2).
    { unfold parts. rewrite map_length, firstn_length. lia. }
    destruct (table_of_parts n_parts 1 parts (node_owner z)) as (T & E & HL & HT).
    - lia.
    - intros E. rewrite E in Lp. simpl in Lp. lia.
    - intros k p Hk. pose proof (nth_error_some_lt _ _ _ Hk) as Lk.
      destruct (Hdom (1 + k)) as [m Hm]; [lia|]. destruct (Hf _ _ Hm) as (q & Hq & Hat).
      apply node_owner_iff. exists m. split; auto.
      unfold parts in Hk. apply nth_error_map_inv in Hk. destruct Hk as (x & Hx & Ex).
      rewrite nth_error_firstn_lt in Hx by lia. simpl in Hat. rewrite Hx in Hat.
      inversion Hat; subst. rewrite Hprj. auto.
    - intros i j p q Hij Hi Hj. apply node_owner_iff in Hi. apply node_owner_iff in Hj.
      destruct Hi as (m & Hm & Hp). destruct Hj as (n & Hn & Hq).
      eapply (ps_nodes _ _ _ PS z i j m n); eauto.
    - intros i p Hi. apply node_owner_iff in Hi. destruct Hi as (m & _ & Hp).
      rewrite Forall_forall in Fn. apply Fn. eapply nth_error_In; eauto.
    - intros i Hi. unfold node_owner in Hi. destruct (node_of mp2 z i) as [m|] eqn:Em; [|contradiction].
      destruct (proj1 (vm_nodes_dom _ _ _ V2 z i)) as (zn' & E1 & E2); [eauto|].
      rewrite Hz in E1. inversion E1; subst. lia.
    - exists T. split; auto. split; auto.
  Qed.

  (** a section of [zs2] and its original *)
  Lemma section2 z zn2 s sec2 : at1 zs2 z = Some zn2 -> at1 (z_sections zn2) s = Some sec2 ->
    exists zn sec, at1 zs z = Some zn /\ at1 (z_sections zn) s = Some sec /\
      same_section sec sec2 /\ wf_section (CountNodes zn) cell_dim sec /\
      1 <= s_count sec /\ 1 <= s_first sec /\
      (exists zn1, at1 zs1 z = Some zn1 /\ at1 (z_sections zn1) s = Some sec).
  Proof.
    intros Hz Hs. destruct (zone2 z zn2 Hz) as (zn & zn1 & Ez & E1 & W1 & _ & Ls & _).
    destruct (nth_error_lt_some (z_sections zn) (s - 1)) as [sec Hsec].
    { rewrite <- Ls. destruct s as [|s]; [discriminate|]. simpl in Hs.
      apply nth_error_some_lt in Hs. lia. }
    assert (Hat : at1 (z_sections zn) s = Some sec).
    { destruct s as [|s]; [discriminate|]. simpl in *. rewrite Nat.sub_0_r in Hsec. auto. }
    assert (Es1 : z_sections zn1 = z_sections zn).
    { destruct W1 as (? & ? & ? & ? & -> & _). reflexivity. }
    destruct (sm_sections _ _ _ _ _ SM z s sec) as (sec' & E' & SS).
    { rewrite E1. cbn [bind]. rewrite Es1. auto. }
    rewrite Hz in E'. cbn [bind] in E'. rewrite Hs in E'. inversion E'; subst sec'.
    exists zn, sec. split; auto. split; auto. split; auto.
    pose proof (zone_wf z zn Ez) as Wz. split.
    { eapply Forall_at1; [apply (wz_sections _ _ Wz)|eauto]. }
    split.
    { pose proof (Forall_at1 _ _ _ _ (vi_count _ _ _ _ _ _ _ VI) Ez) as F. cbv beta in F.
      eapply (Forall_at1 (fun s => 1 <= s_count s)); eauto. }
    split.
    { apply (consecutive_ge (z_sections zn)); [apply (wz_consecutive _ _ Wz)|].
      destruct s; [discriminate|]. simpl in Hat. eapply nth_error_In; eauto. }
    exists zn1. rewrite Es1. auto.
  Qed.

  Lemma cell_table_ok z zn2 s sec2 field rest : at1 zs2 z = Some zn2 ->
    at1 (z_sections zn2) s = Some sec2 -> z_cell_fields zn2 = field :: rest ->
    exists T, section_cell_table prj cell_dim n_parts field sec2 = Some T /\
      match T with
      | Some T => s_dim sec2 = cell_dim /\ good_table (cell_owner z s) T
      | None => s_dim sec2 <> cell_dim
      end.
  Proof.
    intros Hz Hs Ef. unfold section_cell_table.
    destruct (Z.eqb_spec (s_dim sec2) cell_dim) as [Hd|Hd]; [|exists None; auto].
    destruct (cell_field z zn2 Hz) as (field' & rest' & Ef' & Hf). rewrite Ef in Ef'.
    inversion Ef'; subst field' rest'. clear Ef'.
    destruct (section2 z zn2 s sec2 Hz Hs) as (zn & sec & Ez & Es & SS & Wsec & Hcnt & H1 & _).
    destruct SS as (_ & _ & E1 & E2 & E3 & E4 & E5).
    assert (Hdom : forall i, s_first sec2 <= i < s_first sec2 + s_count sec2 ->
                   exists m, cell_of mp2 z s i = Some m).
    { intros i Hi. apply (vm_cells_dom _ _ _ V2). exists zn2, sec2. auto. }
    assert (Lf : s_first sec2 - 1 + s_count sec2 <= length field).
    { destruct (Hdom (s_first sec2 + (s_count sec2 - 1))) as [m Hm]; [lia|].
      destruct (Hf _ _ _ Hm) as (p & _ & Hat).
      destruct (s_first sec2 + (s_count sec2 - 1)) as [|n] eqn:En; [lia|].
      simpl in Hat. apply nth_error_some_lt in Hat. lia. }
    destruct (slice field (s_first sec2 - 1) (s_count sec2)) as [sl|] eqn:Esl;
      [|rewrite slice_some in Esl by lia; discriminate]. cbn [bind].
    assert (Lsl : length sl = s_count sec2).
    { rewrite slice_some in Esl by lia. inversion Esl. rewrite firstn_length, skipn_length. lia. }
    destruct (table_of_parts n_parts (s_first sec2) (map prj sl) (cell_owner z s))
      as (T & E & HL & HT).
    - lia.
    - intros E. apply (f_equal (@length nat)) in E. rewrite map_length in E. simpl in E. lia.
    - intros k p Hk. pose proof (nth_error_some_lt _ _ _ Hk) as Lk. rewrite map_length in Lk.
      destruct (Hdom (s_first sec2 + k)) as [m Hm]; [lia|]. destruct (Hf _ _ _ Hm) as (q & Hq & Hat).
      apply cell_owner_iff. exists m. split; auto.
      apply nth_error_map_inv in Hk. destruct Hk as (x & Hx & Ex).
      rewrite (nth_error_slice _ _ _ _ k Esl) in Hx by lia.
      replace (s_first sec2 + k) with (S (s_first sec2 - 1 + k)) in Hat by lia. simpl in Hat.
      rewrite Hx in Hat. inversion Hat; subst. rewrite Hprj. auto.
    - intros i j p q Hij Hi Hj. apply cell_owner_iff in Hi. apply cell_owner_iff in Hj.
      destruct Hi as (m & Hm & Hp). destruct Hj as (n & Hn & Hq).
      eapply (ps_cells _ _ _ PS z s i j m n); eauto.
    - intros i p Hi. apply cell_owner_iff in Hi. destruct Hi as (m & _ & Hp).
      pose proof (vi_parts _ _ _ _ _ _ _ VI) as Fc.
      rewrite Forall_forall in Fc. apply Fc. eapply nth_error_In; eauto.
    - intros i Hi. unfold cell_owner in Hi. destruct (cell_of mp2 z s i) as [m|] eqn:Em; [|contradiction].
      destruct (proj1 (vm_cells_dom _ _ _ V2 z s i)) as (zn' & sec' & G1 & G2 & _ & G3); [eauto|].
      rewrite Hz in G1. inversion G1; subst. rewrite Hs in G2. inversion G2; subst.
      rewrite map_length. lia.
    - rewrite E. cbn [bind]. exists (Some T). split; auto. split; auto. split; auto.
  Qed.

  Hypothesis HF : forall z zn, at1 zs z = Some zn -> exists fp, at1 fps z = Some fp /\
    length fp = length (z_sections zn) /\
    forall s sec, at1 (z_sections zn) s = Some sec ->
      exists e, at1 fp s = Some e /\ entry_ok cell_dim zs mp mesh cell_parts z s sec e.

  Lemma metis_row1 z s c : metis_row zs1 mp z s c = metis_row zs mp z s c.
  Proof.
    unfold metis_row. destruct z as [|z]; auto. cbn [at1].
    destruct (nth_error zs z) as [zn|] eqn:Ez.
    - destruct (HW z zn Ez) as (zn1 & E1 & W1). rewrite E1. cbn [bind].
      destruct W1 as (? & ? & ? & ? & -> & _). reflexivity.
    - apply nth_error_None in Ez. rewrite (proj2 (nth_error_None zs1 z)) by lia. reflexivity.
  Qed.

  (** a face of [zs2] lies behind exactly one cell *)
  Definition face_owner (ps : list nat) (first c : nat) : option nat :=
    if c <? first then None else nth_error (sort_by Nat.ltb ps) (c - first).

  Lemma face_table_ok z zn2 s sec2 fp e : at1 zs2 z = Some zn2 ->
    at1 (z_sections zn2) s = Some sec2 -> at1 fps z = Some fp -> at1 fp s = Some e ->
    exists T, section_face_table cell_dim n_parts (sec2, e) = Some T /\
      match T with
      | Some T => (s_dim sec2 + 1 = cell_dim)%Z /\ length T = n_parts /\
          forall p h t, nth_error T p = Some (h, t) -> h <= t /\
            forall c, h <= c < t <-> exists row m, metis_row zs2 mp2 z s c = Some row /\
              in_cell mesh row m /\ nth_error cell_parts m = Some p
      | None => (s_dim sec2 + 1 <> cell_dim)%Z
      end.
  Proof.
    intros Hz Hs Hfp He. unfold section_face_table.
    destruct (Z.eqb_spec (s_dim sec2 + 1) cell_dim) as [Hd|Hd]; [|exists None; auto].
    destruct (section2 z zn2 s sec2 Hz Hs)
      as (zn & sec & Ez & Es & SS & Wsec & Hcnt & H1 & zn1 & Ez1 & Es1).
    destruct SS as (_ & _ & E1 & E2 & E3 & E4 & E5).
    destruct (HF z zn Ez) as (fp' & Ef' & _ & Hfp'). rewrite Hfp in Ef'. inversion Ef'; subst fp'.
    destruct (Hfp' s sec Es) as (e' & Ee & Hok). rewrite He in Ee. inversion Ee; subst e'.
    unfold entry_ok in Hok. rewrite E3 in Hd. rewrite (proj2 (Z.eqb_eq _ _) Hd) in Hok.
    destruct Hok as (ps & -> & Lps & Hps).
    destruct (FF z s sec) as (ps' & rows & rows' & n2o & o2n & F1 & F2 & F3 & F4 & F5 & F6 & F7 & F8).
    { rewrite Ez1. auto. }
    { lia. }
    rewrite Hfp in F1. cbn [bind] in F1. rewrite He in F1. inversion F1; subst ps'. clear F1 F2.
    assert (Lsort : length (sort_by Nat.ltb ps) = length ps) by (apply Permutation_length, sort_by_perm).
    cbn [bind]. rewrite slice_some by (rewrite Lsort; simpl; lia). cbn [bind skipn].
    rewrite E2, <- Lps, <- Lsort, firstn_all.
    assert (Npos : 1 <= s_npe sec).
    { assert (Hf : s_first sec <= s_first sec < s_first sec + s_count sec) by lia.
      destruct (vi_one _ _ _ _ _ _ _ VI z s sec (s_first sec)) as (row & m & R1 & R2 & R3); auto.
      { rewrite Ez. auto. }
      unfold s_npe. pose proof (vi_dim _ _ _ _ _ _ _ VI). pose proof (ws_dim _ _ _ Wsec) as Hdm.
      destruct (s_type sec); simpl; try lia. simpl in Hdm. inversion Hdm. lia. }
    assert (Ln2o : length n2o = s_count sec).
    { rewrite (Permutation_length (no_perm _ _ _ F7)), seq_length. auto. }
    (* rows of section s before and after *)
    assert (Row : forall k, k < s_count sec -> exists old row, nth_error n2o k = Some old /\
      old < s_count sec /\ metis_row zs mp z s (s_first sec + old) = Some row /\
      metis_row zs2 mp2 z s (s_first sec + k) = Some row).
    { intros k Hk. destruct (nth_error_lt_some n2o k) as [old Ho]; [lia|].
      assert (Lo : old < s_count sec).
      { pose proof (nth_error_In _ _ Ho) as I. apply (Permutation_in _ (no_perm _ _ _ F7)) in I.
        apply in_seq in I. lia. }
      exists old. unfold section_rows in F3, F4. rewrite Ez1 in F3. rewrite Hz in F4.
      cbn [bind] in F3, F4. rewrite Es1 in F3. rewrite Hs in F4. cbn [bind] in F3, F4.
      rewrite E1, E2 in F4.
      destruct (mapM_nth _ _ _ old (s_first sec + old) F3) as (row & G1 & G2);
        [apply nth_error_seq; auto|].
      destruct (mapM_nth _ _ _ k (s_first sec + k) F4) as (row' & G3 & G4);
        [apply nth_error_seq; auto|].
      rewrite (F8 k old Ho), G2 in G4. inversion G4; subst row'.
      exists row. rewrite metis_row1 in G1. auto. }
    assert (Own : forall c p, face_owner ps (s_first sec) c = Some p <->
      exists row m, metis_row zs2 mp2 z s c = Some row /\
              in_cell mesh row m /\ nth_error cell_parts m = Some p).
    { intros c p. split.
      - unfold face_owner. destruct (Nat.ltb_spec c (s_first sec)); [discriminate|]. intros Hn.
        pose proof (nth_error_some_lt _ _ _ Hn) as Lk. rewrite Lsort, Lps in Lk.
        destruct (Row _ Lk) as (old & row & Ho & Lo & R1 & R2).
        rewrite (sorted_parts_order _ _ _ _ _ F7 Ho) in Hn.
        destruct (Hps _ _ Hn) as (row' & m & R3 & R4 & R5).
        rewrite R1 in R3. inversion R3; subst row'.
        replace (s_first sec + (c - s_first sec)) with c in R2 by lia. eauto.
      - intros (row & m & R2 & Hin & Hp).
        assert (Hc : s_first sec <= c < s_first sec + s_count sec).
        { unfold metis_row in R2. rewrite Hz in R2. cbn [bind] in R2. rewrite Hs in R2.
          cbn [bind] in R2. destruct (cell_row sec2 c) as [r|] eqn:Er; [|discriminate].
          apply cell_row_range in Er.
          - rewrite <- E1, <- E2. apply Er.
          - unfold s_npe. rewrite E4. exact Npos.
          - unfold s_npe. rewrite E4, E5, E2. apply (ws_conn _ _ _ Wsec). }
        unfold face_owner. destruct (Nat.ltb_spec c (s_first sec)); [lia|].
        destruct (Row (c - s_first sec)) as (old & row' & Ho & Lo & R1 & R3); [lia|].
        replace (s_first sec + (c - s_first sec)) with c in R3 by lia.
        rewrite R2 in R3. inversion R3; subst row'.
        rewrite (sorted_parts_order _ _ _ _ _ F7 Ho).
        destruct (nth_error_lt_some ps old) as [q Hq]; [lia|]. rewrite Hq.
        destruct (Hps _ _ Hq) as (row' & m' & R4 & R5 & R6).
        rewrite R1 in R4. inversion R4; subst row'.
        destruct (vi_one _ _ _ _ _ _ _ VI z s sec (s_first sec + old)) as (row' & m0 & G1 & G2 & G3).
        { rewrite Ez. auto. }
        { auto. }
        { lia. }
        rewrite R1 in G1. inversion G1; subst row'.
        assert (m' = m) by (rewrite (G3 m' R5), (G3 m Hin); auto). congruence. }
    destruct (table_of_parts n_parts (s_first sec2) (sort_by Nat.ltb ps)
                (face_owner ps (s_first sec))) as (T & E & HL & HT).
    - lia.
    - intros E. apply (f_equal (@length nat)) in E. rewrite Lsort in E. simpl in E. lia.
    - intros k p Hk. unfold face_owner. rewrite E1.
      destruct (Nat.ltb_spec (s_first sec + k) (s_first sec)); [lia|].
      replace (s_first sec + k - s_first sec) with k by lia. auto.
    - intros i j p q Hij. unfold face_owner.
      destruct (Nat.ltb_spec i (s_first sec)); [discriminate|].
      destruct (Nat.ltb_spec j (s_first sec)); [discriminate|].
      intros Hi Hj.
      apply (StronglySorted_nth le _ (sort_ltb_sorted ps) (i - s_first sec) (j - s_first sec)); auto.
      lia.
    - intros i p Hi. apply Own in Hi. destruct Hi as (_ & m & _ & _ & Hp).
      pose proof (vi_parts _ _ _ _ _ _ _ VI) as Fc.
      rewrite Forall_forall in Fc. apply Fc. eapply nth_error_In; eauto.
    - intros i Hi. unfold face_owner in Hi.
      destruct (Nat.ltb_spec i (s_first sec)); [contradiction|].
      destruct (nth_error (sort_by Nat.ltb ps) (i - s_first sec)) eqn:En; [|contradiction].
      apply nth_error_some_lt in En. lia.
    - rewrite E. cbn [bind]. exists (Some T). split; auto. split; [lia|]. split; auto.
      intros p h t Hp. destruct (HT p h t Hp) as [T1 T2]. split; auto.
      intros c. rewrite T2. apply Own.
  Qed.

  Hypothesis Lfps : length fps = length zs.

  Definition good_cell_table z s (sec2 : Section) (T : option (list (nat * nat))) : Prop :=
    match T with
    | Some T => s_dim sec2 = cell_dim /\ good_table (cell_owner z s) T
    | None => s_dim sec2 <> cell_dim
    end.

  Definition good_face_table z s (sec2 : Section) (T : option (list (nat * nat))) : Prop :=
    match T with
    | Some T => (s_dim sec2 + 1 = cell_dim)%Z /\ length T = n_parts /\
        forall p h t, nth_error T p = Some (h, t) -> h <= t /\
          forall c, h <= c < t <-> exists row m, metis_row zs2 mp2 z s c = Some row /\
            in_cell mesh row m /\ nth_error cell_parts m = Some p
    | None => (s_dim sec2 + 1 <> cell_dim)%Z
    end.

  Lemma cell_tables_ok z zn2 : at1 zs2 z = Some zn2 ->
    exists Ts, zone_cell_tables prj cell_dim n_parts zn2 = Some Ts /\
      length Ts = length (z_sections zn2) /\
      forall s sec2, at1 (z_sections zn2) s = Some sec2 ->
        exists T, at1 Ts s = Some T /\ good_cell_table z s sec2 T.
  Proof.
    intros Hz. unfold zone_cell_tables.
    destruct (cell_field z zn2 Hz) as (field & rest & Ef & _). rewrite Ef. cbn [nth_error bind].
    destruct (mapM_exists_at (section_cell_table prj cell_dim n_parts field)
                (fun s sec2 T => good_cell_table z s sec2 T) (z_sections zn2)) as (Ts & E & HL & HT).
    { intros s sec2 Hs. destruct (cell_table_ok z zn2 s sec2 field rest Hz Hs Ef) as (T & E & HT).
      exists T. auto. }
    exists Ts. split; auto. split; auto.
    intros s sec2 Hs. destruct (HT s sec2 Hs) as (T & H1 & _ & H2). eauto.
  Qed.

  Lemma face_tables_ok z zn2 fp : at1 zs2 z = Some zn2 -> at1 fps z = Some fp ->
    exists Ts, zone_face_tables cell_dim n_parts (zn2, fp) = Some Ts /\
      length Ts = length (z_sections zn2) /\
      forall s sec2, at1 (z_sections zn2) s = Some sec2 ->
        exists T, at1 Ts s = Some T /\ good_face_table z s sec2 T.
  Proof.
    intros Hz Hfp. unfold zone_face_tables.
    destruct (zone2 z zn2 Hz) as (zn & zn1 & Ez & _ & _ & _ & Ls & _).
    destruct (HF z zn Ez) as (fp' & Ef & Lf & _). rewrite Hfp in Ef. inversion Ef; subst fp'.
    assert (EL : length fp = length (z_sections zn2)) by congruence.
    rewrite (proj2 (Nat.eqb_eq _ _) EL).
    destruct (mapM_exists_at (section_face_table cell_dim n_parts)
                (fun s x T => good_face_table z s (fst x) T) (combine (z_sections zn2) fp))
      as (Ts & E & HL & HT).
    { intros s [sec2 e] Hs. apply at1_combine in Hs. destruct Hs as [Hs He].
      destruct (face_table_ok z zn2 s sec2 fp e Hz Hs Hfp He) as (T & E & HT).
      exists T. auto. }
    exists Ts. split; auto. split.
    { rewrite HL, combine_length. lia. }
    intros s sec2 Hs. destruct (at1_some fp s) as [e He].
    { apply at1_lt in Hs. lia. }
    destruct (HT s (sec2, e)) as (T & H1 & _ & H2); [apply combine_at1; auto|]. eauto.
  Qed.

  Lemma table_at_ok p l : p < n_parts -> (forall T, l = Some T -> length T = n_parts) ->
    exists r, table_at p l = Some r.
  Proof.
    intros Hp HL. destruct l as [T|]; simpl; [|eauto].
    destruct (nth_error_lt_some T p) as [r Hr]; [rewrite (HL T eq_refl); auto|].
    rewrite Hr. simpl. eauto.
  Qed.

  Lemma cell_npe_ok m : m < length (m2c_cells mp) -> exists n, cell_npe zs2 mp2 m = Some n /\
    exists row, csr_row mesh m = Some row /\ length row = n.
  Proof.
    intros Hm.
    destruct (Map_rows cell_dim zs mp mesh (vi_dim _ _ _ _ _ _ _ VI) (vi_zones _ _ _ _ _ _ _ VI)
                (vi_map _ _ _ _ _ _ _ VI)) as (_ & _ & _ & _ & _ & HR).
    destruct (nth_error_lt_some _ _ Hm) as [[[z s] c] Hc].
    destruct (HR _ _ _ _ Hc) as (row & Er & Em).
    destruct (sm_cells _ _ _ _ _ SM m z s c Hc) as (c' & Hc' & _).
    apply (vm_cells _ _ _ V2) in Hc' as Hc2.
    destruct (proj1 (vm_cells_dom _ _ _ V2 z s c')) as (zn2 & sec2 & Hz & Hs & Hd & _); [eauto|].
    destruct (section2 z zn2 s sec2 Hz Hs) as (zn & sec & Ez & Es & SS & Wsec & _).
    destruct SS as (_ & _ & _ & _ & _ & E4 & _).
    exists (s_npe sec2). unfold cell_npe. rewrite Hc'. cbn [bind]. rewrite Hz. cbn [bind].
    rewrite Hs. cbn [bind]. split; auto. exists row. split; auto.
    unfold metis_row in Em. rewrite Ez in Em. cbn [bind] in Em. rewrite Es in Em. cbn [bind] in Em.
    destruct (cell_row sec c) as [r|] eqn:Ecr; [|discriminate]. cbn [bind] in Em.
    rewrite (mapM_length _ _ _ Em). unfold cell_row in Ecr.
    destruct (c <? s_first sec); [discriminate|]. unfold slice in Ecr.
    destruct (Nat.leb_spec (s_npe sec * (c - s_first sec) + s_npe sec) (length (s_conn sec)));
      [|discriminate]. inversion Ecr. rewrite firstn_length, skipn_length.
    unfold s_npe in *. rewrite E4. lia.
  Qed.

  Lemma csr_row_fun m r1 r2 : csr_row mesh m = Some r1 -> csr_row mesh m = Some r2 -> r1 = r2.
  Proof. congruence. Qed.

  Theorem info_ok :
    exists files, WritePartitionInfo prj cell_dim n_parts cell_parts node_parts mesh graph fps
                    zs2 mp2 = Some files /\
      good_files cell_dim n_parts graph cell_parts node_parts mesh zs2 mp2 files.
  Proof.
    unfold WritePartitionInfo.
    destruct (mapM_exists_at (zone_node_table prj n_parts)
                (fun z zn2 T => good_table (node_owner z) T) zs2) as (nodes & En & Lnod & Hnod).
    { intros z zn2 Hz. destruct (node_table_ok z zn2 Hz) as (T & E & HT). eauto. }
    rewrite En. cbn [bind].
    destruct (mapM_exists_at (zone_cell_tables prj cell_dim n_parts)
                (fun z zn2 Ts => length Ts = length (z_sections zn2) /\
                   forall s sec2, at1 (z_sections zn2) s = Some sec2 ->
                     exists T, at1 Ts s = Some T /\ good_cell_table z s sec2 T) zs2)
      as (cells & Ec & Lcel & Hcel).
    { intros z zn2 Hz. destruct (cell_tables_ok z zn2 Hz) as (T & E & HT). eauto. }
    rewrite Ec. cbn [bind].
    assert (LF : length fps = length zs2) by (rewrite Lfps, <- L1; symmetry; apply (sm_zones _ _ _ _ _ SM)).
    rewrite (proj2 (Nat.eqb_eq _ _) LF).
    destruct (mapM_exists_at (zone_face_tables cell_dim n_parts)
                (fun z x Ts => length Ts = length (z_sections (fst x)) /\
                   forall s sec2, at1 (z_sections (fst x)) s = Some sec2 ->
                     exists T, at1 Ts s = Some T /\ good_face_table z s sec2 T) (combine zs2 fps))
      as (faces & Ef & Lfac & Hfac).
    { intros z [zn2 fp] Hx. apply at1_combine in Hx. destruct Hx as [Hz Hfp].
      destruct (face_tables_ok z zn2 fp Hz Hfp) as (T & E & HT). eauto. }
    rewrite Ef. cbn [bind].
    pose proof (Map_wf_csr cell_dim zs mp mesh (vi_dim _ _ _ _ _ _ _ VI) (vi_zones _ _ _ _ _ _ _ VI)
                  (vi_map _ _ _ _ _ _ _ VI)) as WC.
    destruct (Map_rows cell_dim zs mp mesh (vi_dim _ _ _ _ _ _ _ VI) (vi_zones _ _ _ _ _ _ _ VI)
                (vi_map _ _ _ _ _ _ _ VI)) as (_ & _ & _ & Emn & _ & HR).
    destruct (BuildAdjacency_correct cell_parts node_parts mesh graph n_parts
                (length (m2c_cells mp)) WC (vi_graph _ _ _ _ _ _ _ VI) (vi_len _ _ _ _ _ _ _ VI))
      as (adj & Ea & (A1 & A2 & A3 & A4 & A5 & A6) & Hin & Hit & Hrc & Hsd).
    { lia. }
    { apply (vi_parts _ _ _ _ _ _ _ VI). }
    { intros m k Hk. destruct (uses_lt _ _ _ _ WC Hk) as [_ Lk].
      destruct (nth_error_lt_some node_parts k) as [q Hq]; [lia|]. exists q. split; auto.
      rewrite Forall_forall in Fn. apply Fn. eapply nth_error_In; eauto. }
    rewrite Ea. cbn [bind].
    assert (Files : forall p, In p (seq 0 n_parts) -> exists f,
      write_file zs2 mp2 nodes cells faces adj p = Some f /\
      (forall z zn, at1 zs2 z = Some zn -> exists T r, at1 nodes z = Some T /\ nth_error T p = Some r /\
         at1 (pf_nodes f) z = Some r) /\
      (forall z zn, at1 zs2 z = Some zn -> exists Ts l, at1 cells z = Some Ts /\
         mapM (table_at p) Ts = Some l /\ at1 (pf_cells f) z = Some l) /\
      (forall z zn, at1 zs2 z = Some zn -> exists Ts l, at1 faces z = Some Ts /\
         mapM (table_at p) Ts = Some l /\ at1 (pf_faces f) z = Some l) /\
      nth_error (a_inner adj) p = Some (pf_inner f) /\
      (exists l, nth_error (a_inter adj) p = Some l /\ mapM (inter_line zs2 mp2) l = Some (pf_inter f)) /\
      (exists l, nth_error (a_recv adj) p = Some l /\ mapM (recv_line mp2) l = Some (pf_recv f)) /\
      nth_error (a_send adj) p = Some (pf_send f) /\
      length (pf_nodes f) = length zs2 /\ length (pf_cells f) = length zs2).
    { intros p Hp. apply in_seq in Hp. unfold write_file.
      assert (X1 : forall z T, at1 nodes z = Some T -> exists r, nth_error T p = Some r /\ True).
      { intros z T HT. destruct (at1_some zs2 z) as [zn2 Hz]; [apply at1_lt in HT; lia|].
        destruct (Hnod z zn2 Hz) as (T' & E1 & _ & [GL _]). rewrite HT in E1. inversion E1; subst.
        destruct (nth_error_lt_some T' p) as [r Hr]; [lia|]. eauto. }
      destruct (mapM_exists_at (fun t => nth_error t p) (fun _ _ _ => True) nodes X1)
        as (np & E1 & Lnp & Hnp). rewrite E1. cbn [bind].
      destruct (nth_error_lt_some (a_send adj) p) as [snd_p Hs]; [lia|].
      destruct (nth_error_lt_some (a_recv adj) p) as [rcv_p Hr]; [lia|].
      destruct (nth_error_lt_some (a_inner adj) p) as [inn_p Hi]; [lia|].
      destruct (nth_error_lt_some (a_inter adj) p) as [int_p Ht]; [lia|].
      rewrite Hs. cbn [bind]. rewrite Hr. cbn [bind].
      destruct (mapM_exists (recv_line mp2) (fun _ _ => True) rcv_p) as (rl & E2 & _).
      { intros [q k] Hk. assert (Lk : listed (a_recv adj) p (q, k)) by (exists rcv_p; auto).
        apply Hrc in Lk. destruct Lk as (_ & Hk2 & _). apply nth_error_some_lt in Hk2.
        destruct (nth_error_lt_some (m2c_nodes mp2) k) as [[z i] Hz].
        { rewrite (sm_nodes_len _ _ _ _ _ SM). lia. }
        unfold recv_line. rewrite Hz. cbn [bind]. eauto. }
      rewrite E2. cbn [bind].
      assert (X2 : forall z Ts, at1 cells z = Some Ts -> exists l, mapM (table_at p) Ts = Some l /\ True).
      { intros z Ts HT. destruct (at1_some zs2 z) as [zn2 Hz]; [apply at1_lt in HT; lia|].
        destruct (Hcel z zn2 Hz) as (Ts' & G1 & _ & GL & G2). rewrite HT in G1. inversion G1; subst Ts'.
        destruct (mapM_exists_at (table_at p) (fun _ _ _ => True) Ts) as (l & El & _); [|eauto].
        intros s T HTs. destruct (at1_some (z_sections zn2) s) as [sec2 Hsec]; [apply at1_lt in HTs; lia|].
        destruct (G2 s sec2 Hsec) as (T' & G3 & G4). rewrite HTs in G3. inversion G3; subst T'.
        destruct (table_at_ok p T) as [r Hr']; [lia| |eauto].
        intros T' ->. simpl in G4. apply G4. }
      destruct (mapM_exists_at (mapM (table_at p)) (fun _ _ _ => True) cells X2)
        as (cl & E3 & Lcl & Hcl). rewrite E3. cbn [bind].
      rewrite Hi. cbn [bind]. rewrite Ht. cbn [bind].
      destruct (mapM_exists (inter_line zs2 mp2) (fun _ _ => True) int_p) as (il & E4 & _).
      { intros [q [i j]] Hk. assert (Lk : listed (a_inter adj) p (q, (i, j))) by (exists int_p; auto).
        apply Hit in Lk. destruct Lk as (Hnb & _ & _ & _).
        destruct (wg_lt _ _ (vi_graph _ _ _ _ _ _ _ VI) i j Hnb) as [Li Lj].
        destruct (cell_npe_ok i Li) as (ni & Ni & _). destruct (cell_npe_ok j Lj) as (nj & Nj & _).
        unfold inter_line. rewrite Ni. cbn [bind]. rewrite Nj. cbn [bind]. eauto. }
      rewrite E4. cbn [bind].
      assert (X3 : forall z Ts, at1 faces z = Some Ts -> exists l, mapM (table_at p) Ts = Some l /\ True).
      { intros z Ts HT. apply at1_lt in HT as HT'. rewrite Lfac, combine_length in HT'.
        destruct (at1_some zs2 z) as [zn2 Hz]; [lia|].
        destruct (at1_some fps z) as [fp Hfp]; [lia|].
        destruct (Hfac z (zn2, fp)) as (Ts' & G1 & _ & GL & G2); [apply combine_at1; auto|].
        cbn [fst] in GL, G2. rewrite HT in G1. inversion G1; subst Ts'.
        destruct (mapM_exists_at (table_at p) (fun _ _ _ => True) Ts) as (l & El & _); [|eauto].
        intros s T HTs. destruct (at1_some (z_sections zn2) s) as [sec2 Hsec]; [apply at1_lt in HTs; lia|].
        destruct (G2 s sec2 Hsec) as (T' & G3 & G4). rewrite HTs in G3. inversion G3; subst T'.
        destruct (table_at_ok p T) as [r Hr']; [lia| |eauto].
        intros T' ->. simpl in G4. apply G4. }
      destruct (mapM_exists_at (mapM (table_at p)) (fun _ _ _ => True) faces X3)
        as (fl & E5 & Lfl & Hfl). rewrite E5. cbn [bind].
      eexists. split; [reflexivity|]. cbn [pf_nodes pf_cells pf_faces pf_inner pf_inter pf_recv pf_send].
      split; [|split; [|split; [|split; [|split; [|split; [|split; [|split]]]]]]]; auto; try lia.
      - intros z zn Hz. destruct (Hnod z zn Hz) as (T & G1 & _).
        destruct (Hnp z T G1) as (r & G2 & G3 & _). exists T, r. auto.
      - intros z zn Hz. destruct (Hcel z zn Hz) as (T & G1 & _).
        destruct (Hcl z T G1) as (r & G2 & G3 & _). exists T, r. auto.
      - intros z zn Hz. destruct (at1_some fps z) as [fp Hfp]; [apply at1_lt in Hz; lia|].
        destruct (Hfac z (zn, fp)) as (T & G1 & _); [apply combine_at1; auto|].
        destruct (Hfl z T G1) as (r & G2 & G3 & _). exists T, r. auto.
      - exists int_p. auto.
      - exists rcv_p. auto. }
    destruct (mapM_exists _ _ _ Files) as (files & Efs & F). rewrite Efs.
    exists files. split; auto.
    assert (Hfile : forall p f, nth_error files p = Some f -> p < n_parts /\
      (forall z zn, at1 zs2 z = Some zn -> exists T r, at1 nodes z = Some T /\ nth_error T p = Some r /\
         at1 (pf_nodes f) z = Some r) /\
      (forall z zn, at1 zs2 z = Some zn -> exists Ts l, at1 cells z = Some Ts /\
         mapM (table_at p) Ts = Some l /\ at1 (pf_cells f) z = Some l) /\
      (forall z zn, at1 zs2 z = Some zn -> exists Ts l, at1 faces z = Some Ts /\
         mapM (table_at p) Ts = Some l /\ at1 (pf_faces f) z = Some l) /\
      nth_error (a_inner adj) p = Some (pf_inner f) /\
      (exists l, nth_error (a_inter adj) p = Some l /\ mapM (inter_line zs2 mp2) l = Some (pf_inter f)) /\
      (exists l, nth_error (a_recv adj) p = Some l /\ mapM (recv_line mp2) l = Some (pf_recv f)) /\
      nth_error (a_send adj) p = Some (pf_send f) /\
      length (pf_nodes f) = length zs2 /\ length (pf_cells f) = length zs2).
    { intros p f Hf. pose proof (nth_error_some_lt _ _ _ Hf) as Lp.
      rewrite (mapM_length _ _ _ Efs), seq_length in Lp. split; auto.
      pose proof (Forall2_nth _ _ _ p F) as G. rewrite Hf, nth_error_seq in G by auto.
      exact G. }
    clear F Files. constructor.
    - rewrite (mapM_length _ _ _ Efs), seq_length. reflexivity.
    - intros p f Hf. destruct (Hfile p f Hf) as (_ & _ & H1 & _ & _ & _ & _ & _ & G1 & G2).
      split; auto. split; auto. intros z zn Hz.
      destruct (H1 z zn Hz) as (Ts & l & H2 & H3 & H4). exists l. split; auto.
      destruct (Hcel z zn Hz) as (Ts' & G4 & _ & G5 & G6). rewrite H2 in G4. inversion G4; subst Ts'.
      split; [rewrite (mapM_length _ _ _ H3); auto|]. intros s sec Hs Hd.
      destruct (G6 s sec Hs) as (T & G7 & G8). destruct (mapM_at1 _ _ _ _ _ H3 G7) as (r & G9 & G10).
      rewrite G10. destruct T as [T|]; simpl in G8; [destruct G8; contradiction|].
      simpl in G9. inversion G9. reflexivity.
    - intros p f z zn Hf Hz. destruct (Hfile p f Hf) as (_ & H1 & _).
      destruct (H1 z zn Hz) as (T & [h t] & G1 & G2 & G3).
      destruct (Hnod z zn Hz) as (T' & G4 & _ & [_ G5]). rewrite G1 in G4. inversion G4; subst T'.
      exists h, t. split; auto. destruct (G5 p h t G2) as [G6 G7]. split; auto.
      intros i. rewrite G7. apply node_owner_iff.
    - intros p f z s sec Hf Hsec Hd. destruct (Hfile p f Hf) as (_ & _ & H1 & _).
      destruct (at1 zs2 z) as [zn|] eqn:Hz; [|discriminate]. cbn [bind] in Hsec.
      destruct (H1 z zn Hz) as (Ts & l & G1 & G2 & G3). rewrite G3. cbn [bind].
      destruct (Hcel z zn Hz) as (Ts' & G4 & _ & _ & G5). rewrite G1 in G4. inversion G4; subst Ts'.
      destruct (G5 s sec Hsec) as (T & G6 & G7).
      destruct (mapM_at1 _ _ _ _ _ G2 G6) as (r & G8 & G9). rewrite G9.
      destruct T as [T|]; [|simpl in G7; contradiction]. simpl in G7. destruct G7 as (_ & G10 & G11).
      simpl in G8. destruct (nth_error T p) as [[h t]|] eqn:ET; [|discriminate].
      cbn [bind] in G8. inversion G8; subst. exists h, t. split; auto.
      destruct (G11 p h t ET) as [G12 G13]. split; auto. intros c. rewrite G13. apply cell_owner_iff.
    - intros p f z s sec Hf Hsec Hd. destruct (Hfile p f Hf) as (_ & _ & _ & H1 & _).
      destruct (at1 zs2 z) as [zn|] eqn:Hz; [|discriminate]. cbn [bind] in Hsec.
      destruct (H1 z zn Hz) as (Ts & l & G1 & G2 & G3). rewrite G3. cbn [bind].
      destruct (at1_some fps z) as [fp Hfp]; [apply at1_lt in Hz; lia|].
      destruct (Hfac z (zn, fp)) as (Ts' & G4 & _ & _ & G5); [apply combine_at1; auto|].
      rewrite G1 in G4. inversion G4; subst Ts'. cbn [fst] in G5.
      destruct (G5 s sec Hsec) as (T & G6 & G7).
      destruct (mapM_at1 _ _ _ _ _ G2 G6) as (r & G8 & G9). rewrite G9.
      destruct T as [T|]; [|simpl in G7; contradiction]. simpl in G7. destruct G7 as (_ & G10 & G11).
      simpl in G8. destruct (nth_error T p) as [[h t]|] eqn:ET; [|discriminate].
      cbn [bind] in G8. inversion G8; subst r. exists h, t. split; auto.
    - intros p f i j Hf. destruct (Hfile p f Hf) as (_ & _ & _ & _ & H1 & _).
      rewrite <- Hin. unfold listed. rewrite H1. split.
      + eauto.
      + intros (l & E & H). congruence.
    - intros p f q i j ni nj Hf. destruct (Hfile p f Hf) as (_ & _ & _ & _ & _ & (l & H1 & H2) & _).
      split.
      + intros H. destruct (mapM_In _ _ _ _ H2 H) as ([q' [i' j']] & G1 & G2).
        assert (Lk : listed (a_inter adj) p (q', (i', j'))) by (exists l; auto).
        apply Hit in Lk. destruct Lk as (Hnb & Hne & Hi & Hj).
        destruct (wg_lt _ _ (vi_graph _ _ _ _ _ _ _ VI) i' j' Hnb) as [Li Lj].
        destruct (cell_npe_ok i' Li) as (n1 & N1 & R1). destruct (cell_npe_ok j' Lj) as (n2 & N2 & R2).
        unfold inter_line in G2. rewrite N1 in G2. cbn [bind] in G2. rewrite N2 in G2. cbn [bind] in G2.
        inversion G2; subst. repeat split; auto.
      + intros (Hnb & Hne & Hi & Hj & (r1 & R1 & R2) & (r2 & R3 & R4)).
        assert (Lk : listed (a_inter adj) p (q, (i, j))) by (apply Hit; auto).
        destruct Lk as (l' & E & Hl). rewrite H1 in E. inversion E; subst l'.
        destruct (mapM_In' _ _ _ _ H2 Hl) as (y & G1 & G2).
        destruct (wg_lt _ _ (vi_graph _ _ _ _ _ _ _ VI) i j Hnb) as [Li Lj].
        destruct (cell_npe_ok i Li) as (n1 & N1 & r1' & R5 & R6).
        destruct (cell_npe_ok j Lj) as (n2 & N2 & r2' & R7 & R8).
        unfold inter_line in G1. rewrite N1 in G1. cbn [bind] in G1. rewrite N2 in G1. cbn [bind] in G1.
        inversion G1; subst.
        rewrite R1 in R5. inversion R5; subst. rewrite R3 in R7. inversion R7; subst. auto.
    - intros p f q k z i Hf.
      destruct (Hfile p f Hf) as (_ & _ & _ & _ & _ & _ & (l & H1 & H2) & _). split.
      + intros H. destruct (mapM_In _ _ _ _ H2 H) as ([q' k'] & G1 & G2).
        assert (Lk : listed (a_recv adj) p (q', k')) by (exists l; auto).
        apply Hrc in Lk. destruct Lk as (N1 & N2 & N3).
        unfold recv_line in G2. destruct (nth_error (m2c_nodes mp2) k') as [[z' i']|] eqn:Ek; [|discriminate].
        cbn [bind] in G2. inversion G2; subst. auto.
      + intros (N1 & N2 & N3 & N4).
        assert (Lk : listed (a_recv adj) p (q, k)) by (apply Hrc; auto).
        destruct Lk as (l' & E & Hl). rewrite H1 in E. inversion E; subst l'.
        destruct (mapM_In' _ _ _ _ H2 Hl) as (y & G1 & G2).
        unfold recv_line in G1. rewrite N4 in G1. cbn [bind] in G1. inversion G1; subst. auto.
    - intros p f Hf. destruct (Hfile p f Hf) as (_ & _ & _ & _ & _ & _ & (l & H1 & H2) & _).
      assert (E : map (fun '(q, k, _, _) => (q, k)) (pf_recv f) = l).
      { clear -H2. revert H2. generalize (pf_recv f). induction l as [|[q k] t IH]; simpl; intros r H.
        - inversion H. reflexivity.
        - destruct (nth_error (m2c_nodes mp2) k) as [[z i]|]; [|discriminate]. cbn [bind] in H.
          destruct (mapM (recv_line mp2) t) as [ys|]; [|discriminate]. inversion H; subst.
          simpl. f_equal. auto. }
      rewrite E. rewrite Forall_forall in A5. apply A5. eapply nth_error_In; eauto.
    - intros p f q k Hf. destruct (Hfile p f Hf) as (_ & _ & _ & _ & _ & _ & _ & H1 & _).
      rewrite <- (Hsd q p k). unfold listed. rewrite H1. split.
      + eauto.
      + intros (l & E & H). congruence.
    - intros p f Hf. destruct (Hfile p f Hf) as (_ & _ & _ & _ & _ & _ & _ & H1 & _).
      rewrite Forall_forall in A6. apply A6. eapply nth_error_In; eauto.
  Qed.

  Lemma indexed_ok : indexed inj zs2 mp2 mesh.
  Proof.
    constructor.
    - intros z zn2 Hz. destruct (zone2 z zn2 Hz) as (zn & zn1 & Ez & E1 & W1 & _ & _ & Lf & Lg).
      destruct W1 as (np & nm & cp & cm & -> & _). cbn [z_node_fields z_cell_fields] in *.
      simpl in Lf, Lg. lia.
    - intros z i m Hm. destruct (node_moved z i m Hm) as (i0 & H0 & d & D1 & D2).
      destruct (proj1 (vm_nodes_dom _ _ _ V2 z i)) as (zn2 & Hz & _); [eauto|].
      destruct (zone2 z zn2 Hz) as (zn & zn1 & Ez & E1 & W1 & _ & _ & Lf & _).
      destruct W1 as (np & nm & cp & cm & -> & _ & _ & _ & _ & Wn & _).
      destruct (Wn i0 m H0) as (p & Hp & Hnp & Hnm).
      cbn [z_node_fields] in Lf. destruct (z_node_fields zn2) as [|f1 [|f2 rest]] eqn:Ef; try discriminate.
      apply (vm_nodes _ _ _ V) in H0 as H0'.
      destruct (sm_nodes _ _ _ _ _ SM m z i0 H0') as (i' & G1 & (v & _ & G2) & _).
      apply (vm_nodes _ _ _ V2) in Hm as Hm'. rewrite Hm' in G1. inversion G1; subst i'.
      exists zn2, f2, v. rewrite Ef. split; auto. split; auto. split; auto.
      unfold node_data in D1, D2. rewrite E1 in D1. rewrite Hz in D2. cbn [bind z_node_fields] in *.
      rewrite Ef in D2. simpl in D1, D2. rewrite Hnp, Hnm in D1.
      destruct (mapM _ (z_node_fields zn)); [|discriminate].
      inversion D1; subst. destruct (at1 f1 i); [|discriminate]. destruct (at1 f2 i); [|discriminate].
      destruct (mapM _ rest); [|discriminate]. inversion D2; subst. reflexivity.
    - intros z s c m Hm. destruct (cell_moved z s c m Hm) as (c0 & H0 & d & D1 & D2).
      destruct (proj1 (vm_cells_dom _ _ _ V2 z s c)) as (zn2 & sec2 & Hz & _); [eauto|].
      destruct (zone2 z zn2 Hz) as (zn & zn1 & Ez & E1 & W1 & _ & _ & _ & Lf).
      destruct W1 as (np & nm & cp & cm & Ew & _ & _ & _ & _ & _ & Wc).
      destruct (Wc s c0 m H0) as (p & Hp & Hnp & Hnm).
      rewrite Ew in Lf. cbn [z_cell_fields] in Lf.
      destruct (z_cell_fields zn2) as [|f1 [|f2 rest]] eqn:Ef; try discriminate.
      apply (vm_cells _ _ _ V) in H0 as H0'.
      destruct (sm_cells _ _ _ _ _ SM m z s c0 H0') as (c' & G1 & (row & G2 & G3) & _).
      apply (vm_cells _ _ _ V2) in Hm as Hm'. rewrite Hm' in G1. inversion G1; subst c'.
      destruct (Map_rows cell_dim zs mp mesh (vi_dim _ _ _ _ _ _ _ VI) (vi_zones _ _ _ _ _ _ _ VI)
                  (vi_map _ _ _ _ _ _ _ VI)) as (_ & _ & _ & _ & _ & HR).
      destruct (HR _ _ _ _ H0') as (row' & Er & Em).
      assert (row' = row).
      { unfold metis_row in Em, G2. rewrite Ez in Em. rewrite E1, Ew in G2.
        cbn [bind z_sections] in *. congruence. }
      subst row'.
      exists zn2, f2, row. rewrite Ef. split; auto. split; auto. split; auto.
      unfold cell_data in D1, D2. rewrite E1, Ew in D1. rewrite Hz in D2. cbn [bind z_cell_fields] in *.
      rewrite Ef in D2. simpl in D1, D2. rewrite Hnp, Hnm in D1.
      destruct (mapM _ (z_cell_fields zn)); [|discriminate].
      inversion D1; subst. destruct (at1 f1 c); [|discriminate]. destruct (at1 f2 c); [|discriminate].
      destruct (mapM _ rest); [|discriminate]. inversion D2; subst. reflexivity.
  Qed.
End Pipeline.

(** ** the whole of [PartitionAndShuffle] *)
Theorem PartitionAndShuffle_ok {A} (inj : nat -> A) (prj : A -> nat) cell_dim n_parts graph
    cell_parts (zs : list (Zone A)) mp mesh :
  (forall n, prj (inj n) = n) ->
  valid_input cell_dim n_parts graph cell_parts zs mp mesh -> all_nodes_used mesh ->
  exists zs1 zs2 mp2 files node_parts,
    GetNodeParts mesh cell_parts n_parts = Some node_parts /\
    WriteParts inj cell_dim mp cell_parts node_parts zs = Some zs1 /\
    PartitionAndShuffle inj prj cell_dim n_parts graph cell_parts zs = Some (zs2, mp2, files) /\
    same_mesh cell_dim zs1 zs2 mp mp2 /\ valid_mapper cell_dim zs2 mp2 /\
    Forall (fun p => p < n_parts) node_parts /\
    good_files cell_dim n_parts graph cell_parts node_parts mesh zs2 mp2 files /\
    indexed inj zs2 mp2 mesh /\ length node_parts = length (m2c_nodes mp2) /\
    length cell_parts = length (m2c_cells mp2).
Proof.
  intros Hprj VI VU.
  pose proof (vi_dim _ _ _ _ _ _ _ VI) as Hd. pose proof (vi_zones _ _ _ _ _ _ _ VI) as W.
  pose proof (vi_map _ _ _ _ _ _ _ VI) as HM. pose proof (vi_len _ _ _ _ _ _ _ VI) as Lc.
  destruct (Map_valid cell_dim zs Hd W) as (mp' & mesh' & E & V & IV).
  rewrite HM in E. inversion E; subst mp' mesh'. clear E.
  pose proof (Map_wf_csr cell_dim zs mp mesh Hd W HM) as WC.
  destruct (Map_rows cell_dim zs mp mesh Hd W HM) as (R1 & _ & _ & R4 & _ & R6).
  destruct (GetNodeParts_correct mesh cell_parts n_parts _ WC Lc) as (np & En & Lnp & _).
  assert (Fn : Forall (fun p => p < n_parts) np).
  { apply Forall_forall. intros p Hp. apply In_nth_error in Hp. destruct Hp as [k Hk].
    pose proof (nth_error_some_lt _ _ _ Hk) as Lk.
    destruct (GetNodeParts_used mesh cell_parts n_parts _ np k WC Lc (vi_parts _ _ _ _ _ _ _ VI) En)
      as (q & m & Hq & Lq & _); [apply VU; lia|]. congruence. }
  assert (Ln : length np = length (m2c_nodes mp)) by lia.
  destruct (WriteParts_ok inj cell_dim mp cell_parts np zs V Ln Lc) as (zs1 & Ew & L1 & HW).
  { eapply Forall_impl; [|exact W]. intros zn Wz. apply (wz_consecutive _ _ Wz). }
  { apply (vi_sorted _ _ _ _ _ _ _ VI). }
  pose proof (written_shape inj cell_dim mp cell_parts np zs zs1 L1 HW) as Sh.
  assert (W1 : Forall (wf_zone cell_dim) zs1).
  { apply Forall_forall. intros zn1 Hin. apply In_nth_error in Hin. destruct Hin as [k Hk].
    destruct (nth_error_lt_some zs k) as [zn Ez]; [rewrite <- L1; eapply nth_error_some_lt; eauto|].
    destruct (HW k zn Ez) as (zn1' & E1 & W1). rewrite Hk in E1. inversion E1; subst zn1'.
    pose proof (vi_sorted _ _ _ _ _ _ _ VI) as Hso. rewrite Forall_forall in W, Hso.
    pose proof (nth_error_In _ _ Ez) as Iz. eapply written_wf; [apply W| |exact W1]; auto. }
  assert (D1 : Forall (fun zn => Forall (fun s => s_dim s = cell_dim \/ s_dim s + 1 = cell_dim)%Z
                      (z_sections zn)) zs1).
  { pose proof (vi_dims _ _ _ _ _ _ _ VI) as D. clear -Sh D. induction Sh as [|a b t t' [S1 S2] Sh IH].
    - constructor.
    - inversion D; subst. constructor; auto. rewrite S2. auto. }
  destruct (FillFaceParts_ok cell_dim zs mp mesh V R6 R1 cell_parts Lc (vi_simple _ _ _ _ _ _ _ VI)
              (vi_one _ _ _ _ _ _ _ VI)) as (fps & Efp & Lfps & HF).
  assert (HM1 : Map cell_dim zs1 = Some (mp, mesh)) by (rewrite (Map_shape cell_dim zs zs1 Sh); auto).
  assert (HF1 : FillFaceParts cell_dim cell_parts mp zs1 = Some fps)
    by (rewrite (FillFaceParts_shape cell_dim cell_parts mp zs zs1 Sh); auto).
  destruct (Shuffle_correct cell_dim cell_parts np zs1 mp mesh fps Hd W1 D1 HM1 Ln Lc HF1)
    as (zs2 & mp2 & Es & SM & V2 & IV2 & PS & FF).
  destruct (info_ok inj prj Hprj cell_dim n_parts graph cell_parts zs mp mesh VI np zs1 zs2 mp2
              fps Ln Fn L1 HW V SM V2 PS FF HF Lfps) as (files & Ei & GF).
  pose proof (indexed_ok inj cell_dim n_parts graph cell_parts zs mp mesh VI np zs1 zs2 mp2
                fps Ln L1 HW V SM V2 Lfps) as IX.
  exists zs1, zs2, mp2, files, np. split; auto. split; auto. split.
  2:{ pose proof (sm_nodes_len _ _ _ _ _ SM). pose proof (sm_cells_len _ _ _ _ _ SM).
      repeat (split; auto); lia. }
  unfold PartitionAndShuffle. rewrite HM. cbn [bind]. rewrite IV. cbn [bind].
  rewrite En. cbn [bind]. rewrite Ew. cbn [bind]. rewrite HF1. cbn [bind].
  rewrite Es. cbn [bind]. rewrite IV2. cbn [bind]. rewrite Ei. reflexivity.
Qed.
