(** [FillFaceParts] finds the cell behind each boundary face. *)
From Coq Require Import List Arith ZArith Lia Permutation.
From Verif Require Import Arrays Model_Cgns Model_Mapper Model_Metis Model_Shuffle Model_Shuffler
  Spec_Mesh Spec_Metis Spec_Partition Proof_Mapper Proof_Shuffler.
Import ListNotations.

(** ** the uses as rows of cells *)
Definition row_uses (x : nat * list nat) : list (nat * nat) :=
  map (fun k => (k, fst x)) (snd x).

Definition uses_of (L : list (nat * list nat)) : list (nat * nat) := flat_map row_uses L.

Lemma user_cells_app u v k : user_cells (u ++ v) k = user_cells u k ++ user_cells v k.
Proof. unfold user_cells. rewrite filter_app, map_app. reflexivity. Qed.

Lemma user_cells_row m row k :
  user_cells (row_uses (m, row)) k = repeat m (count_occ Nat.eq_dec row k).
Proof.
  unfold user_cells, row_uses. simpl. induction row as [|a t IH]; simpl; auto.
  destruct (Nat.eqb_spec a k) as [->|Ne].
  - destruct (Nat.eq_dec k k); [|contradiction]. simpl. rewrite IH. reflexivity.
  - destruct (Nat.eq_dec a k); [contradiction|]. auto.
Qed.

Lemma count_user_cells L m row k : NoDup (map fst L) -> In (m, row) L ->
  count_occ Nat.eq_dec (user_cells (uses_of L) k) m = count_occ Nat.eq_dec row k.
Proof.
  unfold uses_of. induction L as [|[a r] t IH]; intros Hn Hin; [destruct Hin|].
  cbn [flat_map]. rewrite user_cells_app, count_occ_app, user_cells_row.
  simpl in Hn. inversion Hn as [|? ? H1 H2]; subst. destruct Hin as [E|Hin].
  - inversion E; subst.
    assert (Z : count_occ Nat.eq_dec (user_cells (flat_map row_uses t) k) m = 0).
    { apply count_occ_not_In. intros H. apply H1. clear -H.
      unfold user_cells in H. apply in_map_iff in H. destruct H as ([x y] & E & H).
      apply filter_In in H. destruct H as [H _]. simpl in E. subst.
      apply in_flat_map in H. destruct H as ([b l] & Hb & H).
      unfold row_uses in H. apply in_map_iff in H. destruct H as (c & E & _).
      inversion E; subst. apply in_map_iff. exists (m, l). auto. }
    rewrite Z, Nat.add_0_r. clear. induction (count_occ Nat.eq_dec row k); simpl; auto.
    destruct (Nat.eq_dec m m); [congruence|contradiction].
  - rewrite (IH H2 Hin).
    assert (Z : count_occ Nat.eq_dec (repeat a (count_occ Nat.eq_dec r k)) m = 0).
    { apply count_occ_not_In. intros H. apply repeat_spec in H. subst. apply H1.
      apply in_map_iff. exists (a, row). auto. }
    lia.
Qed.

Definition shared (row ks : list nat) : nat :=
  length (filter (fun k => if in_dec Nat.eq_dec k row then true else false) ks).

Lemma count_users L m row ks : NoDup (map fst L) -> In (m, row) L -> NoDup row ->
  count_occ Nat.eq_dec (flat_map (user_cells (uses_of L)) ks) m = shared row ks.
Proof.
  intros Hn Hin Hr. unfold shared. induction ks as [|k t IH]; simpl; auto.
  rewrite count_occ_app, IH, (count_user_cells L m row k Hn Hin).
  destruct (in_dec Nat.eq_dec k row) as [i|n].
  - simpl. rewrite (proj1 (NoDup_count_occ' Nat.eq_dec row) Hr k i). reflexivity.
  - rewrite (proj1 (count_occ_not_In Nat.eq_dec row k) n). reflexivity.
Qed.

Lemma shared_le row ks : shared row ks <= length ks.
Proof. unfold shared. induction ks as [|k t IH]; simpl; auto. destruct (in_dec _ k row); simpl; lia. Qed.

Lemma shared_all row ks : shared row ks = length ks <-> (forall k, In k ks -> In k row).
Proof.
  unfold shared. induction ks as [|k t IH]; simpl.
  - split; auto. intros _ k [].
  - pose proof (shared_le row t) as Hle. unfold shared in Hle.
    destruct (in_dec Nat.eq_dec k row) as [i|n]; simpl.
    + split.
      * intros H k' [<-|Hk']; auto. apply IH; auto.
      * intros H. f_equal. apply IH. auto.
    + split; [lia|]. intros H. exfalso. apply n. auto.
Qed.

Lemma singleton_list (l : list nat) c : NoDup l -> (forall x, In x l <-> x = c) -> l = [c].
Proof.
  intros Hn H. destruct l as [|a t].
  - exfalso. apply (proj2 (H c) eq_refl).
  - assert (a = c) by (apply H; left; auto). subst. destruct t as [|b t]; auto.
    inversion Hn as [|? ? H1 _]; subst. exfalso. apply H1.
    assert (b = c) by (apply H; right; left; auto). subst. left; auto.
Qed.

Lemma users_in L ks m : In m (flat_map (user_cells (uses_of L)) ks) -> exists row, In (m, row) L.
Proof.
  intros H. apply in_flat_map in H. destruct H as (k & _ & H).
  unfold user_cells in H. apply in_map_iff in H. destruct H as ([x y] & E & H).
  apply filter_In in H. destruct H as [H _]. simpl in E. subst.
  apply in_flat_map in H. destruct H as ([b l] & Hb & H).
  unfold row_uses in H. apply in_map_iff in H. destruct H as (c & E & _).
  inversion E; subst. eauto.
Qed.

Lemma face_part_ok cell_parts L ks m row p :
  NoDup (map fst L) -> (forall m row, In (m, row) L -> NoDup row) ->
  In (m, row) L -> (forall k, In k ks -> In k row) -> ks <> [] ->
  (forall m' row', In (m', row') L -> (forall k, In k ks -> In k row') -> m' = m) ->
  nth_error cell_parts m = Some p ->
  face_part cell_parts (uses_of L) (length ks) ks = Some p.
Proof.
  intros Hn Hr Hm Hin Hks Hu Hp. unfold face_part.
  assert (F : forallb (fun c => count_occ Nat.eq_dec (flat_map (user_cells (uses_of L)) ks) c <=? length ks)
    (nodup Nat.eq_dec (flat_map (user_cells (uses_of L)) ks)) = true).
  { apply forallb_forall. intros c Hc. apply nodup_In in Hc.
    destruct (users_in _ _ _ Hc) as [r Hr1]. rewrite (count_users L c r ks); eauto.
    apply Nat.leb_le. apply shared_le. }
  rewrite F.
  rewrite (singleton_list (filter _ _) m); auto.
  - apply NoDup_filter. apply NoDup_nodup.
  - intros c. rewrite filter_In, nodup_In, Nat.eqb_eq. split.
    + intros [Hc Hcnt]. destruct (users_in _ _ _ Hc) as [r Hr1].
      rewrite (count_users L c r ks) in Hcnt; eauto. apply (Hu c r); auto.
      apply shared_all. auto.
    + intros ->. rewrite (count_users L m row ks) by eauto.
      assert (S : shared row ks = length ks) by (apply shared_all; auto). split; auto.
      apply (count_occ_In Nat.eq_dec). rewrite (count_users L m row ks) by eauto.
      rewrite S. destruct ks; [contradiction|simpl; lia].
Qed.

(** ** the rows of all cells, in loop order *)
Section Rows.
  Context {A : Type}.
  Variables (cell_dim : Z) (zs : list (Zone A)) (mp : Mapper) (mesh : MetisMesh).
  Hypothesis V : valid_mapper cell_dim zs mp.
  Hypothesis R : forall m z s c, nth_error (m2c_cells mp) m = Some (z, s, c) ->
     exists row, csr_row mesh m = Some row /\ metis_row zs mp z s c = Some row.

  (** [L] lists cells of [keys] with their rows *)
  Definition rows_for (keys : list (nat * nat * nat)) (L : list (nat * list nat)) : Prop :=
    Forall2 (fun '(z, s, c) x => cell_of mp z s c = Some (fst x) /\
                                 csr_row mesh (fst x) = Some (snd x)) keys L.

  Lemma section_uses_ok z s zn sec : at1 zs z = Some zn -> at1 (z_sections zn) s = Some sec ->
    s_dim sec = cell_dim -> forall cells,
    (forall c, In c cells -> s_first sec <= c < s_first sec + s_count sec) ->
    exists L, section_uses mp z s sec cells = Some (uses_of L) /\
      rows_for (map (fun c => (z, s, c)) cells) L.
  Proof.
    intros Hz Hs Hd. induction cells as [|c t IH]; intros Hc.
    - exists []. split; [reflexivity|constructor].
    - destruct (proj2 (vm_cells_dom _ _ _ V z s c)) as [m Hm].
      { exists zn, sec. repeat split; auto; apply Hc; left; auto. }
      destruct (R m z s c) as (row & E1 & E2); [apply (vm_cells _ _ _ V); auto|].
      destruct IH as (L & E & HL); [intros; apply Hc; right; auto|].
      exists ((m, row) :: L). split; [|constructor; auto].
      cbn [section_uses]. rewrite Hm. cbn [bind].
      unfold metis_row in E2. rewrite Hz in E2. cbn [bind] in E2. rewrite Hs in E2.
      cbn [bind] in E2. destruct (cell_row sec c) as [r|]; [|discriminate]. cbn [bind] in *.
      rewrite E2. cbn [bind]. rewrite E. reflexivity.
  Qed.

  Lemma rows_for_app k1 k2 L1 L2 : rows_for k1 L1 -> rows_for k2 L2 -> rows_for (k1 ++ k2) (L1 ++ L2).
  Proof. apply Forall2_app. Qed.

  Lemma uses_of_app L1 L2 : uses_of (L1 ++ L2) = uses_of L1 ++ uses_of L2.
  Proof. apply flat_map_app. Qed.

  (** the keys of a section list *)
  Fixpoint section_keys (z s : nat) (ss : list Section) : list (nat * nat * nat) :=
    match ss with
    | [] => []
    | sec :: t => (if Z.eqb (s_dim sec) cell_dim
                   then map (fun c => (z, s, c)) (seq (s_first sec) (s_count sec)) else [])
                  ++ section_keys z (S s) t
    end.

  Fixpoint zone_keys (z : nat) (l : list (Zone A)) : list (nat * nat * nat) :=
    match l with
    | [] => []
    | zn :: t => section_keys z 1 (z_sections zn) ++ zone_keys (S z) t
    end.

  Lemma sections_uses_ok z zn : at1 zs z = Some zn -> forall ss s,
    (forall j sec, nth_error ss j = Some sec -> at1 (z_sections zn) (s + j) = Some sec) ->
    exists L, sections_uses cell_dim mp z s ss = Some (uses_of L) /\
      rows_for (section_keys z s ss) L.
  Proof.
    intros Hz. induction ss as [|sec t IH]; intros s Hss.
    - exists []. split; [reflexivity|constructor].
    - destruct (IH (S s)) as (L2 & E2 & H2).
      { intros j sec' Hj. replace (S s + j) with (s + S j) by lia. apply Hss. auto. }
      cbn [sections_uses section_keys].
      destruct (Z.eqb_spec (s_dim sec) cell_dim) as [Hd|Hd].
      + destruct (section_uses_ok z s zn sec Hz) with (cells := seq (s_first sec) (s_count sec))
          as (L1 & E1 & H1); auto.
        { replace s with (s + 0) by lia. apply Hss. reflexivity. }
        { intros c Hc. apply in_seq in Hc. lia. }
        exists (L1 ++ L2). rewrite E1. cbn [bind]. rewrite E2. cbn [bind].
        rewrite uses_of_app. split; auto. apply rows_for_app; auto.
      + exists L2. cbn [bind]. rewrite E2. cbn [bind app]. auto.
  Qed.

  Lemma zones_uses_ok : forall l z,
    (forall j zn, nth_error l j = Some zn -> at1 zs (z + j) = Some zn) ->
    exists L, zones_uses cell_dim mp z l = Some (uses_of L) /\ rows_for (zone_keys z l) L.
  Proof.
    induction l as [|zn t IH]; intros z Hl.
    - exists []. split; [reflexivity|constructor].
    - destruct (IH (S z)) as (L2 & E2 & H2).
      { intros j zn' Hj. replace (S z + j) with (z + S j) by lia. apply Hl. auto. }
      destruct (sections_uses_ok z zn) with (ss := z_sections zn) (s := 1) as (L1 & E1 & H1).
      { replace z with (z + 0) by lia. apply Hl. reflexivity. }
      { intros j sec Hj. exact Hj. }
      exists (L1 ++ L2). cbn [zones_uses zone_keys]. rewrite E1. cbn [bind]. rewrite E2.
      cbn [bind]. rewrite uses_of_app. split; auto. apply rows_for_app; auto.
  Qed.

  Lemma section_keys_ge z ss : forall s z' s' c', In (z', s', c') (section_keys z s ss) ->
    z' = z /\ s <= s'.
  Proof.
    induction ss as [|sec t IH]; intros s z' s' c' H; simpl in H; [destruct H|].
    apply in_app_iff in H. destruct H as [H|H].
    - destruct (Z.eqb (s_dim sec) cell_dim); [|destruct H].
      apply in_map_iff in H. destruct H as (c & E & _). inversion E; subst. auto.
    - apply IH in H. lia.
  Qed.

  Lemma section_keys_nodup z ss : forall s, NoDup (section_keys z s ss).
  Proof.
    induction ss as [|sec t IH]; intros s; simpl; [constructor|].
    destruct (Z.eqb (s_dim sec) cell_dim); [|apply IH].
    assert (N : NoDup (map (fun c : nat => (z, s, c)) (seq (s_first sec) (s_count sec)))).
    { apply FinFun.Injective_map_NoDup; [|apply seq_NoDup]. intros a b E. congruence. }
    apply NoDup_app_intro; auto.
    - intros [[z1 s1] c1] H1 H2. apply in_map_iff in H1. destruct H1 as (c & E & _).
      inversion E; subst. apply section_keys_ge in H2. lia.
  Qed.

  Lemma zone_keys_ge l : forall z z' s' c', In (z', s', c') (zone_keys z l) -> z <= z'.
  Proof.
    induction l as [|zn t IH]; intros z z' s' c' H; simpl in H; [destruct H|].
    apply in_app_iff in H. destruct H as [H|H].
    - apply section_keys_ge in H. lia.
    - apply IH in H. lia.
  Qed.

  Lemma zone_keys_nodup l : forall z, NoDup (zone_keys z l).
  Proof.
    induction l as [|zn t IH]; intros z; simpl; [constructor|].
    apply NoDup_app_intro; auto using section_keys_nodup.
    intros [[z1 s1] c1] H1 H2. apply section_keys_ge in H1. apply zone_keys_ge in H2. lia.
  Qed.

  Lemma section_keys_in z ss : forall s k sec c, nth_error ss k = Some sec ->
    s_dim sec = cell_dim -> s_first sec <= c < s_first sec + s_count sec ->
    In (z, s + k, c) (section_keys z s ss).
  Proof.
    induction ss as [|a t IH]; intros s [|k] sec c Hk Hd Hc; try discriminate; simpl.
    - simpl in Hk. inversion Hk; subst. rewrite Nat.add_0_r, Hd, Z.eqb_refl. apply in_app_iff. left.
      apply in_map_iff. exists c. split; auto. apply in_seq. lia.
    - apply in_app_iff. right. replace (s + S k) with (S s + k) by lia. eapply IH; eauto.
  Qed.

  Lemma zone_keys_in l : forall z k zn s sec c, nth_error l k = Some zn ->
    at1 (z_sections zn) s = Some sec -> s_dim sec = cell_dim ->
    s_first sec <= c < s_first sec + s_count sec -> In (z + k, s, c) (zone_keys z l).
  Proof.
    induction l as [|a t IH]; intros z [|k] zn s sec c Hk Hs Hd Hc; try discriminate; simpl.
    - simpl in Hk. inversion Hk; subst. rewrite Nat.add_0_r. apply in_app_iff. left.
      destruct s as [|s]; [discriminate|]. apply (section_keys_in z _ 1 s sec); auto.
    - apply in_app_iff. right. replace (z + S k) with (S z + k) by lia. eapply IH; eauto.
  Qed.

  Lemma rows_for_nodup keys L : rows_for keys L -> NoDup keys -> NoDup (map fst L).
  Proof.
    induction 1 as [|[[z s] c] [m row] ks L' [H1 H2] HL IH]; intros Hn; simpl; constructor.
    - inversion Hn as [|? ? Hk _]; subst. intros Hin. apply Hk. simpl in H1. clear -V HL Hin H1.
      induction HL as [|[[z' s'] c'] [m' r'] ks L' [H3 H4] HL IH]; [destruct Hin|].
      simpl in *. destruct Hin as [->|Hin]; [|right; auto]. left.
      apply (vm_cells _ _ _ V) in H1. apply (vm_cells _ _ _ V) in H3. congruence.
    - apply IH. inversion Hn; auto.
  Qed.

  Lemma rows_for_in keys L z s c m row : rows_for keys L -> In (z, s, c) keys ->
    cell_of mp z s c = Some m -> csr_row mesh m = Some row -> In (m, row) L.
  Proof.
    induction 1 as [|[[z' s'] c'] [m' r'] ks L' [H1 H2] HL IH]; intros Hin Hc Hr; [destruct Hin|].
    destruct Hin as [E|Hin]; [|right; auto]. inversion E; subst. simpl in *.
    left. congruence.
  Qed.

  Lemma rows_for_row keys L m row : rows_for keys L -> In (m, row) L -> csr_row mesh m = Some row.
  Proof.
    induction 1 as [|[[z' s'] c'] [m' r'] ks L' [H1 H2] HL IH]; intros Hin; [destruct Hin|].
    destruct Hin as [E|Hin]; auto. inversion E; subst. auto.
  Qed.

  Hypothesis Lr : length (mm_range mesh) = S (length (m2c_cells mp)).

  Lemma all_uses : exists L, zones_uses cell_dim mp 1 zs = Some (uses_of L) /\
    NoDup (map fst L) /\ forall m row, In (m, row) L <-> csr_row mesh m = Some row.
  Proof.
    destruct (zones_uses_ok zs 1) as (L & E & H); [intros j zn Hj; exact Hj|].
    exists L. split; auto. split; [eapply rows_for_nodup; eauto; apply zone_keys_nodup|].
    intros m row. split; [eapply rows_for_row; eauto|]. intros Hr.
    assert (Lm : m < length (m2c_cells mp)).
    { unfold csr_row in Hr. destruct (nth_error (mm_range mesh) m); [|discriminate].
      cbn [bind] in Hr. destruct (nth_error (mm_range mesh) (S m)) eqn:E2; [|discriminate].
      apply nth_error_some_lt in E2. lia. }
    destruct (nth_error_lt_some _ _ Lm) as [[[z s] c] Hk].
    apply (vm_cells _ _ _ V) in Hk.
    destruct (proj1 (vm_cells_dom _ _ _ V z s c)) as (zn & sec & Hz & Hs & Hd & Hc); [eauto|].
    eapply rows_for_in; eauto. destruct z as [|z]; [discriminate|].
    apply (zone_keys_in zs 1 z zn s sec); auto.
  Qed.

  Variable cell_parts : list nat.
  Hypothesis Lc : length cell_parts = length (m2c_cells mp).
  Hypothesis Hsimple : simple_cells mesh.
  Hypothesis Hone : one_sided cell_dim zs mp mesh.

  Lemma in_cell_row L ks m : (forall m row, In (m, row) L <-> csr_row mesh m = Some row) ->
    ks <> [] -> in_cell mesh ks m -> exists row, In (m, row) L /\ forall k, In k ks -> In k row.
  Proof.
    intros HL Hk Hin. destruct ks as [|k0 ks]; [contradiction|].
    destruct (Hin k0 (or_introl eq_refl)) as (row & Hr & _).
    exists row. split; [apply HL; auto|]. intros k H. destruct (Hin k H) as (row' & Hr' & Hi).
    congruence.
  Qed.

  Definition section_parts (z s : nat) (sec : Section) (ps : list nat) : Prop :=
    length ps = s_count sec /\
    forall k p, nth_error ps k = Some p -> exists row m,
      metis_row zs mp z s (s_first sec + k) = Some row /\ in_cell mesh row m /\
      nth_error cell_parts m = Some p.

  Lemma section_face_parts_ok L z s sec :
    NoDup (map fst L) -> (forall m row, In (m, row) L <-> csr_row mesh m = Some row) ->
    (do zn <- at1 zs z; at1 (z_sections zn) s) = Some sec -> (s_dim sec + 1 = cell_dim)%Z ->
    exists ps, section_face_parts cell_parts (uses_of L) mp z sec = Some ps /\
      section_parts z s sec ps.
  Proof.
    intros Hn HL Hs Hd. unfold section_face_parts.
    assert (Ez : exists zn, at1 zs z = Some zn /\ at1 (z_sections zn) s = Some sec).
    { destruct (at1 zs z) as [zn|]; [|discriminate]. eauto. }
    destruct Ez as (zn & Ez & Es).
    destruct (mapM_exists (fun f => do row <- cell_row sec f; do m_nodes <- mapM (node_of mp z) row;
          face_part cell_parts (uses_of L) (s_npe sec) m_nodes)
        (fun f p => exists row m, metis_row zs mp z s f = Some row /\ in_cell mesh row m /\
      nth_error cell_parts m = Some p) (seq (s_first sec) (s_count sec)))
      as (ps & Eps & F).
    { intros f Hf. apply in_seq in Hf.
      destruct (Hone z s sec f Hs Hd) as (ks & m & Er & Hin & Hu); [lia|].
      assert (Hks : ks <> []).
      { intros ->. assert (E1 : S m = m) by (apply Hu; intros k []). lia. }
      destruct (in_cell_row L ks m HL Hks Hin) as (row & Hr & Hsub).
      assert (Lm : m < length cell_parts).
      { apply HL in Hr. unfold csr_row in Hr. destruct (nth_error (mm_range mesh) m); [|discriminate].
        cbn [bind] in Hr. destruct (nth_error (mm_range mesh) (S m)) eqn:E2; [|discriminate].
        apply nth_error_some_lt in E2. lia. }
      destruct (nth_error_lt_some _ _ Lm) as [p Hp].
      exists p. split; [|exists ks, m; auto].
      unfold metis_row in Er. rewrite Ez in Er. cbn [bind] in Er. rewrite Es in Er. cbn [bind] in Er.
      destruct (cell_row sec f) as [r|] eqn:Ecr; [|discriminate]. cbn [bind] in *. rewrite Er. cbn [bind].
      assert (Lk : s_npe sec = length ks).
      { rewrite (mapM_length _ _ _ Er). unfold cell_row in Ecr.
        destruct (f <? s_first sec); [discriminate|]. unfold slice in Ecr.
        destruct (Nat.leb_spec (s_npe sec * (f - s_first sec) + s_npe sec) (length (s_conn sec)));
          [|discriminate]. inversion Ecr. rewrite firstn_length, skipn_length. lia. }
      rewrite Lk. apply (face_part_ok cell_parts L ks m row p); auto.
      - intros m0 r0 H0. apply HL in H0. eapply Hsimple; eauto.
      - intros m' row' H1 H2. apply Hu. intros k Hk. exists row'. split; auto. apply HL; auto. }
    exists ps. split; auto. split.
    - rewrite (mapM_length _ _ _ Eps), seq_length. reflexivity.
    - intros k p Hk. pose proof (Forall2_nth _ _ _ k F) as G. rewrite Hk in G.
      destruct (nth_error (seq (s_first sec) (s_count sec)) k) as [f|] eqn:Ef; [|contradiction].
      assert (Lk : k < s_count sec).
      { apply nth_error_some_lt in Ef. rewrite seq_length in Ef. auto. }
      rewrite nth_error_seq in Ef by auto. inversion Ef; subst. auto.
  Qed.

  Definition entry_ok (z s : nat) (sec : Section) (e : option (list nat)) : Prop :=
    if Z.eqb (s_dim sec + 1) cell_dim then exists ps, e = Some ps /\ section_parts z s sec ps
    else e = None.

  Theorem FillFaceParts_ok :
    exists fps, FillFaceParts cell_dim cell_parts mp zs = Some fps /\ length fps = length zs /\
      forall z zn, at1 zs z = Some zn -> exists fp, at1 fps z = Some fp /\
        length fp = length (z_sections zn) /\
        forall s sec, at1 (z_sections zn) s = Some sec ->
          exists e, at1 fp s = Some e /\ entry_ok z s sec e.
  Proof.
    destruct all_uses as (L & E & Hn & HL). unfold FillFaceParts. rewrite E. cbn [bind].
    assert (GS : forall z zn, at1 zs z = Some zn -> forall ss s,
      (forall j sec, nth_error ss j = Some sec -> at1 (z_sections zn) (s + j) = Some sec) ->
      exists es, sections_face_parts cell_dim cell_parts (uses_of L) mp z ss = Some es /\
      length es = length ss /\
        forall j sec, nth_error ss j = Some sec ->
          exists e, nth_error es j = Some e /\ entry_ok z (s + j) sec e).
    { intros z zn Hz. induction ss as [|sec t IH]; intros s Hss.
      - exists []. split; [reflexivity|]. split; [reflexivity|]. intros [|j]; discriminate.
      - destruct (IH (S s)) as (es & Ee & Le & He).
        { intros j sec' Hj. replace (S s + j) with (s + S j) by lia. apply Hss. auto. }
        assert (Hsec : at1 (z_sections zn) s = Some sec)
          by (replace s with (s + 0) by lia; apply Hss; reflexivity).
        assert (G : exists e, (if Z.eqb (s_dim sec + 1) cell_dim
             then do ps <- section_face_parts cell_parts (uses_of L) mp z sec; Some (Some ps)
             else Some None) = Some e /\ entry_ok z s sec e).
        { unfold entry_ok. destruct (Z.eqb_spec (s_dim sec + 1) cell_dim) as [Hd|Hd].
          - destruct (section_face_parts_ok L z s sec Hn HL) as (ps & E1 & E2); auto.
            { rewrite Hz. auto. }
            exists (Some ps). rewrite E1. cbn [bind]. split; auto. eauto.
          - exists None. auto. }
        destruct G as (e & Ge & Gk). exists (e :: es).
        cbn [sections_face_parts]. rewrite Ge. cbn [bind]. rewrite Ee. cbn [bind].
        split; auto. split; [simpl; congruence|].
        intros [|j] sec' Hj; simpl in Hj.
        + inversion Hj; subst. exists e. rewrite Nat.add_0_r. auto.
        + replace (s + S j) with (S s + j) by lia. simpl. destruct (He j sec' Hj) as (e0 & A1 & A2). exists e0. auto. }
    assert (GZ : forall l z, (forall j zn, nth_error l j = Some zn -> at1 zs (z + j) = Some zn) ->
      exists es, zones_face_parts cell_dim cell_parts (uses_of L) mp z l = Some es /\
      length es = length l /\
        forall j zn, nth_error l j = Some zn -> exists fp, nth_error es j = Some fp /\
          length fp = length (z_sections zn) /\
          forall s sec, at1 (z_sections zn) s = Some sec ->
            exists e, at1 fp s = Some e /\ entry_ok (z + j) s sec e).
    { induction l as [|zn t IH]; intros z Hl.
      - exists []. split; [reflexivity|]. split; [reflexivity|]. intros [|j]; discriminate.
      - destruct (IH (S z)) as (es & Ee & Le & He).
        { intros j zn' Hj. replace (S z + j) with (z + S j) by lia. apply Hl. auto. }
        assert (Hz : at1 zs z = Some zn)
          by (replace z with (z + 0) by lia; apply Hl; reflexivity).
        destruct (GS z zn Hz (z_sections zn) 1) as (fp & E1 & L1 & H1).
        { intros j sec Hj. exact Hj. }
        exists (fp :: es). cbn [zones_face_parts]. rewrite E1. cbn [bind]. rewrite Ee. cbn [bind].
        split; auto. split; [simpl; congruence|].
        intros [|j] zn' Hj; simpl in Hj.
        + inversion Hj; subst. exists fp. split; auto. split; auto.
          intros [|s] sec Hs; [discriminate|]. rewrite Nat.add_0_r. apply (H1 s sec Hs).
        + replace (z + S j) with (S z + j) by lia. exact (He j zn' Hj). }
    destruct (GZ zs 1) as (fps & E1 & L1 & H1); [intros j zn Hj; exact Hj|].
    exists fps. split; auto. split; auto. intros [|z] zn Hz; [discriminate|].
    apply (H1 z zn Hz).
  Qed.
End Rows.
