(** Lemmas about the model of mesh files. *)
From Coq Require Import String List Arith ZArith Permutation Sorted Lia Bool.
From Verif Require Import Arrays Model_Cgns Model_Mapper Model_Metis Model_Partition Model_Sections
  Spec_Mesh Spec_Sections Proof_Sections Proof_MergeSplit Model_MeshFile Spec_MeshFile.
Import ListNotations.

(** ** Lists *)

Lemma slice_whole {X} (l : list X) n : n = List.length l -> slice l 0 n = Some l.
Proof. intros ->. rewrite slice_some by lia. simpl. rewrite firstn_all. auto. Qed.

Lemma write_list_ok {X Y} (name : Y -> string) (mk : X -> option Y) (ok : X -> nat -> bool)
    (l : list X) (ys : list Y) :
  Forall2 (fun x y => mk x = Some y) l ys -> named 32 name ys ->
  (forall k x, nth_error l k = Some x -> ok x (S k) = true) ->
  write_list name mk ok l = Some ys.
Proof.
  intros F (ND & HN). unfold write_list.
  match goal with |- _ -> foldM ?f _ _ = _ => set (step := f) end.
  enough (G : forall done, NoDup (map name (done ++ ys)) ->
     (forall k x, nth_error l k = Some x -> ok x (S (List.length done + k)) = true) ->
     foldM step l done = Some (done ++ ys)%list).
  { intros HO. apply (G []); auto. }
  clear ND. induction F as [|x y l ys E F IH]; intros done ND HO; simpl.
  - rewrite app_nil_r. auto.
  - assert (EA : cg_append name done y = Some (done ++ [y], S (List.length done))%list).
    { unfold cg_append. replace (legal_name (name y)) with true.
      2:{ symmetry. unfold legal_name. apply andb_true_intro.
          destruct (HN y) as (H1 & H2); [left; auto|]. split; apply Nat.leb_le; auto. }
      replace (existsb (fun y0 => String.eqb (name y0) (name y)) done) with false; auto.
      symmetry. apply not_true_is_false. intros H. apply existsb_exists in H.
      destruct H as (z & Hz & Ez). apply String.eqb_eq in Ez.
      rewrite map_app in ND. simpl in ND. apply NoDup_remove_2 in ND. apply ND.
      apply in_or_app. left. rewrite <- Ez. apply in_map. auto. }
    assert (ES : step done x = Some (done ++ [y])%list).
    { unfold step. rewrite E. simpl. rewrite EA. simpl.
      pose proof (HO 0 x eq_refl) as H0. rewrite Nat.add_0_r in H0. rewrite H0. auto. }
    rewrite ES. simpl. rewrite IH.
    + rewrite <- app_assoc. auto.
    + intros z Hz. apply HN. right; auto.
    + rewrite <- app_assoc. auto.
    + intros k x' Hk. rewrite app_length. simpl.
      replace (S (List.length done + 1 + k)) with (S (List.length done + S k)) by lia. apply HO. auto.
Qed.

Lemma Forall2_mapM {X Y} (f : X -> option Y) l r :
  Forall2 (fun x y => f x = Some y) l r -> mapM f l = Some r.
Proof. induction 1 as [|x y l r E F IH]; simpl; auto. rewrite E, IH. auto. Qed.

Lemma mapM_Forall2 {X Y} (f : X -> option Y) l r :
  mapM f l = Some r -> Forall2 (fun x y => f x = Some y) l r.
Proof.
  revert r. induction l as [|x t IH]; simpl; intros r H.
  - inversion H. constructor.
  - destruct (f x) as [y|] eqn:E; [|discriminate]. destruct (mapM f t) as [ys|]; [|discriminate].
    inversion H; subst. constructor; auto.
Qed.

Lemma Forall2_exists {X Y} (Q : X -> Y -> Prop) l :
  (forall x, In x l -> exists y, Q x y) -> exists r, Forall2 Q l r.
Proof.
  induction l as [|x t IH]; intros H.
  - exists []. constructor.
  - destruct (H x) as (y & Hy); [left; auto|]. destruct IH as (r & Hr); [intros; apply H; right; auto|].
    exists (y :: r). constructor; auto.
Qed.

Lemma sorted_unique {X} (Q : X -> X -> Prop) l l' : Permutation l l' ->
  StronglySorted Q l -> StronglySorted Q l' ->
  (forall a b, In a l -> In b l -> Q a b -> Q b a -> a = b) -> l = l'.
Proof.
  revert l'. induction l as [|x t IH]; intros [|y u] P S S' HA; auto.
  - apply Permutation_length in P. discriminate.
  - apply Permutation_length in P. discriminate.
  - apply StronglySorted_inv in S. destruct S as (S & F).
    apply StronglySorted_inv in S'. destruct S' as (S' & F').
    rewrite Forall_forall in *.
    assert (E : x = y).
    { assert (Hx : In x (y :: u)) by (apply (Permutation_in _ P); left; auto).
      assert (Hy : In y (x :: t)) by (apply (Permutation_in _ (Permutation_sym P)); left; auto).
      destruct Hx as [->|Hx]; auto. destruct Hy as [->|Hy]; auto.
      apply HA; [left; auto|right; auto|apply F; auto|apply F'; auto]. }
    subst y. f_equal. apply IH; auto.
    + apply Permutation_cons_inv in P. auto.
    + intros a b Ha Hb. apply HA; right; auto.
Qed.

Lemma last_nth_error {X} (l : list X) d n x : List.length l = S n -> nth_error l n = Some x ->
  last l d = x.
Proof.
  revert l. induction n as [|n IH]; intros l HL HN.
  - destruct l as [|a [|b t]]; try discriminate. simpl in *. congruence.
  - destruct l as [|a t]; [discriminate|]. simpl in HN. simpl in HL.
    destruct t as [|b t]; [discriminate|]. rewrite <- (IH (b :: t)); auto.
Qed.

Lemma sorted_nth {l : list nat} i j a b : StronglySorted lt l -> i < j ->
  nth_error l i = Some a -> nth_error l j = Some b -> a < b.
Proof.
  intros HS. revert i j. induction HS as [|x t HS IH HF]; intros i j Hij Ha Hb.
  - destruct i; discriminate.
  - destruct i, j; try lia; simpl in *.
    + inversion Ha; subst. rewrite Forall_forall in HF. apply HF. eapply nth_error_In; eauto.
    + apply (IH i j); auto. lia.
Qed.

(** ** One section *)

Lemma type_eqb_eq a b : type_eqb a b = true -> a = b.
Proof. destruct (type_eqb_spec a b); congruence. Qed.

Lemma dim_range t d : dim t = Some d -> t <> MIXED -> (0 <= d <= 3)%Z.
Proof. destruct t; simpl; intros H N; inversion H; try lia. congruence. Qed.

Lemma consistent f : standard_section f -> cg_consistent f = true.
Proof.
  intros ((H1 & H2) & H). unfold cg_consistent. fold (fs_count f).
  apply andb_true_intro. split; [apply andb_true_intro; split; apply Nat.leb_le; lia|].
  destruct (type_eqb (fs_type f) MIXED).
  - destruct H as (A & B & C). apply andb_true_intro. split; apply Nat.eqb_eq; auto.
    apply (last_nth_error _ _ (fs_count f)); auto. lia.
  - destruct H as (A & B). rewrite A. simpl. apply Nat.eqb_eq. auto.
Qed.

(** the loop that looks for the highest dimension of a cell of a mixed section *)
Lemma mixed_dim_loop f l : forall d0,
  (forall i, In i l -> i <> last (fs_offset f) 0 -> exists t d, 
     nth_error (fs_conn f) i = Some (type_code t) /\ dim t = Some d) ->
  exists d, foldM (fun d i => if i =? last (fs_offset f) 0 then Some d
              else do c <- cell_dim_at f i; Some (Z.max d c)) l d0 = Some d /\
    (d0 <= d)%Z /\
    (forall i t c, In i l -> i <> last (fs_offset f) 0 -> nth_error (fs_conn f) i = Some (type_code t) ->
       dim t = Some c -> (c <= d)%Z) /\
    (d = d0 \/ exists i t, In i l /\ i <> last (fs_offset f) 0 /\
       nth_error (fs_conn f) i = Some (type_code t) /\ dim t = Some d).
Proof.
  induction l as [|i l IH]; intros d0 H; simpl.
  - exists d0. repeat split; auto; try lia; intros i t c [].
  - destruct (Nat.eqb_spec i (last (fs_offset f) 0)) as [E|E]; simpl.
    + destruct (IH d0) as (d & A & B & C & D); [intros; apply H; simpl; auto|].
      exists d. repeat split; auto.
      * intros j t c [->|Hj] Hn; [congruence|]. eapply C; eauto.
      * destruct D as [->|(j & t & Hj & D)]; [left; auto|right; exists j, t; simpl; tauto].
    + destruct (H i (or_introl eq_refl) E) as (t & c & Ht & Hc).
      unfold cell_dim_at at 1. rewrite Ht. simpl. rewrite code_ok. simpl. rewrite Hc. simpl.
      destruct (IH (Z.max d0 c)) as (d & A & B & C & D); [intros; apply H; simpl; auto|].
      exists d. repeat split; auto; try lia.
      * intros j t' c' [->|Hj] Hn Ht' Hc'.
        -- rewrite Ht in Ht'. assert (EC : code_type (type_code t) = code_type (type_code t')) by congruence.
           rewrite !code_ok in EC. assert (t = t') by congruence. subst t'.
           assert (c = c') by congruence. lia.
        -- eapply C; eauto.
      * destruct D as [->|(j & t' & Hj & D)].
        -- destruct (Z.max_spec d0 c) as [(_ & ->)|(_ & ->)]; [right|left; auto].
           exists i, t. auto.
        -- right. exists j, t'. simpl. tauto.
Qed.

(** [s] has the contents of a section that the program can read *)
Definition read_from (f : FSection) (s : Section) : Prop :=
  standard_section f /\ known_types f /\ s_name s = fs_name f /\ s_type s = fs_type f /\
  s_count s = fs_count f /\ s_conn s = fs_conn f /\ s_offset s = fs_offset f /\
  section_dim f (s_dim s).

Lemma offsets_before f k i : type_eqb (fs_type f) MIXED = true -> standard_section f ->
  nth_error (fs_offset f) k = Some i -> (k < fs_count f <-> i <> last (fs_offset f) 0).
Proof.
  intros ET (_ & H) Hk. rewrite ET in H. destruct H as (A & B & C).
  assert (EL : last (fs_offset f) 0 = List.length (fs_conn f))
    by (apply (last_nth_error _ _ (fs_count f)); auto; lia).
  rewrite EL. pose proof (nth_error_some_lt _ _ _ Hk) as Hlt. split; intros HH.
  - pose proof (sorted_nth _ _ _ _ B HH Hk C). lia.
  - destruct (Nat.eq_dec k (fs_count f)) as [->|]; [|lia]. congruence.
Qed.

Lemma read_dim f : standard_section f -> known_types f ->
  exists d d0, dim (fs_type f) = Some d0 /\
    (if type_eqb (fs_type f) MIXED then mixed_dim f d0 else Some d0) = Some d /\
    section_dim f d /\ (0 <= d <= 3)%Z.
Proof.
  intros HS HK. unfold section_dim, cell_type, known_types in *.
  destruct (type_eqb (fs_type f) MIXED) eqn:ET.
  - assert (EM := type_eqb_eq _ _ ET).
    assert (HI : forall i, In i (fs_offset f) -> i <> last (fs_offset f) 0 ->
       exists k, k < fs_count f /\ nth_error (fs_offset f) k = Some i).
    { intros i Hi Hn. apply In_nth_error in Hi. destruct Hi as (k & Hk). exists k. split; auto.
      apply (offsets_before f k i); auto. }
    rewrite EM. simpl dim. unfold mixed_dim.
    destruct (mixed_dim_loop f (fs_offset f) (-1)%Z) as (d & A & B & C & D).
    { intros i Hi Hn. destruct (HI i Hi Hn) as (k & Hk1 & Hk2).
      destruct (HK k i Hk1 Hk2) as (t & d & Q1 & Q2 & _). eauto. }
    assert (HD : forall i, In i (fs_offset f) -> i <> last (fs_offset f) 0 -> forall t,
       nth_error (fs_conn f) i = Some (type_code t) -> dim t = Some d -> (0 <= d <= 3)%Z).
    { intros i Hi Hn t Ht Hd. destruct (HI i Hi Hn) as (k & Hk1 & Hk2).
      destruct (HK k i Hk1 Hk2) as (t' & d' & Q1 & Q2 & Q3).
      rewrite Ht in Q1. assert (EC : code_type (type_code t) = code_type (type_code t')) by congruence.
      rewrite !code_ok in EC. assert (t = t') by congruence. subst t'. apply (dim_range t); auto. }
    (* there is at least one cell *)
    assert (exists i, nth_error (fs_offset f) 0 = Some i) as (i0 & Hi0).
    { destruct HS as (_ & H). rewrite ET in H. apply nth_error_lt_some. destruct H as (-> & _). lia. }
    assert (Hc0 : 0 < fs_count f) by (unfold fs_count; lia).
    assert (Hn0 : i0 <> last (fs_offset f) 0) by (apply (offsets_before f 0); auto).
    destruct (HK 0 i0 Hc0 Hi0) as (t0 & d0 & P1 & P2 & P3).
    assert (d0 <= d)%Z by (apply (C i0 t0); auto; eapply nth_error_In; eauto).
    pose proof (dim_range _ _ P2 P3).
    destruct D as [->|(i & t & D1 & D2 & D3 & D4)]; [lia|].
    exists d, (-1)%Z. repeat split; auto.
    + exists t. split; auto. destruct (HI i D1 D2) as (k & Hk1 & Hk2). eauto.
    + intros t' d' (k & i' & K1 & K2 & K3) K4. apply (C i' t'); auto.
      * eapply nth_error_In; eauto.
      * apply (offsets_before f k); auto.
    + apply (HD i D1 D2 t); auto.
    + apply (HD i D1 D2 t); auto.
  - destruct HK as (d & Hd). exists d, d. rewrite Hd. repeat split; auto.
    + exists (fs_type f). auto.
    + intros t d' -> E. assert (d = d') by congruence. lia.
    + apply (dim_range (fs_type f)); auto. intros EM. rewrite EM in ET. discriminate.
    + apply (dim_range (fs_type f)); auto. intros EM. rewrite EM in ET. discriminate.
Qed.

Lemma read_section_ok i f : standard_section f -> known_types f ->
  exists s, Section_Read i f = Some s /\ read_from f s /\ s_id s = i /\ (0 <= s_dim s <= 3)%Z.
Proof.
  intros HS HK. unfold Section_Read. rewrite consistent by auto.
  destruct (read_dim f HS HK) as (d & d0 & E1 & E2 & E3 & E4). rewrite E1. simpl. rewrite E2. simpl.
  eexists. split; [reflexivity|]. unfold read_from. simpl. fold (fs_count f). tauto.
Qed.

(** the node written for [s] *)
Definition to_file (s : Section) : FSection :=
  mkFSection (s_name s) (s_type s) (s_first s) (s_first s + s_count s - 1) (s_conn s) (s_offset s).

Lemma to_file_like f s : read_from f s -> 1 <= s_first s ->
  fs_count (to_file s) = fs_count f /\ fs_type (to_file s) = fs_type f /\
  fs_conn (to_file s) = fs_conn f /\ fs_offset (to_file s) = fs_offset f /\
  standard_section (to_file s) /\ known_types (to_file s) /\ section_dim (to_file s) (s_dim s) /\
  fs_contents (to_file s) = fs_contents f.
Proof.
  intros (HS & HK & E1 & E2 & E3 & E4 & E5 & E6) H1.
  assert (EC : fs_count (to_file s) = fs_count f).
  { unfold fs_count at 1. simpl. rewrite E3. unfold fs_count. lia. }
  assert (ET : fs_type (to_file s) = fs_type f) by auto.
  assert (EN : fs_conn (to_file s) = fs_conn f) by auto.
  assert (EO : fs_offset (to_file s) = fs_offset f) by auto.
  assert (EL : fs_first (to_file s) = s_first s /\ fs_last (to_file s) = s_first s + s_count s - 1) by auto.
  assert (H2 : standard_section (to_file s)).
  { unfold standard_section in *. rewrite EC, ET, EN, EO. destruct EL as (-> & ->). split; [|tauto].
    rewrite E3. unfold fs_count. lia. }
  assert (H3 : known_types (to_file s)).
  { unfold known_types in *. rewrite EC, ET, EN, EO. auto. }
  assert (H4 : section_dim (to_file s) (s_dim s)).
  { unfold section_dim, cell_type in *. rewrite EC, ET, EN, EO. auto. }
  assert (H5 : fs_contents (to_file s) = fs_contents f).
  { unfold fs_contents. rewrite EC, ET, EN, EO. simpl. congruence. }
  exact (conj EC (conj ET (conj EN (conj EO (conj H2 (conj H3 (conj H4 H5))))))).
Qed.

Lemma section_dim_unique f d d' : section_dim f d -> section_dim f d' -> d = d'.
Proof.
  intros ((t & A & B) & C) ((t' & A' & B') & C').
  pose proof (C _ _ A' B'). pose proof (C' _ _ A B). lia.
Qed.

Lemma section_node_ok f s : read_from f s -> 1 <= s_first s -> section_node s = Some (to_file s).
Proof.
  intros HR H1. destruct (to_file_like f s HR H1) as (_ & _ & _ & _ & HS & _).
  destruct HR as ((HS0 & _) & _ & _ & E2 & E3 & _).
  unfold section_node. destruct (Nat.eqb_spec (s_count s) 0) as [E|E].
  - rewrite E3 in E. unfold fs_count in E. lia.
  - destruct HS as (_ & HS). simpl in HS. unfold mixed, s_npe.
    replace (fs_count (to_file s)) with (s_count s) in HS by (unfold fs_count; simpl; lia).
    destruct (type_eqb (s_type s) MIXED).
    + destruct HS as (A & B & C). rewrite slice_whole by auto. simpl. rewrite C. simpl.
      rewrite slice_whole by auto. auto.
    + destruct HS as (A & B). rewrite slice_whole by auto. simpl. unfold to_file. rewrite A. auto.
Qed.

Lemma read_back f s : read_from f s -> 1 <= s_first s -> Section_Read (s_id s) (to_file s) = Some s.
Proof.
  intros HR H1. destruct (to_file_like f s HR H1) as (A & B & C & D & E & F & G & I).
  unfold Section_Read. rewrite consistent by auto.
  destruct (read_dim _ E F) as (d & d0 & E1 & E2 & E3 & _). rewrite E1. cbv beta iota delta [bind]. rewrite E2.
  rewrite (section_dim_unique _ _ _ E3 G). fold (fs_count (to_file s)). rewrite A.
  destruct HR as (_ & _ & _ & _ & <- & _). destruct s; auto.
Qed.

(** ** The sections of a zone *)

Lemma combine_seq_Forall2 {X Y} (f : nat -> X -> option Y) l : forall a r,
  Forall2 (fun p y => f (fst p) (snd p) = Some y) (combine (seq a (List.length l)) l) r <->
  List.length r = List.length l /\
  forall k x y, nth_error l k = Some x -> nth_error r k = Some y -> f (a + k) x = Some y.
Proof.
  induction l as [|x t IH]; intros a r; simpl.
  - split; intros H.
    + inversion H. split; auto. intros [|k] ? ? K; discriminate.
    + destruct H as (H & _). destruct r; [constructor|discriminate].
  - split; intros H.
    + inversion H as [|p y l' r' E F]; subst. apply IH in F. destruct F as (F1 & F2). simpl in E.
      split; [simpl; auto|]. intros [|k] x' y' K1 K2; simpl in *.
      * rewrite Nat.add_0_r. congruence.
      * replace (a + S k) with (S a + k) by lia. apply F2; auto.
    + destruct H as (H1 & H2). destruct r as [|y r]; [discriminate|]. constructor.
      * simpl. rewrite <- (Nat.add_0_r a). apply (H2 0); auto.
      * apply IH. split; [simpl in H1; lia|]. intros k x' y' K1 K2.
        replace (S a + k) with (a + S k) by lia. apply (H2 (S k)); auto.
Qed.

Lemma renumber_id ss : forall i a, map s_id ss = seq i (List.length ss) -> consecutive a ss ->
  renumber i a ss = (ss, a + CountAllCells ss).
Proof.
  unfold CountAllCells. induction ss as [|s t IH]; intros i a HI HC; simpl in *.
  - rewrite Nat.add_0_r. auto.
  - destruct s as [sid sname sfirst scount sdim stype sconn soff]. simpl in *.
    injection HI as H1 H2. destruct HC as (H3 & H4). subst sid sfirst. rewrite IH; auto.
    rewrite Nat.add_assoc. auto.
Qed.

Lemma consecutive_first ss : forall a, consecutive a ss -> forall s, In s ss -> a <= s_first s.
Proof.
  induction ss as [|s t IH]; simpl; intros a H x Hx; [easy|].
  destruct H as (H1 & H2), Hx as [->|Hx]; [lia|]. specialize (IH _ H2 x Hx). lia.
Qed.

Lemma ordered_antisym a b : ordered a b -> ordered b a -> s_id a = s_id b.
Proof. unfold ordered. lia. Qed.

(** sorting sections that are sorted changes nothing *)
Lemma sort_sorted ss order : sort_contract before ss order ->
  StronglySorted (fun a b => (s_dim b <= s_dim a)%Z) ss ->
  map s_id ss = seq 1 (List.length ss) -> consecutive 1 ss ->
  SortSectionsByDim order ss = Some ss.
Proof.
  intros HC HS HI HK.
  assert (HO : StronglySorted ordered ss).
  { apply StronglySorted_nth. intros i j a b Hij Ha Hb.
    assert (s_id a = 1 + i /\ s_id b = 1 + j) as (I1 & I2).
    { split; [apply (map_nth_error s_id) in Ha; rewrite HI in Ha
             |apply (map_nth_error s_id) in Hb; rewrite HI in Hb].
      - rewrite nth_error_seq in Ha; [congruence|]. apply nth_error_some_lt in Ha. rewrite seq_length in Ha. auto.
      - rewrite nth_error_seq in Hb; [congruence|]. apply nth_error_some_lt in Hb. rewrite seq_length in Hb. auto. }
    assert (s_dim b <= s_dim a)%Z.
    { clear - HS Hij Ha Hb. revert i j Hij Ha Hb.
      induction HS as [|x t HS IH HF]; intros [|i] [|j] Hij Ha Hb; simpl in *; try discriminate; try lia.
      - inversion Ha; subst. rewrite Forall_forall in HF. apply HF. eapply nth_error_In; eauto.
      - apply (IH i j); auto. lia. }
    unfold ordered. lia. }
  unfold SortSectionsByDim. destruct HC as (P & HB). destruct (mapM_perm ss order P) as (sorted & E & PS).
  rewrite E. simpl.
  assert (HSS : StronglySorted ordered sorted).
  { apply StronglySorted_nth. intros i j a b Hij Ha Hb. apply before_ordered.
    destruct (nth_error_lt_some order i) as (oi & Hoi).
    { rewrite <- (mapM_length _ _ _ E). eapply nth_error_some_lt; eauto. }
    destruct (nth_error_lt_some order j) as (oj & Hoj).
    { rewrite <- (mapM_length _ _ _ E). eapply nth_error_some_lt; eauto. }
    destruct (mapM_nth _ _ _ _ _ E Hoi) as (a' & A1 & A2).
    destruct (mapM_nth _ _ _ _ _ E Hoj) as (b' & B1 & B2).
    apply (HB i j oi oj); auto; congruence. }
  assert (ND : NoDup (map s_id ss)) by (rewrite HI; apply seq_NoDup).
  assert (EQ : sorted = ss).
  { apply (sorted_unique ordered); auto. intros a b Ha Hb H1 H2.
    pose proof (ordered_antisym _ _ H1 H2) as EI.
    apply (Permutation_in _ PS) in Ha. apply (Permutation_in _ PS) in Hb.
    apply In_nth_error in Ha. destruct Ha as (i & Hi). apply In_nth_error in Hb. destruct Hb as (j & Hj).
    assert (i = j).
    { apply (NoDup_nth_error (map s_id ss)); auto.
      - rewrite map_length. eapply nth_error_some_lt; eauto.
      - rewrite (map_nth_error s_id _ _ Hi), (map_nth_error s_id _ _ Hj). congruence. }
    subst j. congruence. }
  rewrite EQ, renumber_id by auto.
  replace (1 + CountAllCells ss - 1) with (CountAllCells ss) by lia. rewrite Nat.eqb_refl. auto.
Qed.

Lemma contents_read f s s' : contents s = contents s' -> read_from f s -> read_from f s'.
Proof.
  unfold contents, read_from. intros E. inversion E as [[E1 E2 E3 E4 E5 E6]].
  rewrite E1, E2, E3, E4, E5, E6. auto.
Qed.

Lemma sections_read std_sort fss :
  (forall l, sort_contract before l (std_sort l)) ->
  (forall f, In f fss -> standard_section f /\ known_types f) ->
  exists ss, ReadAllSections std_sort fss = Some ss /\
    map s_id ss = seq 1 (List.length ss) /\ consecutive 1 ss /\
    StronglySorted (fun a b => (s_dim b <= s_dim a)%Z) ss /\
    (forall s, In s ss -> (0 <= s_dim s <= 3)%Z /\ 1 <= s_first s /\ exists f, In f fss /\ read_from f s) /\
    Permutation (map (fun s => fs_contents (to_file s)) ss) (map fs_contents fss).
Proof.
  intros HC HF. unfold ReadAllSections.
  destruct (Forall2_exists (fun p s => Section_Read (fst p) (snd p) = Some s)
              (combine (seq 1 (List.length fss)) fss)) as (ss0 & F2).
  { intros (i & f) Hin. simpl. destruct (HF f) as (H1 & H2); [eapply in_combine_r; eauto|].
    destruct (read_section_ok i f H1 H2) as (s & E & _). eauto. }
  rewrite (Forall2_mapM _ _ _ F2). simpl.
  apply combine_seq_Forall2 in F2. destruct F2 as (L & F2).
  assert (HR : forall k s, nth_error ss0 k = Some s -> exists f, nth_error fss k = Some f /\
             read_from f s /\ (0 <= s_dim s <= 3)%Z).
  { intros k s Hs. destruct (nth_error_lt_some fss k) as (f & Hf).
    { rewrite <- L. eapply nth_error_some_lt; eauto. }
    exists f. split; auto. destruct (HF f) as (H1 & H2); [eapply nth_error_In; eauto|].
    destruct (read_section_ok (1 + k) f H1 H2) as (s' & E & R1 & _ & R2).
    rewrite (F2 _ _ _ Hf Hs) in E. inversion E; subst. auto. }
  destruct (sort_ok ss0 (std_sort ss0) (HC ss0)) as (r & sorted & E & P & S & EC & EI & EK & _).
  assert (EL : List.length r = List.length ss0).
  { rewrite <- (map_length s_id), EI, seq_length. auto. }
  assert (HRR : forall s, In s r -> (0 <= s_dim s <= 3)%Z /\ 1 <= s_first s /\ exists f, In f fss /\ read_from f s).
  { intros s Hs. assert (Hc : In (contents s) (map contents sorted)) by (rewrite <- EC; apply in_map; auto).
    apply in_map_iff in Hc. destruct Hc as (s' & Es & Hs').
    apply (Permutation_in _ P) in Hs'. apply In_nth_error in Hs'. destruct Hs' as (k & Hk).
    destruct (HR k s' Hk) as (f & Hf & R1 & R2).
    split; [|split].
    - assert (ED : s_dim s' = s_dim s) by (unfold contents in Es; congruence). lia.
    - apply (consecutive_first r 1); auto.
    - exists f. split; [eapply nth_error_In; eauto|]. eapply contents_read; eauto. }
  exists r. split; [auto|]. split; [rewrite EL; auto|]. split; [auto|]. split; [|split; [auto|]].
  - apply (StronglySorted_unmap _ (fun x y => (y <= x)%Z) s_dim); [auto|].
    rewrite (contents_dim _ _ EC). apply (StronglySorted_map ordered); [|auto].
    unfold ordered. intros a b. lia.
  - set (g := fun s => (s_name s, s_type s, s_count s, s_conn s, s_offset s)).
    assert (E1 : forall l, (forall s, In s l -> 1 <= s_first s /\ 1 <= s_count s) ->
        map (fun s => fs_contents (to_file s)) l = map g l).
    { intros l H. apply map_ext_in. intros s Hs. unfold fs_contents, g, fs_count. simpl.
      destruct (H s Hs). f_equal. f_equal. f_equal. lia. }
    rewrite E1.
    2:{ intros s Hs. destruct (HRR s Hs) as (_ & H1 & f & _ & R1). split; auto.
        destruct R1 as (_ & _ & _ & _ & -> & _). unfold fs_count. lia. }
    assert (E2 : map g r = map g sorted).
    { assert (EH : map (fun c => match c with (n, c, d, t, v, o) => (n, t, c, v, o) end) (map contents r)
         = map (fun c => match c with (n, c, d, t, v, o) => (n, t, c, v, o) end) (map contents sorted))
        by (rewrite EC; auto).
      rewrite !map_map in EH. exact EH. }
    rewrite E2. transitivity (map g ss0); [apply Permutation_map; auto|].
    replace (map g ss0) with (map fs_contents fss); [auto|].
    apply nth_error_ext. intros k. rewrite !nth_error_map.
    destruct (nth_error ss0 k) as [s|] eqn:Es.
    + destruct (HR k s Es) as (f & Hf & R1 & _). rewrite Hf. simpl. f_equal.
      destruct R1 as (_ & _ & H1 & H2 & H3 & H4 & H5 & _). unfold g, fs_contents. congruence.
    + assert (nth_error fss k = None) as ->; auto. apply nth_error_None. apply nth_error_None in Es. lia.
Qed.

(** in sections of decreasing dimension, those of dimension at least [d] are a first part *)
Lemma chosen_prefix d ss : StronglySorted (fun a b => (s_dim b <= s_dim a)%Z) ss ->
  (forall s, In s ss -> (s_dim s <= 3)%Z) ->
  exists rest, ss = (filter (chosen d 3) ss ++ rest)%list /\ forall s, In s rest -> (s_dim s < d)%Z.
Proof.
  intros HS H3. induction HS as [|s t HS IH HF]; simpl.
  - exists []. split; auto. intros s [].
  - destruct (chosen d 3 s) eqn:E.
    + destruct IH as (rest & E1 & E2); [intros; apply H3; simpl; auto|].
      exists rest. split; auto. simpl. f_equal. auto.
    + assert (HD : (s_dim s < d)%Z).
      { unfold chosen in E. apply andb_false_iff in E. destruct E as [E|E].
        - apply Z.leb_gt in E. auto.
        - apply Z.leb_gt in E. specialize (H3 s (or_introl eq_refl)). lia. }
      rewrite Forall_forall in HF. exists (s :: t). split.
      * rewrite filter_none; auto. apply Forall_forall. intros x Hx. specialize (HF x Hx).
        unfold chosen. apply andb_false_iff. left. apply Z.leb_gt. lia.
      * intros x [->|Hx]; auto. specialize (HF x Hx). lia.
Qed.

Lemma sections_written d std_sort fss ss :
  (forall l, sort_contract before l (std_sort l)) ->
  (forall f, In f fss -> standard_section f /\ known_types f) -> named 32 fs_name fss ->
  ReadAllSections std_sort fss = Some ss ->
  exists first rest, ss = (first ++ rest)%list /\
    (forall s, In s first -> (d <= s_dim s)%Z) /\ (forall s, In s rest -> (s_dim s < d)%Z) /\
    write_sections d 3 ss = Some (map to_file first) /\
    ReadAllSections std_sort (map to_file first) = Some first.
Proof.
  intros HC HF HN HR. destruct (sections_read std_sort fss HC HF) as (r & E & EI & EK & ES & EF & EP).
  rewrite HR in E. inversion E; subst r. clear E.
  destruct (chosen_prefix d ss ES) as (rest & E1 & E2); [intros s Hs; apply EF in Hs; lia|].
  set (first := filter (chosen d 3) ss) in *.
  exists first, rest. split; [auto|].
  assert (HFI : forall s, In s first -> In s ss) by (intros s Hs; apply filter_In in Hs; tauto).
  split.
  { intros s Hs. apply filter_In in Hs. destruct Hs as (_ & Hs). unfold chosen in Hs.
    apply andb_true_iff in Hs. destruct Hs as (Hs & _). apply Z.leb_le in Hs. auto. }
  split; [auto|].
  assert (EI' : map s_id first = seq 1 (List.length first)).
  { rewrite E1, map_app, app_length, seq_app in EI.
    apply (f_equal (firstn (List.length (map s_id first)))) in EI.
    rewrite firstn_app, Nat.sub_diag, firstn_all in EI. simpl in EI. rewrite app_nil_r in EI.
    rewrite EI. rewrite map_length, firstn_app, seq_length, Nat.sub_diag. simpl. rewrite app_nil_r.
    rewrite <- (seq_length (List.length first) 1) at 1. rewrite firstn_all. auto. }
  assert (EK' : consecutive 1 first) by (rewrite E1 in EK; apply consecutive_app in EK; tauto).
  assert (ES' : StronglySorted (fun a b => (s_dim b <= s_dim a)%Z) first).
  { rewrite E1 in ES. clear - ES. induction first as [|s t IH]; [constructor|].
    simpl in ES. apply StronglySorted_inv in ES. destruct ES as (ES & EF). constructor; auto.
    rewrite Forall_forall in *. intros x Hx. apply EF. apply in_or_app; auto. }
  split.
  - unfold write_sections. fold first. apply write_list_ok.
    + assert (G : forall l, (forall s, In s l -> In s first) ->
         Forall2 (fun x y => section_node x = Some y) l (map to_file l)).
      { induction l as [|s t IH]; intros H; simpl; constructor.
        - destruct (EF s) as (_ & H1 & f & _ & R1); [apply HFI, H; simpl; auto|].
          apply (section_node_ok f); auto.
        - apply IH. intros; apply H; simpl; auto. }
      apply G. auto.
    + destruct HN as (ND & HN).
      assert (PN : Permutation (map s_name ss) (map fs_name fss)).
      { assert (EH := Permutation_map (fun c : _ * _ * _ * _ * _ => fst (fst (fst (fst c)))) EP).
        rewrite !map_map in EH. exact EH. }
      split.
      * rewrite map_map. apply (Permutation_NoDup (Permutation_sym PN)) in ND.
        rewrite E1, map_app in ND. simpl. clear - ND. 
        induction (map s_name first) as [|x t IH]; [constructor|]. simpl in ND. inversion ND; subst.
        constructor; auto. intros H. apply H1. apply in_or_app; auto.
      * intros f Hf. apply in_map_iff in Hf. destruct Hf as (s & <- & Hs). simpl.
        assert (HIn : In (s_name s) (map fs_name fss))
          by (apply (Permutation_in _ PN); apply in_map; auto).
        apply in_map_iff in HIn. destruct HIn as (f & <- & Hf). apply HN. auto.
    + intros k s Hk. apply Nat.eqb_eq. apply (map_nth_error s_id) in Hk. rewrite EI' in Hk.
      rewrite nth_error_seq in Hk; [simpl in Hk; congruence|].
      apply nth_error_some_lt in Hk. rewrite seq_length in Hk. auto.
  - unfold ReadAllSections. rewrite (Forall2_mapM _ _ first).
    + simpl. apply sort_sorted; auto.
    + apply (combine_seq_Forall2 Section_Read). split; [rewrite map_length; auto|].
      intros k f s Hf Hs. rewrite nth_error_map, Hs in Hf. simpl in Hf. inversion Hf; subst f.
      assert (EQ : 1 + k = s_id s).
      { apply (map_nth_error s_id) in Hs. rewrite EI' in Hs.
        rewrite nth_error_seq in Hs; [congruence|].
        apply nth_error_some_lt in Hs. rewrite seq_length in Hs. auto. }
      rewrite EQ. destruct (EF s) as (_ & H1 & f & _ & R1); [apply HFI; eapply nth_error_In; eauto|].
      apply (read_back f); auto.
Qed.
