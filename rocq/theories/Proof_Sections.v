From Coq Require Import String List Arith ZArith Lia Permutation Sorted Bool.
From Verif Require Import Arrays Model_Cgns Model_Mapper Model_Metis Model_Partition Model_Sections
  Spec_Mesh Spec_Sections.
Import ListNotations.

(** ** Sorting *)

Lemma mapM_perm {X} (ss : list X) order : Permutation order (seq 0 (length ss)) ->
  exists r, mapM (nth_error ss) order = Some r /\ Permutation r ss.
Proof.
  intros P.
  assert (D : forall d : X, mapM (nth_error ss) order = Some (map (fun i => nth i ss d) order)).
  { intros d. apply mapM_map. intros i Hi. apply (Permutation_in _ P) in Hi. apply in_seq in Hi.
    apply nth_error_nth'. lia. }
  destruct ss as [|d t] eqn:E.
  - simpl in P. apply Permutation_sym, Permutation_nil in P. subst order. exists []. auto.
  - rewrite <- E in *. exists (map (fun i => nth i ss d) order). split; auto.
    transitivity (map (fun i => nth i ss d) (seq 0 (length ss))); [apply Permutation_map; auto|].
    replace (map (fun i => nth i ss d) (seq 0 (length ss))) with ss; auto.
    clear. apply nth_error_ext. intros i. rewrite nth_error_map.
    destruct (Nat.lt_ge_cases i (length ss)) as [H|H].
    + rewrite nth_error_seq by auto. simpl. apply nth_error_nth'. auto.
    + rewrite (proj2 (nth_error_None _ _)) by auto.
      rewrite (proj2 (nth_error_None _ _)); auto. rewrite seq_length. auto.
Qed.

Lemma StronglySorted_nth {X} (Rl : X -> X -> Prop) l :
  (forall i j a b, i < j -> nth_error l i = Some a -> nth_error l j = Some b -> Rl a b) ->
  StronglySorted Rl l.
Proof.
  induction l as [|x t IH]; intros H; constructor.
  - apply IH. intros i j a b Hij. apply (H (S i) (S j)). lia.
  - apply Forall_forall. intros b Hb. apply In_nth_error in Hb. destruct Hb as (j & Hj).
    apply (H 0 (S j)); auto. lia.
Qed.

Lemma renumber_ok ss : forall i a,
  snd (renumber i a ss) = a + CountAllCells ss /\
  map contents (fst (renumber i a ss)) = map contents ss /\
  consecutive a (fst (renumber i a ss)) /\ map s_id (fst (renumber i a ss)) = seq i (length ss).
Proof.
  induction ss as [|s t IH]; intros i a; simpl.
  - unfold CountAllCells. simpl. repeat split; auto.
  - destruct (IH (S i) (a + s_count s)) as (A & B & C & D).
    destruct (renumber (S i) (a + s_count s) t) as [t' n]. simpl in *.
    repeat split; auto; try (f_equal; auto; fail).
    rewrite A. unfold CountAllCells. simpl. lia.
Qed.

Lemma contents_count l1 l2 : map contents l1 = map contents l2 -> map s_count l1 = map s_count l2.
Proof.
  intros H. assert (E : map (fun c => snd (fst (fst (fst (fst c))))) (map contents l1)
     = map (fun c => snd (fst (fst (fst (fst c))))) (map contents l2)) by (rewrite H; auto).
  rewrite !map_map in E. exact E.
Qed.

Lemma contents_dim l1 l2 : map contents l1 = map contents l2 -> map s_dim l1 = map s_dim l2.
Proof.
  intros H. assert (E : map (fun c => snd (fst (fst (fst c)))) (map contents l1)
     = map (fun c => snd (fst (fst (fst c)))) (map contents l2)) by (rewrite H; auto).
  rewrite !map_map in E. exact E.
Qed.

Lemma contents_shape l1 l2 : map contents l1 = map contents l2 -> map shape l1 = map shape l2.
Proof.
  intros H. assert (E : map (fun c => (snd (fst (fst c)), snd (fst (fst (fst (fst c)))), snd (fst c)))
      (map contents l1)
     = map (fun c => (snd (fst (fst c)), snd (fst (fst (fst (fst c)))), snd (fst c)))
      (map contents l2)) by (rewrite H; auto).
  rewrite !map_map in E. exact E.
Qed.

Lemma consecutive_cell l : forall a i, consecutive a l ->
  (exists s, In s l /\ has_cell s i) <-> a <= i < a + CountAllCells l.
Proof.
  unfold CountAllCells, has_cell.
  induction l as [|s t IH]; intros a i H; simpl in *.
  - split; [intros (s & [] & _)|lia].
  - destruct H as (H1 & H2). specialize (IH _ i H2). split.
    + intros (x & [->|Hx] & Hi); [lia|].
      destruct (proj1 IH) as (A & B); [eauto|]. lia.
    + intros Hi. destruct (Nat.lt_ge_cases i (a + s_count s)) as [L|L].
      * exists s. split; auto. lia.
      * destruct (proj2 IH) as (x & Hx & Hc); [lia|]. exists x; auto.
Qed.

Lemma consecutive_app l1 l2 a : consecutive a (l1 ++ l2) <->
  consecutive a l1 /\ consecutive (a + CountAllCells l1) l2.
Proof.
  unfold CountAllCells. revert a. induction l1 as [|s t IH]; intros a; simpl.
  - rewrite Nat.add_0_r. tauto.
  - rewrite IH, Nat.add_assoc. tauto.
Qed.

(** sections in decreasing dimension: those of the highest dimension come first *)
Lemma top_first l d : StronglySorted (fun a b => (s_dim b <= s_dim a)%Z) l ->
  (forall s, In s l -> (s_dim s <= d)%Z) ->
  exists l1 l2, l = l1 ++ l2 /\ Forall (fun s => s_dim s = d) l1 /\
    Forall (fun s => s_dim s <> d) l2.
Proof.
  induction l as [|s t IH]; intros HS Hd.
  - exists [], []. auto.
  - apply StronglySorted_inv in HS. destruct HS as (HS & HF).
    destruct (Z.eq_dec (s_dim s) d) as [E|E].
    + destruct IH as (l1 & l2 & -> & F1 & F2); auto.
      { intros; apply Hd; right; auto. }
      exists (s :: l1), l2. repeat split; auto.
    + exists [], (s :: t). repeat split; auto. constructor; auto.
      pose proof (Hd s (or_introl eq_refl)). rewrite Forall_forall in *.
      intros x Hx. specialize (HF _ Hx). lia.
Qed.

Lemma filter_all {X} (f : X -> bool) l : Forall (fun x => f x = true) l -> filter f l = l.
Proof. induction 1; simpl; auto. rewrite H. f_equal; auto. Qed.
Lemma filter_none {X} (f : X -> bool) l : Forall (fun x => f x = false) l -> filter f l = [].
Proof. induction 1; simpl; auto. rewrite H. auto. Qed.

Lemma StronglySorted_map {X Y} (R1 : X -> X -> Prop) (R2 : Y -> Y -> Prop) (f : X -> Y) l :
  (forall a b, R1 a b -> R2 (f a) (f b)) -> StronglySorted R1 l -> StronglySorted R2 (map f l).
Proof.
  intros HR. induction 1 as [|x t HS IH HF]; simpl; constructor; auto.
  apply Forall_map. eapply Forall_impl; [|exact HF]. simpl. intros; apply HR; auto.
Qed.

Lemma StronglySorted_unmap {X Y} (R1 : X -> X -> Prop) (R2 : Y -> Y -> Prop) (f : X -> Y) l :
  (forall a b, R2 (f a) (f b) -> R1 a b) -> StronglySorted R2 (map f l) -> StronglySorted R1 l.
Proof.
  intros HR. induction l as [|x t IH]; simpl; intros H; [constructor|].
  apply StronglySorted_inv in H. destruct H as (HS & HF). constructor; auto.
  rewrite Forall_map in HF. eapply Forall_impl; [|exact HF]. simpl. intros; apply HR; auto.
Qed.

Lemma before_ordered a b : before b a = false -> ordered a b.
Proof.
  unfold before, ordered. intros H. apply orb_false_iff in H. destruct H as (H1 & H2).
  apply Z.ltb_ge in H1. apply andb_false_iff in H2. destruct H2 as [H2|H2].
  - apply Z.eqb_neq in H2. left. lia.
  - apply Nat.ltb_ge in H2. destruct (Z.eq_dec (s_dim a) (s_dim b)); [right|left]; split + idtac; lia.
Qed.

Theorem sort_ok ss order : sort_contract before ss order ->
  exists r sorted, SortSectionsByDim order ss = Some r /\
    Permutation sorted ss /\ StronglySorted ordered sorted /\
    map contents r = map contents sorted /\
    map s_id r = seq 1 (length ss) /\ consecutive 1 r /\
    (forall i, (exists s, In s r /\ has_cell s i) <-> 1 <= i <= CountAllCells ss) /\
    forall d, (forall s, In s ss -> (s_dim s <= d)%Z) ->
      forall i, (exists s, In s r /\ s_dim s = d /\ has_cell s i) <-> 1 <= i <= cells_of_dim d ss.
Proof.
  intros (P & HO). destruct (mapM_perm ss order P) as (sorted & E & PS).
  destruct (renumber_ok sorted 1 1) as (A & B & C & D).
  destruct (renumber 1 1 sorted) as [r n] eqn:ER. simpl fst in *. simpl snd in *.
  assert (CA : CountAllCells r = CountAllCells sorted).
  { unfold CountAllCells. rewrite (contents_count _ _ B). auto. }
  assert (SS : StronglySorted ordered sorted).
  { apply StronglySorted_nth. intros i j a b Hij Ha Hb.
    assert (L : length sorted = length order) by (eapply mapM_length; eauto).
    destruct (nth_error_lt_some order i) as (oi & Hoi).
    { rewrite <- L. eapply nth_error_some_lt; eauto. }
    destruct (nth_error_lt_some order j) as (oj & Hoj).
    { rewrite <- L. eapply nth_error_some_lt; eauto. }
    destruct (mapM_nth _ _ _ _ _ E Hoi) as (x & X1 & X2).
    destruct (mapM_nth _ _ _ _ _ E Hoj) as (y & Y1 & Y2).
    rewrite X2 in Ha. rewrite Y2 in Hb. inversion Ha; inversion Hb; subst.
    apply before_ordered. eapply HO; eauto. }
  assert (CS : CountAllCells sorted = CountAllCells ss).
  { unfold CountAllCells. apply Permutation_list_sum. apply Permutation_map. auto. }
  exists r, sorted. repeat apply conj; auto.
  - unfold SortSectionsByDim. rewrite E. cbn [bind]. rewrite ER.
    destruct (Nat.eqb_spec (n - 1) (CountAllCells r)); [auto|lia].
  - rewrite D. f_equal. apply Permutation_length. auto.
  - intros i. rewrite (consecutive_cell r 1 i C). lia.
  - intros d Hd i.
    assert (Hr : forall s, In s r -> (s_dim s <= d)%Z).
    { intros s Hs. apply (in_map s_dim) in Hs. rewrite (contents_dim _ _ B) in Hs.
      apply in_map_iff in Hs. destruct Hs as (x & <- & Hx). apply Hd.
      eapply Permutation_in; eauto. }
    assert (SR : StronglySorted (fun a b => (s_dim b <= s_dim a)%Z) r).
    { apply StronglySorted_unmap with (R2 := fun a b => (b <= a)%Z) (f := s_dim); auto.
      rewrite (contents_dim _ _ B).
      apply StronglySorted_map with (R1 := ordered); auto.
      intros a b [H|[H _]]; lia. }
    destruct (top_first r d SR Hr) as (r1 & r2 & -> & F1 & F2).
    assert (N : cells_of_dim d ss = CountAllCells r1).
    { unfold cells_of_dim, CountAllCells.
      transitivity (list_sum (map s_count (filter (fun s => Z.eqb (s_dim s) d) (r1 ++ r2)))).
      - transitivity (list_sum (map s_count (filter (fun s => Z.eqb (s_dim s) d) sorted))).
        + apply Permutation_list_sum, Permutation_map.
          clear -PS. apply Permutation_sym in PS. induction PS; simpl; auto.
          * destruct (Z.eqb (s_dim x) d); auto.
          * destruct (Z.eqb (s_dim x) d), (Z.eqb (s_dim y) d); auto. constructor.
          * etransitivity; eauto.
        + clear -B. revert B. generalize (r1 ++ r2) as l2. revert sorted.
          induction sorted as [|x t IH]; intros [|y u] H; simpl in *; try discriminate; auto.
          inversion H. rewrite H3. destruct (Z.eqb (s_dim x) d); simpl; rewrite (IH u); auto.
      - rewrite filter_app, filter_all, filter_none, app_nil_r; auto.
        + eapply Forall_impl; [|exact F2]. intros s Hs. apply Z.eqb_neq. auto.
        + eapply Forall_impl; [|exact F1]. intros s Hs. apply Z.eqb_eq. auto. }
    rewrite N. apply consecutive_app in C. destruct C as (C1 & C2).
    pose proof (consecutive_cell r1 1 i C1) as K. rewrite Forall_forall in F1, F2. split.
    + intros (s & Hs & Hdim & Hi). apply in_app_or in Hs. destruct Hs as [Hs|Hs].
      * destruct (proj1 K); [eauto|]. lia.
      * exfalso. exact (F2 _ Hs Hdim).
    + intros Hi. destruct (proj2 K) as (s & Hs & Hc); [lia|].
      exists s. split; [apply in_or_app; auto|]. auto.
Qed.
