From Coq Require Import List Arith Lia Bool Permutation Sorted.
From Verif Require Import Arrays Model_Shuffle Spec_Shuffle.
Import ListNotations.

Section Sorting.
  Variable lt : nat -> nat -> bool.
  Hypothesis lt_trans : forall a b c, lt a b = true -> lt b c = true -> lt a c = true.

  Lemma insert_by_perm x l : Permutation (insert_by lt x l) (x :: l).
  Proof.
    induction l as [|h t IH]; simpl; auto.
    destruct (lt h x); auto. rewrite IH. apply perm_swap.
  Qed.

  Lemma sort_by_perm l : Permutation (sort_by lt l) l.
  Proof.
    induction l as [|h t IH]; simpl; auto. rewrite insert_by_perm. auto.
  Qed.

  Lemma insert_by_sorted x l :
    (forall y, In y l -> lt x y = true \/ lt y x = true) ->
    StronglySorted (fun a b => lt a b = true) l ->
    StronglySorted (fun a b => lt a b = true) (insert_by lt x l).
  Proof.
    induction l as [|h t IH]; simpl; intros Htot Hs.
    - repeat constructor.
    - inversion Hs as [|? ? Ht Hh]; subst.
      destruct (lt h x) eqn:E.
      + constructor.
        * apply IH; auto.
        * rewrite Forall_forall in *. intros y Hy.
          apply (Permutation_in _ (insert_by_perm x t)) in Hy.
          destruct Hy as [<-|Hy]; auto.
      + constructor; auto.
        destruct (Htot h) as [Hx|Hx]; auto; [|congruence].
        constructor; auto. rewrite Forall_forall in *. intros y Hy.
        apply lt_trans with h; auto.
  Qed.

  Lemma sort_by_sorted l : NoDup l ->
    (forall x y, In x l -> In y l -> x <> y -> lt x y = true \/ lt y x = true) ->
    StronglySorted (fun a b => lt a b = true) (sort_by lt l).
  Proof.
    induction l as [|h t IH]; simpl; intros Hn Htot; [constructor|].
    inversion Hn as [|? ? Hh Ht]; subst.
    apply insert_by_sorted.
    - intros y Hy. apply (Permutation_in _ (sort_by_perm t)) in Hy.
      apply Htot; auto. intros ->; auto.
    - apply IH; auto.
  Qed.

  Hypothesis lt_irrefl : forall a, lt a a = false.

  (** a strictly sorted arrangement is unique *)
  Lemma sorted_unique l1 l2 :
    StronglySorted (fun a b => lt a b = true) l1 ->
    StronglySorted (fun a b => lt a b = true) l2 ->
    Permutation l1 l2 -> l1 = l2.
  Proof.
    revert l2; induction l1 as [|a t IH]; intros l2 H1 H2 Hp.
    - symmetry; apply Permutation_nil; auto.
    - destruct l2 as [|b u]; [symmetry in Hp; apply Permutation_nil_cons in Hp; tauto|].
      inversion H1 as [|? ? H1t H1h]; subst. inversion H2 as [|? ? H2t H2h]; subst.
      rewrite Forall_forall in *.
      assert (a = b).
      { destruct (Nat.eq_dec a b) as [|N]; auto. exfalso.
        assert (Ha : In a (b :: u)) by (eapply Permutation_in; eauto; left; auto).
        assert (Hb : In b (a :: t))
          by (eapply Permutation_in; [apply Permutation_sym; eauto|left; auto]).
        destruct Ha as [Ha|Ha]; [congruence|]. destruct Hb as [Hb|Hb]; [congruence|].
        pose proof (lt_trans _ _ _ (H1h _ Hb) (H2h _ Ha)) as C.
        rewrite lt_irrefl in C. discriminate. }
      subst b. f_equal. apply IH; auto. eapply Permutation_cons_inv; eauto.
  Qed.
End Sorting.

Lemma StronglySorted_nth (R : nat -> nat -> Prop) l : StronglySorted R l ->
  forall i j a b, i < j -> nth_error l i = Some a -> nth_error l j = Some b -> R a b.
Proof.
  induction 1 as [|h t Ht IH Hh]; intros i j a b Hij Hi Hj.
  - destruct i; discriminate.
  - destruct j as [|j]; [lia|]. simpl in Hj. destruct i as [|i]; simpl in Hi.
    + inversion Hi; subst. rewrite Forall_forall in Hh. apply Hh.
      eapply nth_error_In; eauto.
    + eapply IH; [|eauto|eauto]. lia.
Qed.

Lemma nth_StronglySorted (R : nat -> nat -> Prop) l :
  (forall i j a b, i < j -> nth_error l i = Some a -> nth_error l j = Some b -> R a b) ->
  StronglySorted R l.
Proof.
  induction l as [|h t IH]; intros H; constructor.
  - apply IH. intros i j a b Hij Hi Hj. apply (H (S i) (S j)); auto. lia.
  - apply Forall_forall. intros x Hx. apply In_nth_error in Hx. destruct Hx as [n Hn].
    apply (H 0 (S n)); auto. lia.
Qed.

Section Cmp.
  Variable parts : list nat.

  Lemma cmp_spec a b : cmp parts a b = true <->
    nth a parts 0 < nth b parts 0 \/ nth a parts 0 = nth b parts 0 /\ a < b.
  Proof.
    unfold cmp. rewrite orb_true_iff, andb_true_iff.
    rewrite !Nat.ltb_lt, Nat.eqb_eq. tauto.
  Qed.

  Lemma cmp_trans a b c : cmp parts a b = true -> cmp parts b c = true -> cmp parts a c = true.
  Proof. rewrite !cmp_spec. lia. Qed.

  Lemma cmp_irrefl a : cmp parts a a = false.
  Proof.
    destruct (cmp parts a a) eqn:E; auto. apply cmp_spec in E. lia.
  Qed.

  Lemma cmp_total a b : a <> b -> cmp parts a b = true \/ cmp parts b a = true.
  Proof. rewrite !cmp_spec. lia. Qed.
End Cmp.

(** the scatter loop of lines 45-46 *)
Lemma scatter_length n2o is acc :
  length (fold_left (fun acc i => upd acc (nth i n2o 0) i) is acc) = length acc.
Proof.
  revert acc; induction is as [|i is IH]; intros acc; simpl; auto.
  rewrite IH, upd_length. auto.
Qed.

Lemma scatter_spec n2o : NoDup n2o ->
  forall m k acc, k + m = length n2o ->
  (forall x, In x n2o -> x < length acc) ->
  (forall i x, i < k -> nth_error n2o i = Some x -> nth_error acc x = Some i) ->
  forall i x, nth_error n2o i = Some x ->
    nth_error (fold_left (fun acc i => upd acc (nth i n2o 0) i) (seq k m) acc) x = Some i.
Proof.
  intros Hn. induction m as [|m IH]; intros k acc Hk Hb Hinv i x Hi; simpl.
  - apply Hinv; auto. apply nth_error_some_lt in Hi. lia.
  - apply (IH (S k)); auto; try lia.
    + intros y Hy. rewrite upd_length. auto.
    + intros i' x' Hi' Hx'.
      destruct (Nat.eq_dec i' k) as [->|N].
      * rewrite (nth_error_nth _ _ 0 Hx').
        apply nth_error_upd_same. apply Hb. eapply nth_error_In; eauto.
      * assert (Hk' : k < length n2o) by lia.
        destruct (nth_error_lt_some n2o k Hk') as [y Hy].
        rewrite (nth_error_nth _ _ 0 Hy).
        rewrite nth_error_upd_other.
        -- apply Hinv; auto. lia.
        -- intros ->. apply N. apply (proj1 (NoDup_nth_error n2o) Hn); [|congruence].
           apply nth_error_some_lt in Hx'. auto.
Qed.

Theorem GetNewOrder_correct parts :
  is_new_order parts (fst (GetNewOrder parts)) (snd (GetNewOrder parts)).
Proof.
  unfold GetNewOrder. cbn [fst snd].
  set (n := length parts). set (n2o := sort_by (cmp parts) (seq 0 n)).
  assert (Hp : Permutation n2o (seq 0 n)) by apply sort_by_perm.
  assert (Hlen : length n2o = n) by (rewrite (Permutation_length Hp); apply seq_length).
  assert (Hnd : NoDup n2o)
    by (eapply Permutation_NoDup; [apply Permutation_sym; eauto|apply seq_NoDup]).
  assert (Hin : forall x, In x n2o <-> x < n).
  { intros x. split; intros H.
    - apply (Permutation_in _ Hp) in H. apply in_seq in H. lia.
    - apply (Permutation_in _ (Permutation_sym Hp)). apply in_seq. lia. }
  assert (Hinv1 : forall new old, nth_error n2o new = Some old ->
    nth_error (fold_left (fun acc i => upd acc (nth i n2o 0) i) (seq 0 n) (repeat 0 n)) old
      = Some new).
  { apply scatter_spec; auto.
    - intros x Hx. rewrite repeat_length. apply Hin; auto.
    - intros; lia. }
  constructor; auto.
  - rewrite scatter_length, repeat_length. auto.
  - intros new old H. pose proof (nth_error_some_lt _ _ _ H) as Hlt.
    rewrite scatter_length, repeat_length in Hlt.
    apply Hin in Hlt. apply In_nth_error in Hlt. destruct Hlt as [k Hk].
    pose proof (Hinv1 _ _ Hk) as H'. rewrite H in H'. inversion H'; subst. auto.
  - intros i j a b Hij Hi Hj.
    assert (Hs : StronglySorted (fun a b => cmp parts a b = true) n2o).
    { apply sort_by_sorted; [apply cmp_trans|apply seq_NoDup|].
      intros; apply cmp_total; auto. }
    pose proof (StronglySorted_nth _ _ Hs i j a b Hij Hi Hj) as H.
    apply cmp_spec in H.
    assert (Ha : a < n) by (apply Hin; eapply nth_error_In; eauto).
    assert (Hb : b < n) by (apply Hin; eapply nth_error_In; eauto).
    exists (nth a parts 0), (nth b parts 0).
    repeat split; auto; apply nth_error_nth'; auto.
Qed.

Theorem new_order_unique parts n2o o2n n2o' o2n' :
  is_new_order parts n2o o2n -> is_new_order parts n2o' o2n' -> n2o = n2o' /\ o2n = o2n'.
Proof.
  intros H H'.
  assert (S : forall l o, is_new_order parts l o ->
    StronglySorted (fun a b => cmp parts a b = true) l).
  { intros l o Hl. apply nth_StronglySorted. intros i j a b Hij Hi Hj.
    destruct (no_sorted _ _ _ Hl i j a b Hij Hi Hj) as (p & q & Hp & Hq & Hpq).
    apply cmp_spec. rewrite (nth_error_nth _ _ 0 Hp), (nth_error_nth _ _ 0 Hq). auto. }
  assert (E : n2o = n2o').
  { apply (sorted_unique (cmp parts)).
    - apply cmp_trans.
    - apply cmp_irrefl.
    - eapply S; eauto.
    - eapply S; eauto.
    - rewrite (no_perm _ _ _ H). symmetry. apply (no_perm _ _ _ H'). }
  split; auto. subst n2o'. apply nth_error_ext. intros i.
  destruct (nth_error o2n i) as [x|] eqn:Ex.
  - symmetry. apply (no_inv1 _ _ _ H'). apply (no_inv2 _ _ _ H). auto.
  - symmetry. apply nth_error_None. apply nth_error_None in Ex.
    rewrite (no_len _ _ _ H'). rewrite <- (no_len _ _ _ H). auto.
Qed.

(** consequences used by later files *)
Section Order.
  Context {parts n2o o2n : list nat} (H : is_new_order parts n2o o2n).

  Lemma order_n2o_length : length n2o = length parts.
  Proof. rewrite (Permutation_length (no_perm _ _ _ H)). apply seq_length. Qed.

  Lemma order_n2o_lt i x : nth_error n2o i = Some x -> x < length parts.
  Proof.
    intros Hi. apply nth_error_In in Hi.
    apply (Permutation_in _ (no_perm _ _ _ H)) in Hi. apply in_seq in Hi. lia.
  Qed.

  Lemma order_in_lt x : In x n2o -> x < length parts.
  Proof. intros Hi. apply In_nth_error in Hi. destruct Hi as [i Hi].
    eapply order_n2o_lt; eauto. Qed.

  Lemma order_o2n_lt i x : nth_error o2n i = Some x -> x < length parts.
  Proof.
    intros Hi. apply (no_inv2 _ _ _ H) in Hi. apply nth_error_some_lt in Hi.
    rewrite order_n2o_length in Hi. auto.
  Qed.

  Lemma order_o2n_in_lt x : In x o2n -> x < length parts.
  Proof. intros Hi. apply In_nth_error in Hi. destruct Hi as [i Hi].
    eapply order_o2n_lt; eauto. Qed.
End Order.

(** [ShuffleData] applied to a segment *)
Lemma ShuffleData_segment {T} (d : T) perm pre seg post :
  length perm = length seg -> (forall k, In k perm -> k < length seg) ->
  ShuffleData perm (pre ++ seg ++ post) (length pre)
    = Some (pre ++ map (fun k => nth k seg d) perm ++ post).
Proof.
  intros Hl Hk. unfold ShuffleData, bind.
  rewrite (mapM_map _ (fun k => nth k seg d)).
  - apply write_at_app. rewrite map_length. auto.
  - intros k Hin. rewrite nth_error_app2 by lia.
    replace (length pre + k - length pre) with k by lia.
    rewrite nth_error_app1 by (apply Hk; auto).
    apply nth_error_nth'. apply Hk; auto.
Qed.
