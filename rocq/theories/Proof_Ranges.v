From Coq Require Import List Arith Lia Sorted.
From Verif Require Import Arrays Model_Partition Spec_Partition.
Import ListNotations.

Lemma repeat_snoc {X} (x : X) n l : repeat x n ++ x :: l = repeat x (S n) ++ l.
Proof. induction n; simpl; [auto|]. f_equal. exact IHn. Qed.

Lemma nth_error_repeat_app {X} (x : X) n l k :
  nth_error (repeat x n ++ l) k = if k <? n then Some x else nth_error l (k - n).
Proof.
  destruct (Nat.ltb_spec k n).
  - rewrite nth_error_app1 by (rewrite repeat_length; lia).
    rewrite nth_error_repeat; auto.
  - rewrite nth_error_app2 by (rewrite repeat_length; lia). rewrite repeat_length. auto.
Qed.

Lemma slice_loop_spec n_parts : forall rest table prev_id p curr,
  length table = n_parts -> p < n_parts -> Forall (fun q => q < n_parts) rest ->
  StronglySorted le (p :: rest) -> 1 <= prev_id -> prev_id < curr ->
  (forall q, p <= q < n_parts -> nth_error table q = Some (0, 0)) ->
  exists T, slice_loop table prev_id p curr rest = Some T /\ length T = n_parts /\
    (forall q, q < p -> nth_error T q = nth_error table q) /\
    (forall q h t, p <= q -> nth_error T q = Some (h, t) -> h <= t /\
       forall id, h <= id < t <-> prev_id <= id /\
         nth_error (repeat p (curr - prev_id) ++ rest) (id - prev_id) = Some q).
Proof.
  induction rest as [|q t IH]; intros table prev_id p curr Hl Hp Hf Hs Hpos Hlt H0.
  - simpl. unfold upd_opt. destruct (Nat.ltb_spec p (length table)); [|lia].
    eexists; split; [reflexivity|]. split; [rewrite upd_length; auto|]. split.
    + intros q Hq. rewrite nth_error_upd_other; auto. lia.
    + intros q h t' Hq Hn. destruct (Nat.eq_dec q p) as [->|Ne].
      * rewrite nth_error_upd_same in Hn by lia. inversion Hn; subst.
        split; [lia|]. intros id. rewrite nth_error_repeat_app.
        destruct (Nat.ltb_spec (id - h) (t' - h)).
        -- split; [intros; split; [lia|auto]|intros [? _]; lia].
        -- split; [lia|]. intros [? E]. destruct (id - h - (t' - h)); discriminate.
      * rewrite nth_error_upd_other in Hn by lia.
        pose proof (nth_error_some_lt _ _ _ Hn) as L. rewrite (H0 q) in Hn by lia.
        inversion Hn; subst. split; [lia|]. intros id. rewrite nth_error_repeat_app.
        split; [lia|]. intros [? E]. destruct (Nat.ltb_spec (id - prev_id) (curr - prev_id)).
        -- inversion E. congruence.
        -- destruct (id - prev_id - (curr - prev_id)); discriminate.
  - cbn [slice_loop]. apply StronglySorted_inv in Hs as [Hs Hall].
    inversion Hf as [|? ? Hq Hft]; subst. inversion Hall as [|? ? Hpq Hall']; subst.
    destruct (Nat.eqb_spec q p) as [->|Ne].
    + destruct (IH table prev_id p (S curr)) as (T & E & L & G1 & G2); auto; try lia.
      exists T. split; [auto|]. split; [auto|]. split; [auto|].
      intros q h t' Hge Hn. destruct (G2 q h t' Hge Hn) as [Hle Hid]. split; auto.
      intros id. rewrite Hid, repeat_snoc.
      replace (S (curr - prev_id)) with (S curr - prev_id) by lia. reflexivity.
    + unfold upd_opt at 1. destruct (Nat.ltb_spec p (length table)); [|lia]. cbn [bind].
      destruct (IH (upd table p (prev_id, curr)) curr q (S curr)) as (T & E & L & G1 & G2);
        auto; try lia.
      * rewrite upd_length; auto.
      * intros r Hr. rewrite nth_error_upd_other by lia. apply H0. lia.
      * exists T. split; [auto|]. split; [auto|]. split.
        -- intros r Hr. rewrite G1 by lia. rewrite nth_error_upd_other; auto; lia.
        -- intros r h t' Hge Hn.
           assert (Hnot : forall k, r < q -> nth_error (q :: t) k <> Some r).
           { intros k Hr E'. apply nth_error_In in E'. destruct E' as [E'|E']; [lia|].
             apply StronglySorted_inv in Hs as [_ Hall2].
             rewrite Forall_forall in Hall2. specialize (Hall2 _ E'). lia. }
           destruct (Nat.eq_dec r p) as [->|Nr].
           ++ rewrite G1 in Hn by lia. rewrite nth_error_upd_same in Hn by lia.
              inversion Hn; subst. split; [lia|]. intros id. rewrite nth_error_repeat_app.
              destruct (Nat.ltb_spec (id - h) (t' - h)).
              ** split; [intros; split; [lia|auto]|intros [? _]; lia].
              ** split; [lia|]. intros [? E']. exfalso. eapply Hnot; eauto. lia.
           ++ destruct (Nat.lt_ge_cases r q) as [Hrq|Hrq].
              ** rewrite G1 in Hn by lia. rewrite nth_error_upd_other in Hn by lia.
                 pose proof (nth_error_some_lt _ _ _ Hn) as Lr.
                 rewrite H0 in Hn by lia. inversion Hn; subst. split; [lia|].
                 intros id. split; [lia|]. intros [? E']. rewrite nth_error_repeat_app in E'.
                 destruct (_ <? _); [inversion E'; congruence|].
                 exfalso. eapply Hnot; eauto.
              ** destruct (G2 r h t' Hrq Hn) as [Hle Hid]. split; [auto|].
                 intros id. rewrite Hid. clear Hid.
                 replace (S curr - curr) with 1 by lia. simpl (repeat q 1 ++ t).
                 rewrite nth_error_repeat_app.
                 destruct (Nat.ltb_spec (id - prev_id) (curr - prev_id)).
                 --- split; [lia|]. intros [? E']. inversion E'. congruence.
                 --- replace (id - prev_id - (curr - prev_id)) with (id - curr) by lia.
                     split; intros [? ?]; split; auto; lia.
Qed.

Theorem slice_parts_correct n_parts first parts :
  parts <> [] -> 1 <= first -> StronglySorted le parts ->
  Forall (fun q => q < n_parts) parts ->
  exists table, slice_parts n_parts first parts = Some table /\
    range_table n_parts first parts table.
Proof.
  intros Hne H1 Hs Hf. destruct parts as [|p t]; [congruence|]. clear Hne.
  inversion Hf as [|? ? Hp Hft]; subst. unfold slice_parts.
  destruct (slice_loop_spec n_parts t (repeat (0, 0) n_parts) first p (S first))
    as (T & E & L & G1 & G2); auto.
  - apply repeat_length.
  - intros q Hq. apply nth_error_repeat. lia.
  - exists T. split; auto. split; auto. intros q h t' Hn.
    destruct (Nat.lt_ge_cases q p) as [Hqp|Hqp].
    + rewrite G1 in Hn by auto. rewrite nth_error_repeat in Hn by lia.
      inversion Hn; subst. split; [lia|]. intros id. split; [lia|].
      intros [_ E']. apply nth_error_In in E'. apply StronglySorted_inv in Hs as [_ Ha].
      destruct E' as [E'|E']; [lia|]. rewrite Forall_forall in Ha. apply Ha in E'. lia.
    + destruct (G2 q h t' Hqp Hn) as [Hle Hid]. split; auto. intros id.
      rewrite Hid. replace (S first - first) with 1 by lia. reflexivity.
Qed.

(** consequences for any range table: disjoint ranges that cover all ids *)
Lemma range_table_cover n_parts first parts table :
  Forall (fun q => q < n_parts) parts -> range_table n_parts first parts table ->
  (forall id, first <= id < first + length parts ->
     exists p h t, nth_error table p = Some (h, t) /\ h <= id < t) /\
  (forall id p q h t h' t', nth_error table p = Some (h, t) ->
     nth_error table q = Some (h', t') -> h <= id < t -> h' <= id < t' -> p = q).
Proof.
  intros Hf [Hl Hr]. split.
  - intros id Hid. destruct (nth_error_lt_some parts (id - first)) as [p Hp]; [lia|].
    assert (Lp : p < length table).
    { rewrite Hl. rewrite Forall_forall in Hf. apply Hf. eapply nth_error_In; eauto. }
    destruct (nth_error_lt_some table p Lp) as [[h t] Ht].
    exists p, h, t. split; auto. apply (Hr p h t Ht). split; [lia|auto].
  - intros id p q h t h' t' Hp Hq H1 H2.
    apply (Hr p h t Hp) in H1. apply (Hr q h' t' Hq) in H2.
    destruct H1 as [_ H1]. destruct H2 as [_ H2]. congruence.
Qed.
