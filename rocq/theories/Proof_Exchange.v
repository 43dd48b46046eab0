(** Facts about maps, messages and buffers. *)
From Coq Require Import List Arith Lia Bool Sorted.
From Verif Require Import Arrays Model_Part.
Import ListNotations.

Definition keys_sorted {V} (m : list (nat * V)) : Prop :=
  StronglySorted (fun a b : nat * V => fst a < fst b) m.

Lemma lookup_app {V} k (m1 m2 : list (nat * V)) :
  lookup k (m1 ++ m2) = match lookup k m1 with Some v => Some v | None => lookup k m2 end.
Proof. induction m1 as [|[k' v] t IH]; simpl; auto. destruct (k =? k'); auto. Qed.

Lemma lookup_In {V} k (v : V) m : lookup k m = Some v -> In (k, v) m.
Proof.
  induction m as [|[k' v'] t IH]; simpl; [discriminate|].
  destruct (Nat.eqb_spec k k') as [->|]; intros H; [inversion H; auto|auto].
Qed.

Lemma lookup_fun {V} k (v : V) m : (forall v', In (k, v') m -> v' = v) -> In (k, v) m ->
  lookup k m = Some v.
Proof.
  induction m as [|[k' v'] t IH]; simpl; intros F H; [contradiction|].
  destruct (Nat.eqb_spec k k') as [->|Hne].
  - rewrite (F v'); auto.
  - apply IH; [intros; apply F; auto|]. destruct H as [H|H]; [inversion H; congruence|auto].
Qed.

Lemma keys_sorted_fun {V} (m : list (nat * V)) k v v' : keys_sorted m ->
  In (k, v) m -> In (k, v') m -> v = v'.
Proof.
  induction 1 as [|[k0 v0] t Ht IH F]; simpl; [contradiction|]. rewrite Forall_forall in F.
  intros [H|H] [H'|H'].
  - congruence.
  - inversion H; subst. specialize (F _ H'). simpl in F. lia.
  - inversion H'; subst. specialize (F _ H). simpl in F. lia.
  - auto.
Qed.

Lemma lookup_iff {V} (m : list (nat * V)) k v : keys_sorted m ->
  (lookup k m = Some v <-> In (k, v) m).
Proof.
  intros S. split; [apply lookup_In|]. intros H. apply lookup_fun; auto.
  intros v' H'. eapply keys_sorted_fun; eauto.
Qed.

Lemma In_map_update {V} k (f : option V -> V) m x : In x (map_update k f m) ->
  fst x = k \/ In x m.
Proof.
  induction m as [|[k' v] t IH]; simpl.
  - intros [H|[]]; subst; auto.
  - destruct (Nat.ltb_spec k k'); [|destruct (Nat.ltb_spec k' k)]; simpl; intros [H'|H'];
      subst; auto.
    + destruct (IH H'); auto.
    + left. simpl. lia.
Qed.

Lemma map_update_sorted {V} k (f : option V -> V) m : keys_sorted m ->
  keys_sorted (map_update k f m).
Proof.
  unfold keys_sorted.
  induction 1 as [|[k' v] t Ht IH F]; simpl; [repeat constructor|].
  destruct (Nat.ltb_spec k k'); [|destruct (Nat.ltb_spec k' k)].
  - constructor; [constructor; auto|]. constructor; simpl; auto.
    eapply Forall_impl; [|exact F]. simpl. intros a Ha. lia.
  - constructor; auto. apply Forall_forall. intros x Hx. apply In_map_update in Hx.
    rewrite Forall_forall in F. simpl. destruct Hx as [Hx|Hx]; [lia|]. apply (F x Hx).
  - constructor; auto.
Qed.

Lemma lookup_map_update {V} k k' (f : option V -> V) m : keys_sorted m ->
  lookup k (map_update k' f m) = if k =? k' then Some (f (lookup k m)) else lookup k m.
Proof.
  unfold keys_sorted.
  induction 1 as [|[k0 v] t Ht IH F]; simpl.
  - destruct (k =? k'); auto.
  - destruct (Nat.ltb_spec k' k0); [|destruct (Nat.ltb_spec k0 k')]; simpl.
    + destruct (Nat.eqb_spec k k') as [->|]; auto.
      destruct (Nat.eqb_spec k' k0); [lia|].
      destruct (lookup k' t) as [v'|] eqn:E; auto. apply lookup_In in E.
      rewrite Forall_forall in F. specialize (F _ E). simpl in F. lia.
    + rewrite IH. destruct (Nat.eqb_spec k k0) as [->|]; auto.
      destruct (Nat.eqb_spec k0 k'); [lia|auto].
    + assert (k0 = k') by lia. subst. destruct (Nat.eqb_spec k k'); auto.
Qed.

Definition sel {V} (q : nat) (lines : list (nat * V)) : list V :=
  map snd (filter (fun x => fst x =? q) lines).

Lemma sel_app {V} q (l1 l2 : list (nat * V)) : sel q (l1 ++ l2) = sel q l1 ++ sel q l2.
Proof. unfold sel. rewrite filter_app, map_app. reflexivity. Qed.

Lemma In_sel {V} q (l : list (nat * V)) v : In v (sel q l) <-> In (q, v) l.
Proof.
  unfold sel. rewrite in_map_iff. split.
  - intros ([k v'] & E & H). apply filter_In in H. simpl in *. destruct H as [H E'].
    apply Nat.eqb_eq in E'. subst. auto.
  - intros H. exists (q, v). split; auto. apply filter_In. split; auto. simpl. apply Nat.eqb_refl.
Qed.

Lemma group_sorted {V W} (step : W -> V -> W) init lines : keys_sorted (group step init lines).
Proof.
  unfold group. assert (H : keys_sorted (@nil (nat * W))) by constructor. revert H.
  generalize (@nil (nat * W)). induction lines as [|x t IH]; simpl; intros m Hm; auto.
  apply IH. apply map_update_sorted. auto.
Qed.

Lemma lookup_group {V W} (step : W -> V -> W) init lines q :
  lookup q (group step init lines) =
  match sel q lines with [] => None | l => Some (fold_left step l init) end.
Proof.
  induction lines as [|x lines IH] using rev_ind; [reflexivity|].
  pose proof (group_sorted step init lines) as S.
  unfold group in *. rewrite fold_left_app. simpl.
  rewrite lookup_map_update by auto. rewrite IH, sel_app.
  replace (sel q [x]) with (if fst x =? q then [snd x] else [])
    by (unfold sel; simpl; destruct (fst x =? q); auto).
  rewrite (Nat.eqb_sym q). destruct (Nat.eqb_spec (fst x) q) as [E|E]; simpl.
  - destruct (sel q lines) as [|v l]; simpl; [reflexivity|]. rewrite fold_left_app. reflexivity.
  - rewrite app_nil_r. reflexivity.
Qed.

Lemma fold_push {V} (l : list V) init : fold_left push l init = init ++ l.
Proof.
  revert init; induction l as [|x t IH]; intros init; simpl; [rewrite app_nil_r; auto|].
  rewrite IH. unfold push. rewrite <- app_assoc. reflexivity.
Qed.

Lemma lookup_group_push {V} (lines : list (nat * V)) q :
  lookup q (group push [] lines) = match sel q lines with [] => None | l => Some l end.
Proof. rewrite lookup_group. destruct (sel q lines); auto. rewrite fold_push. reflexivity. Qed.

(** a map filled by assignments *)
Lemma fold_put {V} (l : list (nat * V)) : (forall k v v', In (k, v) l -> In (k, v') l -> v = v') ->
  keys_sorted (fold_left put l []) /\ forall x, In x (fold_left put l []) <-> In x l.
Proof.
  induction l as [|x l IH] using rev_ind; intros F.
  - split; [constructor|simpl; tauto].
  - destruct IH as [S H].
    { intros k v v' H1 H2. apply (F k); apply in_app_iff; auto. }
    rewrite fold_left_app. simpl. unfold put at 1 3. split; [apply map_update_sorted; auto|].
    set (m := fold_left put l []) in *.
    intros [k v]. destruct x as [k0 v0]. simpl.
    rewrite <- (lookup_iff _ k v) by (apply map_update_sorted; auto).
    rewrite lookup_map_update by auto. rewrite in_app_iff. simpl.
    destruct (Nat.eqb_spec k k0) as [->|Hne].
    + split.
      * intros E. inversion E; subst. auto.
      * intros Hin. f_equal. symmetry. apply (F k0); apply in_app_iff; simpl; auto.
    + rewrite (lookup_iff m k v S), H. split; auto. intros [Hin|[E|[]]]; auto. congruence.
Qed.

(** sorted lists with the same elements *)
Lemma sorted_unique {X} (R : X -> X -> Prop) (Rirr : forall x, ~ R x x)
    (Rtr : forall x y z, R x y -> R y z -> R x z) l1 : StronglySorted R l1 ->
  forall l2, StronglySorted R l2 -> (forall x, In x l1 <-> In x l2) -> l1 = l2.
Proof.
  induction 1 as [|a t Ht IH F]; intros l2 S2 E.
  - destruct l2 as [|b u]; auto. exfalso. apply (proj2 (E b)). left. auto.
  - inversion S2 as [|b u Hu G Eb]; subst.
    { exfalso. apply (proj1 (E a)). left. auto. }
    rewrite Forall_forall in F, G.
    assert (a = b).
    { destruct (proj1 (E a)) as [->|Ha]; [left; auto|auto|].
      destruct (proj2 (E b)) as [->|Hb]; [left; auto|auto|].
      exfalso. apply (Rirr a). eapply Rtr; eauto. }
    subst b. f_equal. apply IH; auto. intros x. split; intros Hx.
    + destruct (proj1 (E x)) as [->|H]; [right; auto| |auto]. exfalso. apply (Rirr x). auto.
    + destruct (proj2 (E x)) as [->|H]; [right; auto| |auto]. exfalso. apply (Rirr x). auto.
Qed.

Lemma chunks_concat {X} (ls : list (list X)) : chunks (map (@length X) ls) (concat ls) = Some ls.
Proof.
  induction ls as [|l t IH]; simpl; auto.
  rewrite slice_some by (rewrite app_length; lia). simpl.
  rewrite firstn_app, firstn_all, Nat.sub_diag. simpl. rewrite app_nil_r.
  rewrite skipn_app, skipn_all, Nat.sub_diag. simpl. rewrite IH. reflexivity.
Qed.

Lemma chunks_repeat {X} n (ls : list (list X)) : Forall (fun l => length l = n) ls ->
  chunks (repeat n (length ls)) (concat ls) = Some ls.
Proof.
  intros F. rewrite <- (chunks_concat ls). f_equal. induction F; simpl; f_equal; auto.
Qed.

(** ** One round of messages *)

Lemma lookup_map_snd {U W} (g : U -> W) k (m : list (nat * U)) :
  lookup k (map (fun x => (fst x, g (snd x))) m) = option_map g (lookup k m).
Proof. induction m as [|[k' v] t IH]; simpl; auto. destruct (k =? k'); auto. Qed.

Lemma nth_error_combine_seq {U} (l : list U) k x a :
  nth_error (combine (seq a (length l)) l) k = Some x ->
  fst x = a + k /\ nth_error l k = Some (snd x).
Proof.
  revert k a; induction l as [|y t IH]; intros [|k] a; simpl; try discriminate.
  - intros H. inversion H; subst. simpl. auto.
  - intros H. apply IH in H. simpl. destruct H; split; auto. lia.
Qed.

Lemma nth_error_seq_combine {U} (l : list U) k x a : nth_error l k = Some x ->
  nth_error (combine (seq a (length l)) l) k = Some (a + k, x).
Proof.
  revert k a; induction l as [|y t IH]; intros [|k] a; simpl; try discriminate.
  - intros H. inversion H; subst. rewrite Nat.add_0_r. auto.
  - intros H. rewrite (IH k (Datatypes.S a) H). f_equal. f_equal. lia.
Qed.

Lemma combine_seq_length {U} a (l : list U) : length (combine (seq a (length l)) l) = length l.
Proof. rewrite combine_length, seq_length. lia. Qed.

Section Exchange.
  Context {V X : Type}.
  Variables (S R : list (list (nat * list V))) (pay : nat -> V -> list X).
  Variables (sends : list (list (nat * list X))) (recvs : list (list (nat * nat))).

  (** the buffer of [x] = (other process, items), items of process [p] *)
  Definition buffer (p : nat) (vs : list V) : list X := concat (map (pay p) vs).

  Hypothesis HL : length R = length S.
  Hypothesis agree : forall p q sp rq, nth_error S p = Some sp -> nth_error R q = Some rq ->
    lookup q sp = lookup p rq.
  Hypothesis keysS : forall p sp, nth_error S p = Some sp -> keys_sorted sp /\
    forall q vs, In (q, vs) sp -> q < length S.
  Hypothesis keysR : forall p rp, nth_error R p = Some rp -> keys_sorted rp /\
    forall q vs, In (q, vs) rp -> q < length S.
  Hypothesis Lsends : length sends = length S.
  Hypothesis Lrecvs : length recvs = length S.
  Hypothesis Hsends : forall p sp, nth_error S p = Some sp ->
    nth_error sends p = Some (map (fun x => (fst x, buffer p (snd x))) sp).
  Hypothesis Hrecvs : forall q rq, nth_error R q = Some rq ->
    nth_error recvs q = Some (map (fun x => (fst x, length (buffer (fst x) (snd x)))) rq).


  Theorem exchange_ok : exists bufs, exchange sends recvs = Some bufs /\
    length bufs = length S /\
    forall q rq, nth_error R q = Some rq ->
      nth_error bufs q = Some (map (fun x => (fst x, buffer (fst x) (snd x))) rq).
  Proof.
    unfold exchange.
    match goal with |- context [forallb ?f ?l] => destruct (forallb f l) eqn:EF end.
    2:{ exfalso. apply not_true_iff_false in EF. apply EF. clear EF.
        apply forallb_forall. intros [p ms] Hin. apply In_nth_error in Hin. destruct Hin as [k Hk].
        apply nth_error_combine_seq in Hk. simpl in Hk. destruct Hk as [-> Hk].
        apply forallb_forall. intros [q buf] Hq. simpl in Hq. cbn [fst].
        destruct (nth_error_lt_some S k) as [sp Hsp].
        { rewrite <- Lsends. eapply nth_error_some_lt; eauto. }
        rewrite (Hsends k sp Hsp) in Hk. inversion Hk; subst ms. clear Hk.
        apply in_map_iff in Hq. destruct Hq as ([q' vs] & E & Hq). inversion E; subst q' buf. clear E.
        destruct (keysS k sp Hsp) as [KS Kq]. pose proof (Kq q vs Hq) as Lq.
        destruct (nth_error_lt_some R q) as [rq Hrq]; [lia|].
        unfold received. cbn [fst]. rewrite (Hrecvs q rq Hrq).
        pose proof (agree k q sp rq Hsp Hrq) as Ha. apply (lookup_iff sp q vs KS) in Hq.
        rewrite Hq in Ha. symmetry in Ha. apply lookup_In in Ha.
        apply existsb_exists. exists (k, length (buffer k vs)). split.
        - apply in_map_iff. exists (k, vs). auto.
        - simpl. apply Nat.eqb_refl. }
    clear EF.
    assert (H : forall qr, In qr (combine (seq 0 (length recvs)) recvs) ->
      mapM (recv_one sends (fst qr)) (snd qr) =
      Some (match nth_error R (fst qr) with
            | Some rq => map (fun x => (fst x, buffer (fst x) (snd x))) rq
            | None => [] end)).
    { intros [q r] Hin. apply In_nth_error in Hin. destruct Hin as [k Hk].
      apply nth_error_combine_seq in Hk. simpl in Hk. destruct Hk as [-> Hk]. cbn [fst snd].
      destruct (nth_error_lt_some R k) as [rq Hrq].
      { rewrite HL, <- Lrecvs. eapply nth_error_some_lt; eauto. }
      rewrite Hrq. rewrite (Hrecvs k rq Hrq) in Hk. inversion Hk; subst r. clear Hk.
      destruct (keysR k rq Hrq) as [KR Kp].
      assert (G : forall x, In x rq -> recv_one sends k (fst x, length (buffer (fst x) (snd x))) =
                                       Some (fst x, buffer (fst x) (snd x))).
      { intros [p vs] Hx. pose proof (Kp p vs Hx) as Lp. cbn [fst snd].
        destruct (nth_error_lt_some S p) as [sp Hsp]; [auto|].
        unfold recv_one. cbn [fst snd]. rewrite (Hsends p sp Hsp). cbn [bind].
        rewrite lookup_map_snd. rewrite (agree p k sp rq Hsp Hrq).
        apply (lookup_iff rq p vs KR) in Hx. rewrite Hx. cbn [option_map bind].
        rewrite Nat.eqb_refl. reflexivity. }
      clear -G. induction rq as [|x t IH]; simpl; auto.
      rewrite (G x) by (left; auto). rewrite IH by (intros; apply G; right; auto). reflexivity. }
    rewrite (mapM_map _ _ _ H). eexists. split; [reflexivity|]. split.
    - rewrite map_length, combine_seq_length. auto.
    - intros q rq Hrq. rewrite nth_error_map.
      destruct (nth_error_lt_some recvs q) as [r Hr].
      { rewrite Lrecvs, <- HL. eapply nth_error_some_lt; eauto. }
      rewrite (nth_error_seq_combine _ _ _ _ Hr). cbn [option_map fst Nat.add].
      rewrite Hrq. reflexivity.
  Qed.
End Exchange.
