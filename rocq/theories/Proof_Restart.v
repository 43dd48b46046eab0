(** Lemmas about the model of restarting: gathering and scattering of the fields of a section. *)
From Coq Require Import List Arith Bool Lia String.
From Verif Require Import Arrays Model_Restart Spec_Restart.
Import ListNotations.

(** ** Loops *)

Lemma foldM_seq_inv {S} (f : S -> nat -> option S) (Inv : nat -> S -> Prop) n : forall a s,
  Inv a s ->
  (forall i s, a <= i < a + n -> Inv i s -> exists s', f s i = Some s' /\ Inv (i + 1) s') ->
  exists s', foldM f (seq a n) s = Some s' /\ Inv (a + n) s'.
Proof.
  induction n as [|n IH]; intros a s H0 Hs; simpl.
  - exists s. rewrite Nat.add_0_r. auto.
  - destruct (Hs a s ltac:(lia) H0) as [s1 [E1 I1]]. rewrite E1. simpl.
    replace (a + Datatypes.S n) with (Datatypes.S a + n) by lia.
    apply IH; [replace (Datatypes.S a) with (a + 1) by lia; auto|].
    intros i s' Hi. apply Hs. lia.
Qed.

Lemma foldM_ext {S X} (f g : S -> X -> option S) l : (forall s x, f s x = g s x) ->
  forall s, foldM f l s = foldM g l s.
Proof.
  intros H. induction l as [|x t IH]; intros s; simpl; auto. rewrite H.
  destruct (g s x); simpl; auto.
Qed.

Lemma foldM_list_inv {S X} (f : S -> X -> option S) (Inv : list X -> S -> Prop) : forall l done s,
  Inv done s ->
  (forall done' x s, In x l -> Inv done' s -> exists s', f s x = Some s' /\ Inv (x :: done') s') ->
  exists s' done', foldM f l s = Some s' /\ Inv done' s' /\ (forall x, In x l \/ In x done -> In x done').
Proof.
  induction l as [|x t IH]; intros done s H0 Hs; simpl.
  - exists s, done. repeat split; auto. intros y [[]|]; auto.
  - destruct (Hs done x s (or_introl eq_refl) H0) as [s1 [E1 I1]]. rewrite E1. simpl.
    destruct (IH (x :: done) s1 I1) as [s' [done' [E [I D]]]].
    { intros d y s2 Hy. apply Hs. right; auto. }
    exists s', done'. repeat split; auto.
    intros y [[->|Hy]|Hy]; apply D; simpl; auto.
Qed.

(** ** Tables *)

Section Tables.
  Context {A : Type}.

  Definition cell2 (fs : list (list A)) (i j : nat) : option A :=
    do row <- nth_error fs i; nth_error row j.

  Definition shape (fs : list (list A)) (a b : nat) : Prop :=
    List.length fs = a /\ Forall (fun row => List.length row = b) fs.

  Lemma shape_row fs a b i : shape fs a b -> i < a ->
    exists row, nth_error fs i = Some row /\ List.length row = b.
  Proof.
    intros [Hl Hf] Hi. destruct (nth_error_lt_some fs i ltac:(lia)) as [row E].
    exists row. split; auto. rewrite Forall_forall in Hf. apply Hf. eapply nth_error_In; eauto.
  Qed.

  Lemma Forall_upd (P : list A -> Prop) fs i x : Forall P fs -> P x -> Forall P (upd fs i x).
  Proof.
    intros H Hx. revert i; induction H as [|y t Hy Ht IH]; intros [|i]; simpl; constructor; auto.
  Qed.

  Lemma shape_upd fs a b i x : shape fs a b -> List.length x = b -> shape (upd fs i x) a b.
  Proof.
    intros [Hl Hf] Hx. split; [rewrite upd_length; auto|]. apply Forall_upd; auto.
  Qed.

  (** [fs[i][j] = v] *)
  Lemma set2 fs a b i j v row : shape fs a b -> i < a -> j < b -> nth_error fs i = Some row ->
    shape (upd fs i (upd row j v)) a b /\
    forall i' j', cell2 (upd fs i (upd row j v)) i' j' =
      if (i' =? i) && (j' =? j) then Some v else cell2 fs i' j'.
  Proof.
    intros Hs Hi Hj Hr. pose proof (shape_row _ _ _ _ Hs Hi) as [row' [E L]].
    rewrite Hr in E. inversion E; subst row'. split.
    - apply shape_upd; auto. rewrite upd_length; auto.
    - intros i' j'. unfold cell2.
      destruct (Nat.eqb_spec i' i) as [->|Hne]; simpl.
      + rewrite nth_error_upd_same by (destruct Hs; lia). simpl. rewrite Hr. simpl.
        destruct (Nat.eqb_spec j' j) as [->|Hj'].
        * rewrite nth_error_upd_same by lia. auto.
        * rewrite nth_error_upd_other by auto. auto.
      + rewrite nth_error_upd_other by auto. auto.
  Qed.

  Lemma cell2_some fs a b i j : shape fs a b -> i < a -> j < b -> exists v, cell2 fs i j = Some v.
  Proof.
    intros Hs Hi Hj. destruct (shape_row _ _ _ _ Hs Hi) as [row [E L]].
    unfold cell2. rewrite E. simpl. apply nth_error_lt_some. lia.
  Qed.

  Lemma shape_ext fs gs a b : shape fs a b -> shape gs a b ->
    (forall i j, i < a -> j < b -> cell2 fs i j = cell2 gs i j) -> fs = gs.
  Proof.
    intros Hf Hg H. apply nth_error_ext. intros i. destruct (Nat.lt_ge_cases i a) as [Hi|Hi].
    - destruct (shape_row _ _ _ _ Hf Hi) as [r1 [E1 L1]].
      destruct (shape_row _ _ _ _ Hg Hi) as [r2 [E2 L2]].
      rewrite E1, E2. f_equal. apply nth_error_ext. intros j.
      destruct (Nat.lt_ge_cases j b) as [Hj|Hj].
      + specialize (H i j Hi Hj). unfold cell2 in H. rewrite E1, E2 in H. exact H.
      + transitivity (@None A); [|symmetry]; apply nth_error_None; lia.
    - transitivity (@None (list A)); [|symmetry]; apply nth_error_None; destruct Hf, Hg; lia.
  Qed.
End Tables.

Lemma at_shift_some {X} (l : list X) a i : a <= i -> at_shift l a i = nth_error l (i - a).
Proof. intros H. unfold at_shift. destruct (Nat.leb_spec a i); [auto|lia]. Qed.

Lemma set_shift_some {X} (l : list X) a i x : a <= i < a + List.length l ->
  set_shift l a i x = Some (upd l (i - a) x).
Proof.
  intros H. unfold set_shift. destruct (Nat.leb_spec a i); [|lia]. simpl.
  destruct (Nat.ltb_spec (i - a) (List.length l)); [auto|lia].
Qed.

(** ** Coefficients *)

Section Coeff.
  Context {A : Type} (K N : nat).
  Implicit Types c : coeff A.

  Lemma is_coeff_shape c : is_coeff K N c <-> shape c N K.
  Proof. reflexivity. Qed.

  Lemma index_bounds i : i < K * N -> i / K < N /\ i mod K < K.
  Proof.
    intros H. assert (K <> 0) by (destruct K; simpl in *; lia). split.
    - apply Nat.div_lt_upper_bound; auto.
    - apply Nat.mod_upper_bound; auto.
  Qed.

  Lemma reshaped_cell2 c i : reshaped K c i = cell2 c (i / K) (i mod K).
  Proof. reflexivity. Qed.

  Lemma reshaped_entry c n k : k < K -> reshaped K c (n * K + k) = cell2 c n k.
  Proof.
    intros H. rewrite reshaped_cell2.
    rewrite Nat.div_add_l, (Nat.div_small k) by lia.
    replace ((n * K + k) mod K) with k by (rewrite Nat.add_comm, Nat.mod_add, Nat.mod_small; lia).
    rewrite Nat.add_0_r. auto.
  Qed.

  Lemma reshaped_ext c c' : is_coeff K N c -> is_coeff K N c' ->
    (forall i, i < K * N -> reshaped K c i = reshaped K c' i) -> c = c'.
  Proof.
    intros Hc Hc' H. apply (shape_ext c c' N K); auto. intros n k Hn Hk.
    rewrite <- !reshaped_entry by auto. apply H. nia.
  Qed.

  Lemma reshaped_some c i : is_coeff K N c -> i < K * N -> exists v, reshaped K c i = Some v.
  Proof.
    intros Hc Hi. destruct (index_bounds i Hi). rewrite reshaped_cell2.
    apply (cell2_some c N K); auto.
  Qed.

  Lemma reshaped_set_ok c i v : is_coeff K N c -> i < K * N ->
    exists c', reshaped_set K c i v = Some c' /\ is_coeff K N c' /\
      forall i', i' < K * N -> reshaped K c' i' = if i' =? i then Some v else reshaped K c i'.
  Proof.
    intros Hc Hi. destruct (index_bounds i Hi) as [Hn Hk].
    destruct (shape_row c N K (i / K) Hc Hn) as [col [E L]].
    unfold reshaped_set. rewrite E. simpl. destruct (Nat.ltb_spec (i mod K) (List.length col)); [|lia].
    destruct (set2 c N K (i / K) (i mod K) v col Hc Hn Hk E) as [S1 S2].
    eexists. split; [reflexivity|]. split; [exact S1|].
    intros i' Hi'. rewrite !reshaped_cell2, S2.
    destruct (Nat.eqb_spec i' i) as [->|Hne].
    - rewrite !Nat.eqb_refl. auto.
    - destruct (Nat.eqb_spec (i' / K) (i / K)) as [Ed|]; auto.
      destruct (Nat.eqb_spec (i' mod K) (i mod K)) as [Em|]; auto.
      exfalso. apply Hne. assert (K <> 0) by lia.
      rewrite (Nat.div_mod i K), (Nat.div_mod i' K) by auto. congruence.
  Qed.
End Coeff.

(** ** Gathering and scattering *)

Section Gather.
  Context {A : Type} (K N : nat).
  Implicit Types s : Sect A.

  (** the arrays of [s'] have the coefficients of the cells of [s] *)
  Definition gathered s s' : Prop :=
    head s' = head s /\ cells s' = cells s /\
    shape (fields s') (K * N) (List.length (cells s)) /\
    forall i j c, i < K * N -> nth_error (cells s) j = Some c -> cell2 (fields s') i j = reshaped K c i.

  Lemma gather_cell_ok s fs j : Forall (is_coeff K N) (cells s) ->
    shape fs (K * N) (List.length (cells s)) -> j < List.length (cells s) ->
    exists fs', gather_cell K N s fs (head s + j) = Some fs' /\
      shape fs' (K * N) (List.length (cells s)) /\
      forall i j', i < K * N -> cell2 fs' i j' =
        if j' =? j then do c <- nth_error (cells s) j; reshaped K c i else cell2 fs i j'.
  Proof.
    intros Hc Hs Hj. unfold gather_cell, kFields.
    rewrite at_shift_some by lia. replace (head s + j - head s) with j by lia.
    destruct (nth_error_lt_some (cells s) j Hj) as [c Ec]. rewrite Ec. simpl.
    assert (Hci : is_coeff K N c) by (rewrite Forall_forall in Hc; apply Hc; eapply nth_error_In; eauto).
    match goal with |- context [foldM ?f _ _] => pose (step := f); change f with step end.
    destruct (foldM_seq_inv step
      (fun i_field gs => shape gs (K * N) (List.length (cells s)) /\
         forall i j', i < K * N -> cell2 gs i j' =
           if (i + 1 <? i_field) && (j' =? j) then reshaped K c i else cell2 fs i j') (K * N) 1 fs)
      as [fs' [E [S1 S2]]].
    - split; auto. intros i j' Hi. destruct (Nat.ltb_spec (i + 1) 1); [lia|]. auto.
    - intros i_field gs Hi [G1 G2]. unfold step. rewrite at_shift_some by lia.
      destruct (shape_row gs _ _ (i_field - 1) G1 ltac:(lia)) as [row [Er Lr]]. rewrite Er. simpl.
      destruct (reshaped_some K N c (i_field - 1) Hci ltac:(lia)) as [v Ev]. rewrite Ev. simpl.
      rewrite set_shift_some by lia. simpl. rewrite set_shift_some by (destruct G1; lia).
      replace (head s + j - head s) with j by lia.
      destruct (set2 gs _ _ (i_field - 1) j v row G1 ltac:(lia) Hj Er) as [T1 T2].
      eexists. split; [reflexivity|]. split; [exact T1|]. intros i j' Hi'. rewrite T2, G2 by auto.
      destruct (Nat.eqb_spec i (i_field - 1)) as [->|Hne]; simpl.
      + destruct (Nat.eqb_spec j' j); simpl.
        * destruct (Nat.ltb_spec (i_field - 1 + 1) (i_field + 1)); [|lia]. simpl. auto.
        * rewrite !andb_false_r. auto.
      + destruct (Nat.ltb_spec (i + 1) i_field), (Nat.ltb_spec (i + 1) (i_field + 1)); simpl; auto; lia.
    - exists fs'. split; [exact E|]. split; [exact S1|]. intros i j' Hi. rewrite S2 by auto.
      destruct (Nat.ltb_spec (i + 1) (1 + K * N)); [|lia]. simpl.
      destruct (j' =? j); auto.
  Qed.

  Lemma GatherFields_ok s n : section_ok K N n s ->
    exists s', GatherFields K N s = Some s' /\ gathered s s'.
  Proof.
    intros [Hc [Hl [Hr _]]]. unfold GatherFields.
    assert (Hs : shape (fields s) (K * N) (List.length (cells s))) by (split; auto).
    destruct (foldM_seq_inv (gather_cell K N s)
      (fun i_cell fs => shape fs (K * N) (List.length (cells s)) /\
         forall i j c, i < K * N -> head s + j < i_cell -> nth_error (cells s) j = Some c ->
           cell2 fs i j = reshaped K c i)
      (List.length (cells s)) (head s) (fields s)) as [fs' [E [S1 S2]]].
    - split; auto. intros; lia.
    - intros i_cell fs Hi [G1 G2].
      destruct (gather_cell_ok s fs (i_cell - head s) Hc G1 ltac:(lia)) as [fs' [E [T1 T2]]].
      replace (head s + (i_cell - head s)) with i_cell in E by lia.
      exists fs'. split; [exact E|]. split; [exact T1|]. intros i j c Hi' Hj Ec. rewrite T2 by auto.
      destruct (Nat.eqb_spec j (i_cell - head s)) as [<-|Hne].
      + rewrite Ec. auto.
      + apply G2; auto. lia.
    - rewrite E. simpl. eexists. split; [reflexivity|]. repeat split; simpl; try apply S1.
      intros i j c Hi Ec. apply S2; auto. apply nth_error_some_lt in Ec. lia.
  Qed.

  (** the cells of [s'] have the coefficients in the arrays of [s] *)
  Definition scattered s s' : Prop :=
    head s' = head s /\ fields s' = fields s /\
    List.length (cells s') = List.length (cells s) /\
    forall j c, nth_error (cells s') j = Some c -> is_coeff K N c /\
      forall i, i < K * N -> reshaped K c i = cell2 (fields s) i j.

  Lemma scatter_cell_ok s cs j : shape (fields s) (K * N) (List.length (cells s)) ->
    Forall (is_coeff K N) cs -> List.length cs = List.length (cells s) -> j < List.length (cells s) ->
    exists cs' c', scatter_cell K N s cs (head s + j) = Some cs' /\ cs' = upd cs j c' /\
      is_coeff K N c' /\ forall i, i < K * N -> reshaped K c' i = cell2 (fields s) i j.
  Proof.
    intros Hs Hc Hl Hj. unfold scatter_cell, kFields.
    rewrite at_shift_some by lia. replace (head s + j - head s) with j by lia.
    destruct (nth_error_lt_some cs j ltac:(lia)) as [c Ec]. rewrite Ec. simpl.
    assert (Hci : is_coeff K N c) by (rewrite Forall_forall in Hc; apply Hc; eapply nth_error_In; eauto).
    match goal with |- context [foldM ?f (seq 1 (K * N)) c] => pose (step := f); change f with step end.
    destruct (foldM_seq_inv step
      (fun i_field c' => is_coeff K N c' /\
         forall i, i < K * N -> i + 1 < i_field -> reshaped K c' i = cell2 (fields s) i j) (K * N) 1 c)
      as [c' [E [S1 S2]]].
    - split; auto. intros; lia.
    - intros i_field d Hi [G1 G2]. unfold step. rewrite at_shift_some by lia.
      destruct (shape_row (fields s) _ _ (i_field - 1) Hs ltac:(lia)) as [row [Er Lr]]. rewrite Er. simpl.
      rewrite at_shift_some by lia. replace (head s + j - head s) with j by lia.
      destruct (nth_error_lt_some row j ltac:(lia)) as [v Ev]. rewrite Ev. simpl.
      destruct (reshaped_set_ok K N d (i_field - 1) v G1 ltac:(lia)) as [d' [Ed [D1 D2]]].
      exists d'. split; [exact Ed|]. split; [exact D1|]. intros i Hi' Hlt. rewrite D2 by auto.
      destruct (Nat.eqb_spec i (i_field - 1)) as [->|Hne].
      + unfold cell2. rewrite Er. simpl. auto.
      + apply G2; auto. lia.
    - rewrite E. simpl. rewrite set_shift_some by lia.
      replace (head s + j - head s) with j by lia.
      exists (upd cs j c'), c'. repeat split; auto; try apply S1. intros i Hi. apply S2; auto. lia.
  Qed.

  Lemma ScatterFields_ok s : shape (fields s) (K * N) (List.length (cells s)) ->
    Forall (is_coeff K N) (cells s) ->
    exists s', ScatterFields K N s = Some s' /\ scattered s s'.
  Proof.
    intros Hs Hc. unfold ScatterFields.
    destruct (foldM_seq_inv (scatter_cell K N s)
      (fun i_cell cs => Forall (is_coeff K N) cs /\ List.length cs = List.length (cells s) /\
         forall j c, head s + j < i_cell -> nth_error cs j = Some c ->
           is_coeff K N c /\ forall i, i < K * N -> reshaped K c i = cell2 (fields s) i j)
      (List.length (cells s)) (head s) (cells s)) as [cs' [E [S1 [S2 S3]]]].
    - repeat split; auto; intros; lia.
    - intros i_cell cs Hi [G1 [G2 G3]].
      destruct (scatter_cell_ok s cs (i_cell - head s) Hs G1 G2 ltac:(lia)) as [cs' [c' [E [-> [T1 T2]]]]].
      replace (head s + (i_cell - head s)) with i_cell in E by lia.
      eexists. split; [exact E|]. split; [|split].
      + clear - G1 T1. revert G1. generalize (i_cell - head s).
        induction cs as [|x t IH]; intros [|n] G; simpl; auto; inversion G; subst; constructor; auto.
      + rewrite upd_length; auto.
      + intros j c Hj Ec. destruct (Nat.eq_dec j (i_cell - head s)) as [->|Hne].
        * rewrite nth_error_upd_same in Ec by lia. inversion Ec; subst. auto.
        * rewrite nth_error_upd_other in Ec by auto. apply G3; auto. lia.
    - rewrite E. simpl. eexists. split; [reflexivity|]. split; [|split; [|split]]; simpl; auto.
      intros j c Ec. apply S3; auto. apply nth_error_some_lt in Ec. lia.
  Qed.
End Gather.

(** ** All sections of a zone *)

Section Zone.
  Context {A : Type}.

  Lemma find_key_in {V} k (v : V) m : find_key k m = Some v -> In (k, v) m.
  Proof.
    induction m as [|[k' v'] t IH]; simpl; [discriminate|].
    destruct (Nat.eqb_spec k k') as [->|]; intros H; [inversion H; auto|auto].
  Qed.

  Lemma find_key_some {V} k (v : V) m : NoDup (map fst m) -> In (k, v) m -> find_key k m = Some v.
  Proof.
    induction m as [|[k' v'] t IH]; simpl; intros Hn Hi; [tauto|].
    inversion Hn as [|? ? Hk Ht]; subst. destruct Hi as [Hi|Hi].
    - inversion Hi; subst. rewrite Nat.eqb_refl. auto.
    - destruct (Nat.eqb_spec k k') as [->|]; [|auto].
      exfalso. apply Hk. apply in_map_iff. exists (k', v). auto.
  Qed.

  Lemma assign_keys {V} k (v : V) m : map fst (assign k v m) = map fst m.
  Proof.
    unfold assign. rewrite map_map. apply map_ext. intros [k' v']. simpl.
    destruct (Nat.eqb_spec k' k); simpl; auto.
  Qed.

  (** a function that is applied to all sections *)
  Lemma each_section_ok (f : Sect A -> option (Sect A)) (Q : Sect A -> Sect A -> Prop) m n :
    map fst m = seq 1 n ->
    (forall k s, In (k, s) m -> exists s', f s = Some s' /\ Q s s') ->
    exists m', each_section f m = Some m' /\
      Forall2 (fun x x' => fst x = fst x' /\ Q (snd x) (snd x')) m m'.
  Proof.
    intros Hk Hf. unfold each_section.
    assert (Hn : List.length m = n) by (rewrite <- (map_length fst), Hk, seq_length; auto).
    rewrite Hn.
    match goal with |- context [foldM ?g _ _] => pose (step := g); change g with step end.
    destruct (foldM_seq_inv step
      (fun i mc => map fst mc = seq 1 n /\
         Forall2 (fun x x' => fst x = fst x' /\
           if fst x <? i then Q (snd x) (snd x') else snd x = snd x') m mc) n 1 m) as [m' [E [S1 S2]]].
    - split; auto.
      assert (G : forall l : list (nat * Sect A), (forall x, In x l -> In (fst x) (seq 1 n)) ->
        Forall2 (fun x x' => fst x = fst x' /\ if fst x <? 1 then Q (snd x) (snd x') else snd x = snd x') l l).
      { induction l as [|x t IH]; intros H; constructor; auto.
        - split; auto. specialize (H x (or_introl eq_refl)). apply in_seq in H.
          destruct (Nat.ltb_spec (fst x) 1); [lia|auto].
        - apply IH. intros y Hy. apply H. right; auto. }
      apply G. intros x Hx. rewrite <- Hk. apply in_map. auto.
    - intros i mc Hi [G1 G2]. unfold step.
      assert (Hin : In i (map fst mc)) by (rewrite G1; apply in_seq; lia).
      apply in_map_iff in Hin. destruct Hin as [[i' s] [Ei Hin]]. simpl in Ei. subst i'.
      assert (Hnd : NoDup (map fst mc)) by (rewrite G1; apply seq_NoDup).
      rewrite (find_key_some i s mc Hnd Hin). simpl.
      assert (Hm : In (i, s) m).
      { clear - G2 Hin. induction G2 as [|x x' t t' [H1 H2] _ IH]; simpl in *; [tauto|].
        destruct Hin as [->|Hin]; [left|right; auto]. simpl in *. rewrite H1 in H2.
        destruct (Nat.ltb_spec i i); [lia|]. destruct x; simpl in *. congruence. }
      destruct (Hf i s Hm) as [s' [Es Hq]]. rewrite Es. simpl. eexists. split; [reflexivity|].
      split; [rewrite assign_keys; auto|].
      assert (Hu : forall x, In x m -> fst x = i -> snd x = s).
      { intros [k0 s0] Hx Hx0. simpl in Hx0. subst k0. simpl.
        assert (Hnm : NoDup (map fst m)) by (rewrite Hk; apply seq_NoDup).
        pose proof (find_key_some i s0 m Hnm Hx) as E1.
        pose proof (find_key_some i s m Hnm Hm) as E2. congruence. }
      clear - G2 Hq Hu. unfold assign. revert Hu.
      induction G2 as [|x x' t t' [H1 H2] _ IH]; intros Hu; simpl; constructor.
      + rewrite <- H1. destruct (Nat.eqb_spec (fst x) i) as [Hx|Hx]; simpl.
        * split; auto. destruct (Nat.ltb_spec (fst x) (i + 1)); [|lia].
          rewrite (Hu x (or_introl eq_refl) Hx). auto.
        * split; auto. destruct (Nat.ltb_spec (fst x) i), (Nat.ltb_spec (fst x) (i + 1)); auto; lia.
      + apply IH. intros y Hy. apply Hu. right; auto.
    - exists m'. split; [exact E|]. clear - S2 Hk.
      assert (Hb : forall x, In x m -> fst x < 1 + n).
      { intros x Hx. apply (in_map fst) in Hx. rewrite Hk in Hx. apply in_seq in Hx. lia. }
      clear Hk. induction S2 as [|x x' t t' [H1 H2] _ IH]; constructor.
      + split; auto. specialize (Hb x (or_introl eq_refl)).
        destruct (Nat.ltb_spec (fst x) (1 + n)); [auto|lia].
      + apply IH. intros y Hy. apply Hb. right; auto.
  Qed.
End Zone.
