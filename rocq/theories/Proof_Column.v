From Coq Require Import List Arith Lia Bool Permutation.
From Verif Require Import Arrays Model_Column Spec_Column Proof_Sections.
Import ListNotations.

(** ** Generic facts *)
Lemma upd_opt_some {X} (l : list X) p x : p < length l -> upd_opt l p x = Some (upd l p x).
Proof. intros H. unfold upd_opt. destruct (Nat.ltb_spec p (length l)); [auto|lia]. Qed.

Lemma foldM_upd {X} (n : nat) (step : list X -> nat -> option (list X)) (g : nat -> X -> X)
    (P : nat -> X -> Prop) ps : NoDup ps ->
  (forall cells p c, length cells = n -> In p ps -> nth_error cells p = Some c -> P p c ->
     step cells p = Some (upd cells p (g p c))) ->
  forall cells, length cells = n -> (forall p, In p ps -> p < n) ->
    (forall p c, In p ps -> nth_error cells p = Some c -> P p c) ->
  exists cells', foldM step ps cells = Some cells' /\ length cells' = n /\
    (forall p c, In p ps -> nth_error cells p = Some c -> nth_error cells' p = Some (g p c)) /\
    (forall p, ~ In p ps -> nth_error cells' p = nth_error cells p).
Proof.
  induction 1 as [|p ps N ND IH]; intros HS cells L B HP; simpl.
  - exists cells. repeat split; auto. intros p c [].
  - destruct (nth_error_lt_some cells p) as (c & Ec); [rewrite L; apply B; left; auto|].
    rewrite (HS cells p c); [|auto|left; auto|auto|apply HP; [left; auto|auto]]. cbn [bind].
    destruct (IH) with (cells := upd cells p (g p c)) as (cells' & E & L' & K1 & K2).
    + intros. apply HS; auto. right; auto.
    + rewrite upd_length. auto.
    + intros q Hq. apply B. right. auto.
    + intros q d Hq Hd. rewrite nth_error_upd_other in Hd by congruence. apply HP; auto. right; auto.
    + exists cells'. repeat split; auto.
      * intros q d [<-|Hq] Hd.
        -- rewrite K2 by auto. assert (d = c) by congruence. subst d.
           apply nth_error_upd_same. rewrite L. apply B. left; auto.
        -- apply K1; auto. rewrite nth_error_upd_other by congruence. auto.
      * intros q Hq. simpl in Hq. rewrite K2 by tauto. apply nth_error_upd_other. tauto.
Qed.

Section Facts.
  Context {A : Type}.
  Implicit Types (cells : list (LocalCell A)).

  Lemma in_combine_seq {X} (l : list X) p c : forall a,
    In (p, c) (combine (seq a (length l)) l) <-> a <= p /\ nth_error l (p - a) = Some c.
  Proof.
    induction l as [|x t IH]; intros a; simpl.
    - split; [tauto|]. intros (_ & H). destruct (p - a); discriminate.
    - rewrite IH. split.
      + intros [H|(H1 & H2)].
        * inversion H; subst. rewrite Nat.sub_diag. auto.
        * split; [lia|]. replace (p - a) with (S (p - S a)) by lia. auto.
      + intros (H1 & H2). destruct (Nat.eq_dec p a) as [->|N].
        * rewrite Nat.sub_diag in H2. inversion H2; auto.
        * right. split; [lia|]. replace (p - a) with (S (p - S a)) in H2 by lia. auto.
  Qed.

  Lemma positions_in b cells p : In p (positions b cells) <->
    exists c, nth_error cells p = Some c /\ c_inner c = negb b.
  Proof.
    unfold positions. rewrite in_map_iff. split.
    - intros ((q & c) & <- & H). apply filter_In in H. destruct H as (H & E).
      rewrite in_combine_seq, Nat.sub_0_r in H. exists c. simpl in *. split; [tauto|].
      apply eqb_prop in E. subst b. rewrite negb_involutive. auto.
    - intros (c & H & E). exists (p, c). split; auto. apply filter_In. split.
      + rewrite in_combine_seq, Nat.sub_0_r. split; [lia|auto].
      + simpl. rewrite E, negb_involutive. apply eqb_reflx.
  Qed.

  Lemma NoDup_map_filter {X Y} (f : X -> Y) (g : X -> bool) l :
    NoDup (map f l) -> NoDup (map f (filter g l)).
  Proof.
    induction l as [|x t IH]; simpl; intros H; [constructor|]. inversion H; subst.
    destruct (g x); simpl; auto. constructor; auto.
    intros Hin. apply H2. apply in_map_iff in Hin. destruct Hin as (y & <- & Hy).
    apply filter_In in Hy. apply in_map. tauto.
  Qed.

  Lemma map_fst_combine_seq {X} (l : list X) : forall a,
    map fst (combine (seq a (length l)) l) = seq a (length l).
  Proof. induction l as [|x t IH]; intros a; simpl; auto. f_equal. auto. Qed.

  Lemma pointers_perm cells : Permutation (pointers cells) (seq 0 (length cells)).
  Proof.
    apply NoDup_Permutation.
    - unfold pointers.
      assert (D : forall b, NoDup (positions b cells)).
      { intros b. apply NoDup_map_filter. rewrite map_fst_combine_seq. apply seq_NoDup. }
      apply NoDup_app_intro; auto.
      intros p H1 H2. apply positions_in in H1. apply positions_in in H2.
      destruct H1 as (c & E1 & I1), H2 as (c' & E2 & I2). simpl in *. congruence.
    - apply seq_NoDup.
    - intros p. unfold pointers. rewrite in_app_iff, !positions_in, in_seq. split.
      + intros [(c & E & _)|(c & E & _)]; apply nth_error_some_lt in E; lia.
      + intros H. destruct (nth_error_lt_some cells p) as (c & E); [lia|].
        destruct (c_inner c) eqn:I; [left|right]; eauto.
  Qed.

  (** ** Marking *)
  Lemma mark_ok cells m : NoDup (map c_metis cells) -> In m (map c_metis cells) ->
    exists cells', mark_inter cells m = Some cells' /\
      cells' = map (fun c => mkLocalCell (c_metis c) (c_inner c && negb (c_metis c =? m))
                               (c_id c) (c_coeff c)) cells.
  Proof.
    induction cells as [|c t IH]; simpl; intros ND H; [tauto|].
    inversion ND as [|? ? N1 N2]; subst. destruct (Nat.eqb_spec (c_metis c) m) as [E|N].
    - eexists. split; [reflexivity|]. simpl. rewrite andb_false_r. f_equal.
      symmetry. rewrite <- map_id. apply map_ext_in. intros x Hx.
      destruct (Nat.eqb_spec (c_metis x) m) as [E'|_].
      + exfalso. apply N1. rewrite E, <- E'. apply in_map. auto.
      + simpl. rewrite andb_true_r. destruct x; auto.
    - destruct IH as (t' & -> & ->); auto; [tauto|]. cbn [bind].
      eexists. split; [reflexivity|]. simpl. rewrite andb_true_r. destruct c; auto.
  Qed.

  Lemma fill_ok send : forall cells, NoDup (map c_metis cells) -> incl send (map c_metis cells) ->
    FillCellPtrs send cells = Some (map (fun c => mkLocalCell (c_metis c)
       (c_inner c && negb (existsb (Nat.eqb (c_metis c)) send)) (c_id c) (c_coeff c)) cells).
  Proof.
    unfold FillCellPtrs. induction send as [|m send IH]; intros cells ND HI; simpl.
    - f_equal. symmetry. rewrite <- map_id. apply map_ext. intros c. rewrite andb_true_r.
      destruct c; auto.
    - destruct (mark_ok cells m ND) as (c1 & E & Hc); [apply HI; left; auto|].
      rewrite E. cbn [bind].
      assert (M : map c_metis c1 = map c_metis cells).
      { rewrite Hc, map_map. apply map_ext. auto. }
      rewrite IH.
      + f_equal. rewrite Hc, map_map. apply map_ext. intros c. simpl. f_equal.
        rewrite negb_orb, andb_assoc. auto.
      + rewrite M. auto.
      + rewrite M. intros x Hx. apply HI. right. auto.
  Qed.

  (** ** Numbering *)
  Lemma give_ids k_fields ps : NoDup ps -> forall cells id data,
    (forall p, In p ps -> p < length cells) -> Forall (fun c => length (c_coeff c) = k_fields) cells ->
    data = map (fun i => i * k_fields) (seq 0 (S id)) ->
    exists cells', foldM give_id ps (cells, id, data)
        = Some (cells', id + length ps, map (fun i => i * k_fields) (seq 0 (S (id + length ps)))) /\
      length cells' = length cells /\
      (forall j p c, nth_error ps j = Some p -> nth_error cells p = Some c ->
         nth_error cells' p = Some (set_id c (id + j))) /\
      (forall p, ~ In p ps -> nth_error cells' p = nth_error cells p).
  Proof.
    induction 1 as [|p ps N ND IH]; intros cells id data B F D.
    - exists cells. simpl. rewrite Nat.add_0_r. subst data. repeat split; auto.
      intros [|j] p c Hj; discriminate.
    - simpl foldM. destruct (nth_error_lt_some cells p) as (c & Ec); [apply B; left; auto|].
      rewrite Ec. cbn [bind].
      assert (LD : nth_error data (length data - 1) = Some (id * k_fields)).
      { subst data. rewrite map_length, seq_length. simpl length.
        replace (S id - 1) with id by lia. rewrite nth_error_map, nth_error_seq by lia. auto. }
      rewrite LD. cbn [bind]. rewrite upd_opt_some by (apply B; left; auto). cbn [bind].
      rewrite Forall_forall in F.
      destruct (IH (upd cells p (set_id c id)) (S id) (data ++ [id * k_fields + length (c_coeff c)]))
        as (cells' & E & L & K1 & K2).
      + intros q Hq. rewrite upd_length. apply B. right. auto.
      + apply Forall_forall. intros x Hx. apply In_nth_error in Hx. destruct Hx as (q & Hq).
        destruct (Nat.eq_dec p q) as [<-|Nq].
        * rewrite nth_error_upd_same in Hq by (apply B; left; auto). inversion Hq; subst.
          simpl. apply F. eapply nth_error_In; eauto.
        * rewrite nth_error_upd_other in Hq by auto. apply F. eapply nth_error_In; eauto.
      + rewrite (F c) by (eapply nth_error_In; eauto). subst data.
        rewrite (seq_S (S id)), map_app. apply f_equal.
        change (map (fun i => i * k_fields) [0 + S id]) with [S id * k_fields].
        apply f_equal2; [|auto]. simpl. lia.
      + exists cells'. rewrite E. simpl length. rewrite upd_length in L.
        replace (id + S (length ps)) with (S id + length ps) by lia. repeat split; auto.
        * intros [|j] q d Hj Hd; simpl in Hj.
          -- inversion Hj; subst q. rewrite K2 by auto. rewrite Hd in Ec. inversion Ec; subst.
             rewrite Nat.add_0_r. apply nth_error_upd_same. apply B. left; auto.
          -- rewrite <- Nat.add_succ_comm. apply K1; auto.
             assert (In q ps) by (eapply nth_error_In; eauto).
             rewrite nth_error_upd_other; auto. congruence.
        * intros q Hq. simpl in Hq. rewrite K2 by tauto. apply nth_error_upd_other. tauto.
  Qed.

  (** what [AddLocalCellId] leaves behind *)
  Record numbered (k_fields : nat) cells cells' (data : list nat) : Prop := {
    nd_but : map but_id cells' = map but_id cells;
    nd_at : forall j p, nth_error (pointers cells) j = Some p ->
      exists c, nth_error cells' p = Some c /\ c_id c = Some j;
    nd_ids : numbering cells';
    nd_data : data = map (fun i => i * k_fields) (seq 0 (S (length cells)))
  }.

  Lemma but_id_nth cells cells' : map but_id cells' = map but_id cells ->
    forall p c', nth_error cells' p = Some c' -> exists c, nth_error cells p = Some c /\ but_id c = but_id c'.
  Proof.
    intros H p c' Hp. apply (f_equal (fun l => nth_error l p)) in H. rewrite !nth_error_map, Hp in H.
    simpl in H. destruct (nth_error cells p) as [c|]; [|discriminate]. exists c. split; [auto|].
    simpl in H. congruence.
  Qed.

  Lemma add_ids_ok k_fields cells : Forall (fun c => length (c_coeff c) = k_fields) cells ->
    exists cells' data, AddLocalCellId k_fields cells = Some (cells', data) /\
      numbered k_fields cells cells' data.
  Proof.
    intros F. pose proof (pointers_perm cells) as P.
    assert (ND : NoDup (pointers cells)).
    { eapply Permutation_NoDup; [apply Permutation_sym, P|apply seq_NoDup]. }
    assert (L : length (pointers cells) = length cells).
    { rewrite (Permutation_length P), seq_length. auto. }
    destruct (give_ids k_fields (pointers cells) ND cells 0 [0]) as (cells' & E & L' & K1 & K2); auto.
    { intros p Hp. apply (Permutation_in _ P) in Hp. apply in_seq in Hp. lia. }
    simpl plus in E. rewrite L in E.
    set (data := map (fun i => i * k_fields) (seq 0 (S (length cells)))) in *.
    exists cells', data. split.
    - unfold AddLocalCellId. rewrite E. cbn [bind].
      assert (LD : length data = S (length cells)).
      { unfold data. rewrite map_length, seq_length. auto. }
      rewrite LD. replace (S (length cells) - 1) with (length cells) by lia.
      assert (ED : nth_error data (length cells) = Some (length cells * k_fields)).
      { unfold data. rewrite nth_error_map, nth_error_seq by lia. auto. }
      rewrite ED. cbn [bind]. rewrite Nat.add_1_r, !Nat.eqb_refl. auto.
    - assert (AT : forall j p, nth_error (pointers cells) j = Some p ->
        exists c, nth_error cells p = Some c /\ nth_error cells' p = Some (set_id c j)).
      { intros j p Hj. destruct (nth_error_lt_some cells p) as (c & Ec).
        - apply nth_error_In in Hj. apply (Permutation_in _ P) in Hj. apply in_seq in Hj. lia.
        - exists c. split; auto. apply (K1 j p c Hj Ec). }
      constructor.
      + apply nth_error_ext. intros p. rewrite !nth_error_map.
        destruct (nth_error cells p) as [c|] eqn:Ec.
        * assert (Hin : In p (pointers cells)).
          { apply (Permutation_in _ (Permutation_sym P)). apply in_seq.
            apply nth_error_some_lt in Ec. lia. }
          apply In_nth_error in Hin. destruct Hin as (j & Hj).
          rewrite (K1 j p c Hj Ec). auto.
        * apply nth_error_None in Ec. rewrite (proj2 (nth_error_None cells' p)); [auto|lia].
      + intros j p Hj. destruct (AT j p Hj) as (c & _ & Ec). exists (set_id c j). auto.
      + assert (P' : Permutation (pointers cells) (seq 0 (length cells'))) by (rewrite L'; auto).
        destruct (mapM_perm cells' (pointers cells) P') as (r & Er & Pr).
        unfold numbering. etransitivity; [apply Permutation_map, Permutation_sym, Pr|].
        assert (EQ : map c_id r = map Some (seq 0 (length cells'))).
        { apply nth_error_ext. intros j. rewrite !nth_error_map.
          pose proof (mapM_length _ _ _ Er) as Lr.
          destruct (Nat.lt_ge_cases j (length cells)) as [Hj|Hj].
          - destruct (nth_error_lt_some (pointers cells) j) as (p & Hp); [lia|].
            destruct (mapM_nth _ _ _ _ _ Er Hp) as (x & X1 & X2). rewrite X2, nth_error_seq by lia.
            destruct (AT j p Hp) as (c & _ & Ec). rewrite Ec in X1. inversion X1; subst. auto.
          - rewrite (proj2 (nth_error_None r j)) by lia.
            rewrite (proj2 (nth_error_None (seq _ _) j)); auto. rewrite seq_length. lia. }
        rewrite EQ. auto.
      + reflexivity.
  Qed.

  (** ** C18 *)
  Theorem local_ids_ok k_fields send cells :
    NoDup (map c_metis cells) -> incl send (map c_metis cells) ->
    Forall (fun c => c_inner c = true) cells ->
    Forall (fun c => length (c_coeff c) = k_fields) cells ->
    exists marked cells' data,
      FillCellPtrs send cells = Some marked /\ AddLocalCellId k_fields marked = Some (cells', data) /\
      map (fun c => (c_metis c, c_coeff c)) cells' = map (fun c => (c_metis c, c_coeff c)) cells /\
      numbering cells' /\
      (forall c, In c cells' -> (c_inner c = false <-> In (c_metis c) send)) /\
      (forall c c' i i', In c cells' -> In c' cells' -> c_id c = Some i -> c_id c' = Some i' ->
         ~ In (c_metis c) send -> In (c_metis c') send -> i < i') /\
      data = map (fun i => i * k_fields) (seq 0 (S (length cells))).
  Proof.
    intros ND HI HT HF. rewrite (fill_ok send cells ND HI).
    set (marked := map _ cells).
    assert (FM : Forall (fun c : LocalCell A => length (c_coeff c) = k_fields) marked).
    { unfold marked. apply Forall_map. eapply Forall_impl; [|exact HF]. auto. }
    destruct (add_ids_ok k_fields marked FM) as (cells' & data & E & [B AT I D]).
    exists marked, cells', data. split; [auto|]. split; [auto|].
    assert (INN : forall c, In c cells' -> (c_inner c = false <-> In (c_metis c) send)).
    { intros c Hc. apply In_nth_error in Hc. destruct Hc as (p & Hp).
      destruct (but_id_nth _ _ B p c Hp) as (m & Hm & Em).
      unfold marked in Hm. rewrite nth_error_map in Hm.
      destruct (nth_error cells p) as [c0|] eqn:E0; [|discriminate]. inversion Hm; subst m.
      unfold but_id in Em. simpl in Em. injection Em as M1 M2 M3. rewrite <- M2, <- M1.
      rewrite Forall_forall in HT. rewrite (HT c0) by (eapply nth_error_In; eauto). simpl.
      rewrite negb_false_iff, existsb_exists. split.
      - intros (x & Hx & Ex). apply Nat.eqb_eq in Ex. subst x. auto.
      - intros Hs. exists (c_metis c0). rewrite Nat.eqb_refl. auto. }
    repeat apply conj; auto.
    - apply (f_equal (map (fun x => (fst (fst x), snd x)))) in B. rewrite !map_map in B.
      unfold but_id in B. simpl in B. rewrite B. unfold marked. rewrite map_map. auto.
    - (* inner cells have smaller ids *)
      assert (LK : forall c i, In c cells' -> c_id c = Some i ->
        exists p, nth_error (pointers marked) i = Some p /\ nth_error cells' p = Some c).
      { intros c i Hc Hi.
        apply In_nth_error in Hc. destruct Hc as (p & Hp).
        assert (Hin : In p (pointers marked)).
        { apply (Permutation_in _ (Permutation_sym (pointers_perm marked))). apply in_seq.
          assert (length marked = length cells').
          { apply (f_equal (@length _)) in B. rewrite !map_length in B. auto. }
          apply nth_error_some_lt in Hp. lia. }
        apply In_nth_error in Hin. destruct Hin as (j & Hj).
        destruct (AT j p Hj) as (c' & Ec' & Ej). rewrite Hp in Ec'. inversion Ec'; subst c'.
        rewrite Ej in Hi. inversion Hi; subst. eauto. }
      intros c c' i i' Hc Hc' Hi Hi' Hn Hs.
      destruct (LK c i Hc Hi) as (p & Hp & Ep). destruct (LK c' i' Hc' Hi') as (p' & Hp' & Ep').
      assert (P1 : In p (positions false marked)).
      { apply positions_in. destruct (but_id_nth _ _ B p c Ep) as (m & Hm & Em). exists m.
        split; auto. unfold but_id in Em. injection Em as M1 M2 M3. rewrite M2. simpl.
        destruct (c_inner c) eqn:K; auto. exfalso. apply Hn. apply INN; auto. }
      assert (P2 : In p' (positions true marked)).
      { apply positions_in. destruct (but_id_nth _ _ B p' c' Ep') as (m & Hm & Em). exists m.
        split; auto. unfold but_id in Em. injection Em as M1 M2 M3. rewrite M2. simpl.
        apply INN; auto. }
      destruct (Nat.lt_ge_cases i (length (positions false marked))) as [Li|Li].
      + destruct (Nat.lt_ge_cases i' (length (positions false marked))) as [Li'|Li']; [|lia].
        exfalso. unfold pointers in Hp'. rewrite nth_error_app1 in Hp' by auto.
        apply nth_error_In in Hp'. apply positions_in in Hp'. apply positions_in in P2.
        destruct Hp' as (x & X1 & X2), P2 as (y & Y1 & Y2). simpl in *. congruence.
      + exfalso. unfold pointers in Hp. rewrite nth_error_app2 in Hp by auto.
        apply nth_error_In in Hp. apply positions_in in Hp. apply positions_in in P1.
        destruct Hp as (x & X1 & X2), P1 as (y & Y1 & Y2). simpl in *. congruence.
    - rewrite D. unfold marked. rewrite map_length. auto.
  Qed.
End Facts.

(** ** C17 *)
Section Pack.
  Context {A : Type}.
  Variables (n k_fields : nat).
  Implicit Types (cells : list (LocalCell A)) (col : list A).

  Lemma segment_length col i : length col = n * k_fields -> i < n ->
    length (segment k_fields col i) = k_fields.
  Proof.
    intros L H. unfold segment. rewrite firstn_length, skipn_length, L.
    assert ((i + 1) * k_fields <= n * k_fields) by (apply Nat.mul_le_mono_r; lia). lia.
  Qed.

  Lemma segments_ext col col' : length col = n * k_fields -> length col' = n * k_fields ->
    (forall i, i < n -> segment k_fields col i = segment k_fields col' i) -> col = col'.
  Proof.
    revert col col'. induction n as [|m IH]; intros col col' L L' H.
    - destruct col, col'; auto; discriminate.
    - rewrite <- (firstn_skipn k_fields col), <- (firstn_skipn k_fields col').
      f_equal.
      + apply (H 0). lia.
      + simpl in L, L'. apply IH; try (rewrite skipn_length; lia).
        intros i Hi. specialize (H (S i)). unfold segment in *. rewrite !skipn_skipn.
        rewrite !(Nat.add_comm (i * k_fields)). apply H. lia.
  Qed.

  Lemma skipn_write (a b c : list A) i :
    skipn i (a ++ b ++ c) = skipn i a ++ skipn (i - length a) (b ++ c).
  Proof. rewrite skipn_app. auto. Qed.

  Lemma write_segment col i new col' : length col = n * k_fields -> i < n ->
    length new = k_fields -> write_at col (i * k_fields) new = Some col' ->
    length col' = n * k_fields /\ segment k_fields col' i = new /\
    forall j, j < n -> j <> i -> segment k_fields col' j = segment k_fields col j.
  Proof.
    intros L Hi Ln W.
    assert (B : (i + 1) * k_fields <= n * k_fields) by (apply Nat.mul_le_mono_r; lia).
    unfold write_at in W. rewrite Ln, L in W.
    destruct (Nat.leb_spec (i * k_fields + k_fields) (n * k_fields)); [|lia].
    inversion W; subst col'; clear W.
    assert (LF : length (firstn (i * k_fields) col) = i * k_fields)
      by (rewrite firstn_length; lia).
    repeat split.
    - rewrite !app_length, LF, Ln, skipn_length. lia.
    - unfold segment. rewrite skipn_app, LF, Nat.sub_diag, (skipn_all2 (firstn _ _)) by lia.
      simpl. rewrite firstn_app, Ln, Nat.sub_diag, <- Ln, firstn_all. simpl. apply app_nil_r.
    - intros j Hj N. unfold segment.
      destruct (Nat.lt_ge_cases j i) as [Hl|Hl].
      + assert (Bj : (j + 1) * k_fields <= i * k_fields) by (apply Nat.mul_le_mono_r; lia).
        rewrite skipn_app, LF. replace (j * k_fields - i * k_fields) with 0 by lia.
        simpl skipn. rewrite firstn_app, skipn_length, LF.
        replace (k_fields - (i * k_fields - j * k_fields)) with 0 by lia. simpl.
        rewrite app_nil_r.
        rewrite skipn_firstn_comm, firstn_firstn. f_equal. lia.
      + assert (Bj : (i + 1) * k_fields <= j * k_fields) by (apply Nat.mul_le_mono_r; lia).
        rewrite skipn_app, LF, (skipn_all2 (firstn _ _)) by lia. simpl.
        rewrite skipn_app, Ln, (skipn_all2 new) by lia. simpl.
        rewrite skipn_skipn. do 2 f_equal. lia.
  Qed.

  Let data := map (fun i => i * k_fields) (seq 0 (S n)).

  Lemma offset_ok i : i < n -> AddCellDataOffset k_fields data (n * k_fields) i = Some (i * k_fields).
  Proof.
    intros H. unfold AddCellDataOffset.
    assert (L : length data = S n) by (unfold data; rewrite map_length, seq_length; auto).
    rewrite L. destruct (Nat.leb_spec i (S n - 1)); [|lia].
    assert (E : nth_error data i = Some (i * k_fields)).
    { unfold data. rewrite nth_error_map, nth_error_seq by lia. auto. }
    rewrite E. cbn [bind].
    assert ((i + 1) * k_fields <= n * k_fields) by (apply Nat.mul_le_mono_r; lia).
    destruct (Nat.leb_spec (i * k_fields + k_fields) (n * k_fields)); [auto|lia].
  Qed.

  Lemma check_ok i : i < n -> check_next k_fields data (n * k_fields) i (i * k_fields + k_fields) = Some tt.
  Proof.
    intros H. unfold check_next.
    destruct (Nat.eqb_spec (i * k_fields + k_fields) (n * k_fields)); auto.
    destruct (Nat.eq_dec (S i) n) as [E|N]; [exfalso; subst n; lia|].
    rewrite offset_ok by lia. cbn [bind].
    replace (i * k_fields + k_fields) with (S i * k_fields) by lia. rewrite Nat.eqb_refl. auto.
  Qed.

  Definition good cells := length cells = n /\ numbering cells /\
    Forall (fun c => length (c_coeff c) = k_fields) cells.

  Lemma good_id cells c : good cells -> In c cells -> exists i, c_id c = Some i /\ i < n.
  Proof.
    intros (L & N & _) H. apply (in_map c_id) in H. apply (Permutation_in _ N) in H.
    apply in_map_iff in H. destruct H as (i & E & Hi). apply in_seq in Hi. exists i. split; auto. lia.
  Qed.

  Definition take col (c : LocalCell A) : LocalCell A :=
    match c_id c with Some i => set_coeff c (segment k_fields col i) | None => c end.

  Lemma set_ok cells col : good cells -> length col = n * k_fields ->
    SetSolutionColumn k_fields data col cells = Some (map (take col) cells).
  Proof.
    intros G L. pose proof G as (LC & N & F). unfold SetSolutionColumn.
    pose proof (pointers_perm cells) as P.
    set (Pq := fun (p : nat) (c : LocalCell A) => In c cells).
    destruct (foldM_upd n (set_one k_fields data col) (fun _ => take col) Pq (pointers cells))
      with (cells := cells) as (cells' & E & L' & K1 & K2); auto.
    - eapply Permutation_NoDup; [apply Permutation_sym, P|apply seq_NoDup].
    - intros cs p c Lc Hp Hc Hin. unfold set_one. rewrite Hc. cbn [bind].
      destruct (good_id cells c G Hin) as (i & Ei & Hi). rewrite Ei. cbn [bind].
      rewrite L, offset_ok by auto. cbn [bind].
      rewrite Forall_forall in F. rewrite (F c Hin).
      assert ((i + 1) * k_fields <= n * k_fields) by (apply Nat.mul_le_mono_r; lia).
      rewrite slice_some by lia. cbn [bind]. rewrite check_ok by auto. cbn [bind].
      rewrite upd_opt_some by (apply nth_error_some_lt in Hc; auto).
      unfold take. rewrite Ei. auto.
    - intros p Hp. apply (Permutation_in _ P) in Hp. apply in_seq in Hp. lia.
    - intros p c Hp Hc. eapply nth_error_In; eauto.
    - rewrite E. f_equal. apply nth_error_ext. intros p. rewrite nth_error_map.
      destruct (nth_error cells p) as [c|] eqn:Ec.
      + apply (K1 p c); auto. apply (Permutation_in _ (Permutation_sym P)). apply in_seq.
        apply nth_error_some_lt in Ec. lia.
      + apply nth_error_None in Ec. apply nth_error_None. lia.
  Qed.

  Lemma get_loop todo : forall done col, length col = n * k_fields ->
    NoDup (map c_id (done ++ todo)) ->
    (forall c, In c (done ++ todo) -> exists i, c_id c = Some i /\ i < n) ->
    Forall (fun c => length (c_coeff c) = k_fields) todo ->
    (forall c i, In c done -> c_id c = Some i -> segment k_fields col i = c_coeff c) ->
    exists col', GetSolutionColumn k_fields data col todo = Some col' /\ length col' = n * k_fields /\
      (forall c i, In c (done ++ todo) -> c_id c = Some i -> segment k_fields col' i = c_coeff c).
  Proof.
    induction todo as [|c t IH]; intros done col L ND HI F HD.
    - exists col. rewrite app_nil_r in *. auto.
    - pose proof (Forall_inv F) as F1. pose proof (Forall_inv_tail F) as F2. simpl in F1.
      destruct (HI c) as (i & Ei & Hi); [apply in_or_app; right; left; auto|].
      assert (W : exists col1, write_at col (i * k_fields) (c_coeff c) = Some col1).
      { unfold write_at. rewrite L, F1.
        assert ((i + 1) * k_fields <= n * k_fields) by (apply Nat.mul_le_mono_r; lia).
        destruct (Nat.leb_spec (i * k_fields + k_fields) (n * k_fields)); [eauto|lia]. }
      destruct W as (col1 & W).
      destruct (write_segment col i (c_coeff c) col1 L Hi F1 W) as (L1 & S1 & S2).
      destruct (IH (done ++ [c]) col1) as (col' & E & L' & K); auto.
      + rewrite <- app_assoc. auto.
      + intros x Hx. apply HI. rewrite <- app_assoc in Hx. auto.
      + intros x j Hx Hj. apply in_app_or in Hx. destruct Hx as [Hx|[<-|[]]].
        * assert (Nj : j <> i).
          { intros ->. rewrite map_app in ND. simpl in ND. apply NoDup_remove_2 in ND. apply ND.
            rewrite Ei, <- Hj. apply in_or_app. left. apply in_map. auto. }
          rewrite S2; auto.
          destruct (HI x) as (j' & E1 & E2); [apply in_or_app; auto|]. congruence.
        * rewrite Ei in Hj. inversion Hj; subst. auto.
      + exists col'. rewrite <- app_assoc in K. split; [|auto].
        unfold GetSolutionColumn. cbn [foldM]. unfold get_one at 1. rewrite Ei. cbn [bind].
        rewrite L, offset_ok by auto. cbn [bind]. rewrite W. cbn [bind].
        rewrite F1, check_ok by auto. cbn [bind]. exact E.
  Qed.

  Lemma get_ok cells init : good cells -> length init = n * k_fields ->
    exists col, GetSolutionColumn k_fields data init cells = Some col /\ length col = n * k_fields /\
      forall c i, In c cells -> c_id c = Some i -> segment k_fields col i = c_coeff c.
  Proof.
    intros G L. pose proof G as (LC & N & F).
    destruct (get_loop cells [] init L) as (col & E & L' & K); eauto.
    - simpl. eapply Permutation_NoDup; [apply Permutation_sym, N|].
      apply FinFun.Injective_map_NoDup; [|apply seq_NoDup]. intros x y H. congruence.
    - intros c Hc. eapply good_id; eauto.
    - intros c i [].
  Qed.

  Lemma good_take cells col : good cells -> length col = n * k_fields -> good (map (take col) cells).
  Proof.
    intros G L. pose proof G as (LC & N & F). repeat split.
    - rewrite map_length. auto.
    - unfold numbering in *. rewrite map_length, map_map.
      replace (map (fun x => c_id (take col x)) cells) with (map c_id cells); auto.
      apply map_ext. intros c. unfold take. destruct (c_id c) eqn:E; auto.
    - apply Forall_map. apply Forall_forall. intros c Hc.
      destruct (good_id cells c G Hc) as (i & Ei & Hi). unfold take. rewrite Ei. simpl.
      apply segment_length; auto.
  Qed.
End Pack.

(** the state that [AddLocalCellId] leaves *)
Lemma numbered_good {A} k_fields (cells cells' : list (LocalCell A)) data :
  Forall (fun c => length (c_coeff c) = k_fields) cells ->
  AddLocalCellId k_fields cells = Some (cells', data) ->
  good (length cells) k_fields cells' /\
  data = map (fun i => i * k_fields) (seq 0 (S (length cells))).
Proof.
  intros F E. destruct (add_ids_ok k_fields cells F) as (c1 & d1 & E1 & [B AT I D]).
  rewrite E in E1. injection E1 as <- <-.
  assert (L : length cells' = length cells).
  { apply (f_equal (@length _)) in B. rewrite !map_length in B. auto. }
  split; [|exact D]. repeat split; auto.
  apply Forall_forall. intros c Hc. apply In_nth_error in Hc. destruct Hc as (p & Hp).
  destruct (but_id_nth _ _ B p c Hp) as (m & Hm & Em). unfold but_id in Em. injection Em as M1 M2 M3.
  rewrite <- M3. rewrite Forall_forall in F. apply F. eapply nth_error_In; eauto.
Qed.

Theorem packing_ok {A} k_fields (cells0 cells : list (LocalCell A)) data :
  Forall (fun c => length (c_coeff c) = k_fields) cells0 ->
  AddLocalCellId k_fields cells0 = Some (cells, data) ->
  let size := length cells * k_fields in
  (* a column that is set and got again *)
  (forall col, length col = size ->
    exists cells', SetSolutionColumn k_fields data col cells = Some cells' /\
      Forall2 (fun c c' => c' = set_coeff c (c_coeff c')) cells cells' /\
      (forall c i, In c cells' -> c_id c = Some i -> c_coeff c = segment k_fields col i) /\
      forall init, length init = size -> GetSolutionColumn k_fields data init cells' = Some col) /\
  (* a solution that is got and set again *)
  (forall init, length init = size ->
    exists col, GetSolutionColumn k_fields data init cells = Some col /\ length col = size /\
      SetSolutionColumn k_fields data col cells = Some cells).
Proof.
  intros F E. destruct (numbered_good k_fields cells0 cells data F E) as (G & ->).
  pose proof G as (L & N & FC). cbv zeta. rewrite L. split.
  - intros col Lc. exists (map (take k_fields col) cells).
    split; [apply set_ok; auto|]. split.
    { clear -G. assert (H : forall l, Forall2 (fun c c' : LocalCell A => c' = set_coeff c (c_coeff c'))
         l (map (take k_fields col) l)); auto.
      induction l as [|c t IH]; simpl; constructor; auto. unfold take.
      destruct (c_id c) eqn:E; destruct c; simpl in *; subst; auto. }
    assert (S : forall c i, In c (map (take k_fields col) cells) -> c_id c = Some i ->
      c_coeff c = segment k_fields col i).
    { intros c i Hc Hi. apply in_map_iff in Hc. destruct Hc as (c0 & <- & Hc).
      unfold take in *. destruct (c_id c0) as [j|] eqn:Ej.
      - simpl in *. rewrite Ej in Hi. inversion Hi; subst; auto.
      - congruence. }
    split; auto. intros init Li.
    destruct (get_ok (length cells0) k_fields _ init (good_take _ _ _ col G Lc) Li)
      as (col' & E' & L' & K). rewrite E'. f_equal.
    apply (segments_ext (length cells0) k_fields); auto. intros i Hi.
    assert (Hin : In (Some i) (map c_id cells)).
    { apply (Permutation_in _ (Permutation_sym N)). apply in_map. apply in_seq. lia. }
    apply in_map_iff in Hin. destruct Hin as (c & Ei & Hc).
    rewrite (K (take k_fields col c) i).
    + apply S; [apply in_map; auto|]. unfold take. rewrite Ei. auto.
    + apply in_map; auto.
    + unfold take. rewrite Ei. auto.
  - intros init Li. destruct (get_ok (length cells0) k_fields cells init G Li) as (col & E' & L' & K).
    exists col. split; [auto|]. split; [auto|]. rewrite (set_ok (length cells0)); auto. f_equal.
    rewrite <- (map_id cells) at 2. apply map_ext_in. intros c Hc. unfold take.
    destruct (c_id c) as [i|] eqn:Ei; auto. rewrite (K c i); auto. destruct c; auto.
Qed.
