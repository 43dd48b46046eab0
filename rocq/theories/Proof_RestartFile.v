(** Lemmas about the model of restarting: writing and reading one zone of the file. *)
From Coq Require Import List Arith Bool Lia String DecimalString DecimalNat.
From Verif Require Import Arrays Model_Restart Spec_Restart Proof_Restart.
Import ListNotations.

Lemma field_name_inj i j : field_name i = field_name j -> i = j.
Proof.
  unfold field_name. simpl. intros H. inversion H as [H1]. clear H.
  apply (f_equal NilEmpty.uint_of_string) in H1. rewrite !NilEmpty.usu in H1. inversion H1 as [H2].
  apply DecimalNat.Unsigned.to_uint_inj. auto.
Qed.

Lemma write_at_nth {X} (l : list X) a new : a + List.length new <= List.length l ->
  exists r, write_at l a new = Some r /\ List.length r = List.length l /\
    forall q, nth_error r q =
      if (a <=? q) && (q <? a + List.length new) then nth_error new (q - a) else nth_error l q.
Proof.
  intros H. unfold write_at. destruct (Nat.leb_spec (a + List.length new) (List.length l)); [|lia].
  eexists. split; [reflexivity|].
  assert (La : List.length (firstn a l) = a) by (rewrite firstn_length; lia). split.
  - rewrite !app_length, skipn_length, La. lia.
  - intros q. destruct (Nat.leb_spec a q) as [Hq|Hq]; simpl.
    + rewrite nth_error_app2 by lia. rewrite La.
      destruct (Nat.ltb_spec q (a + List.length new)).
      * rewrite nth_error_app1 by lia. auto.
      * rewrite nth_error_app2 by lia.
        rewrite <- (firstn_skipn (a + List.length new) l) at 2.
        rewrite (nth_error_app2 (firstn _ l)) by (rewrite firstn_length; lia).
        f_equal. rewrite firstn_length. lia.
    + rewrite nth_error_app1 by lia. rewrite <- (firstn_skipn a l) at 2.
      rewrite nth_error_app1 by lia. auto.
Qed.

Lemma nth_firstn_skipn {X} (l : list X) a n j : j < n ->
  nth_error (firstn n (skipn a l)) j = nth_error l (a + j).
Proof.
  revert l; induction a as [|a IH]; intros l H; simpl.
  - revert l j H; induction n as [|n IHn]; intros l j H; [lia|].
    destruct l as [|x t]; [destruct j; auto|]. destruct j as [|j]; simpl; auto. apply IHn. lia.
  - destruct l as [|x t]; [rewrite firstn_nil; destruct j; auto|]. apply IH; auto.
Qed.

Lemma mapM_some {X Y} (f : X -> option Y) l : (forall x, In x l -> exists y, f x = Some y) ->
  exists r, mapM f l = Some r /\ forall y, In y r <-> exists x, In x l /\ f x = Some y.
Proof.
  induction l as [|x t IH]; intros H; simpl.
  - exists []. split; auto. intros y. split; [intros []|]. intros [x [[] _]].
  - destruct (H x (or_introl eq_refl)) as [y Ey]. rewrite Ey.
    destruct IH as [r [Er Hr]]. { intros x' Hx. apply H. right; auto. }
    rewrite Er. eexists. split; [reflexivity|]. intros y'. simpl. rewrite Hr. split.
    + intros [->|[x' [Hx' E']]]; eauto.
    + intros [x' [[->|Hx'] E']]; [left; congruence|right; eauto].
Qed.

Section Write.
  Context {A : Type} (K N : nat) (keeps : bool) (n n_sects : nat).

  (** one of the processes has the cell number [id] of the zone *)
  Definition zholds (maps : list (list (nat * Sect A))) (id : nat) (c : coeff A) : Prop :=
    exists m k s, In m maps /\ In (k, s) m /\ head s <= id /\ nth_error (cells s) (id - head s) = Some c.

  (** a section whose arrays have been gathered *)
  Definition ready (s : Sect A) : Prop :=
    shape (fields s) (K * N) (List.length (cells s)) /\
    (cells s <> [] -> 1 <= head s /\ head s + List.length (cells s) <= S n) /\
    forall i j c, i < K * N -> nth_error (cells s) j = Some c -> cell2 (fields s) i j = reshaped K c i.

  Variable maps : list (list (nat * Sect A)).
  Hypothesis Hne : maps <> [].
  Hypothesis Hkeys : forall m, In m maps -> map fst m = seq 1 n_sects.
  Hypothesis Hready : forall m k s, In m maps -> In (k, s) m -> ready s.
  Hypothesis Hcons : forall id c c', zholds maps id c -> zholds maps id c' -> c = c'.
  Hypothesis Hkeeps : keeps = true \/ n_sects <= 1.

  Definition row_ok (i : nat) (row : list (option A)) : Prop :=
    List.length row = n /\
    forall id v c, 1 <= id -> nth_error row (id - 1) = Some (Some v) -> zholds maps id c ->
      reshaped K c i = Some v.
  Definition row_done (row : list (option A)) (s : Sect A) : Prop :=
    forall j, j < List.length (cells s) -> exists v, nth_error row (head s + j - 1) = Some (Some v).

  Lemma write_data_ok z i nm row m k s : In m maps -> In (k, s) m -> i < K * N ->
    nth_error (f_fields z) i = Some (nm, row) -> row_ok i row ->
    exists data z' row', at_shift (fields s) 1 (S i) = Some data /\
      cgp_field_write_data z (S i) (head s) data = Some z' /\ n_cells z' = n_cells z /\
      List.length (f_fields z') = List.length (f_fields z) /\
      (forall i', i' <> i -> nth_error (f_fields z') i' = nth_error (f_fields z) i') /\
      nth_error (f_fields z') i = Some (nm, row') /\ row_ok i row' /\ row_done row' s /\
      forall s', row_done row s' -> row_done row' s'.
  Proof.
    intros Hm Hs Hi Hf [Rl Rv]. destruct (Hready m k s Hm Hs) as [Sh [Hb He]].
    destruct (shape_row _ _ _ i Sh Hi) as [data [Ed Ld]].
    exists data. unfold at_shift at 1. simpl. rewrite Nat.sub_0_r, Ed.
    destruct (Nat.eq_dec (List.length data) 0) as [H0|H0].
    - destruct data as [|? ?]; [|discriminate]. simpl.
      exists z, row. repeat split; auto. intros j Hj. simpl in Ld. lia.
    - assert (Hc : cells s <> []) by (intros E; rewrite E in Ld; simpl in Ld; lia).
      destruct (Hb Hc) as [Hb1 Hb2].
      destruct (write_at_nth row (head s - 1) (map Some data)) as [row' [Ew [Lw Nw]]].
      { rewrite map_length. lia. }
      rewrite map_length in Nw.
      assert (Hfl : i < List.length (f_fields z)) by (eapply nth_error_some_lt; eauto).
      assert (E : cgp_field_write_data z (S i) (head s) data
        = Some (mkFZone (n_cells z) (upd (f_fields z) i (nm, row')))).
      { unfold cgp_field_write_data. destruct data as [|d0 dt]; [simpl in H0; lia|].
        destruct (Nat.eqb_spec (head s) 0); [lia|]. unfold at_shift. simpl (1 <=? S i). cbv iota.
        replace (S i - 1) with i by lia. rewrite Hf. cbn [bind fst snd].
        rewrite Ew. cbn [bind]. rewrite set_shift_some by lia. cbn [bind Nat.sub].
        replace (i - 0) with i by lia. auto. }
      assert (Hval : forall j, j < List.length (cells s) ->
        exists v c, nth_error data j = Some v /\ nth_error (cells s) j = Some c /\ reshaped K c i = Some v /\
          nth_error row' (head s + j - 1) = Some (Some v)).
      { intros j Hj. destruct (nth_error_lt_some data j ltac:(lia)) as [v Ev].
        destruct (nth_error_lt_some (cells s) j Hj) as [c Ec].
        exists v, c. repeat split; auto.
        - rewrite <- (He i j c) by auto. unfold cell2. rewrite Ed. auto.
        - rewrite Nw. destruct (Nat.leb_spec (head s - 1) (head s + j - 1)); [|lia].
          destruct (Nat.ltb_spec (head s + j - 1) (head s - 1 + List.length data)); [|lia]. simpl.
          replace (head s + j - 1 - (head s - 1)) with j by lia.
          apply map_nth_error; auto. }
      exists (mkFZone (n_cells z) (upd (f_fields z) i (nm, row'))), row'.
      split; [auto|]. split; [exact E|]. split; [auto|].
      split; [apply upd_length|]. split; [intros i' Hi'; apply nth_error_upd_other; auto|].
      split; [apply nth_error_upd_same; auto|]. split; [|split].
      + split; [lia|]. intros id v c Hid Hv Hh. rewrite Nw in Hv.
        destruct (Nat.leb_spec (head s - 1) (id - 1)); simpl in Hv; [|eapply Rv; eauto].
        destruct (Nat.ltb_spec (id - 1) (head s - 1 + List.length data)); [|eapply Rv; eauto].
        destruct (Hval (id - head s) ltac:(lia)) as [v' [c' [V1 [V2 [V3 _]]]]].
        replace (id - 1 - (head s - 1)) with (id - head s) in Hv by lia.
        rewrite (map_nth_error Some _ _ V1) in Hv. inversion Hv; subst v'.
        rewrite (Hcons id c c'); auto. exists m, k, s. repeat split; auto. lia.
      + intros j Hj. destruct (Hval j Hj) as [v [c [_ [_ [_ H]]]]]. eauto.
      + intros s' Hd j Hj. destruct (Hd j Hj) as [v Ev]. rewrite Nw.
        destruct (Nat.leb_spec (head s - 1) (head s' + j - 1)); simpl; [|eauto].
        destruct (Nat.ltb_spec (head s' + j - 1) (head s - 1 + List.length data)); [|eauto].
        destruct (nth_error_lt_some data (head s' + j - 1 - (head s - 1)) ltac:(lia)) as [w Ew'].
        exists w. apply map_nth_error; auto.
  Qed.

  Lemma find_field_names : forall (l : list (string * list (option A))) a i,
    (forall q, q < List.length l -> exists row, nth_error l q = Some (field_name (S (a + q)), row)) ->
    find_field (field_name (S (a + i))) l = if i <? List.length l then Some (S i) else None.
  Proof.
    induction l as [|[nm row] t IH]; intros a i H; [reflexivity|].
    destruct (H 0 ltac:(simpl; lia)) as [row0 E0]. simpl in E0. inversion E0; subst nm row0. cbn [find_field].
    rewrite Nat.add_0_r. destruct i as [|i].
    - rewrite Nat.add_0_r, String.eqb_refl. reflexivity.
    - destruct (String.eqb_spec (field_name (S a)) (field_name (S (a + S i)))) as [He|_].
      { apply field_name_inj in He. lia. }
      replace (a + S i) with (S a + i) by lia. rewrite (IH (S a) i).
      + cbn [List.length]. change (S i <? S (List.length t)) with (i <? List.length t).
        destruct (i <? List.length t); reflexivity.
      + intros q Hq. destruct (H (S q) ltac:(simpl; lia)) as [r Er]. exists r. simpl in Er.
        rewrite Er. do 3 f_equal. lia.
  Qed.

  Definition complete (i : nat) (z : FZone A) : Prop :=
    exists row, nth_error (f_fields z) i = Some (field_name (S i), row) /\ row_ok i row /\
      forall m k s, In m maps -> In (k, s) m -> row_done row s.

  Definition before (i : nat) (z : FZone A) : Prop := n_cells z = n /\ forall i', i' < i -> complete i' z.

  (** while field [i] is written, sections below [i_sect] are done *)
  Definition during (i i_sect : nat) (z : FZone A) : Prop :=
    before i z /\
    if i_sect =? 1 then List.length (f_fields z) = i
    else List.length (f_fields z) = S i /\
      exists row, nth_error (f_fields z) i = Some (field_name (S i), row) /\ row_ok i row /\
        forall m k s, In m maps -> In (k, s) m -> k < i_sect -> row_done row s.

  Lemma names_before i z : (forall i', i' < i -> complete i' z) ->
    forall q, q < i -> exists row, nth_error (f_fields z) q = Some (field_name (S (0 + q)), row).
  Proof. intros H q Hq. destruct (H q Hq) as [row [E _]]. eauto. Qed.

  Lemma before_ext i z z' : n_cells z' = n_cells z ->
    (forall q, q < i -> nth_error (f_fields z') q = nth_error (f_fields z) q) -> before i z -> before i z'.
  Proof.
    intros Hn He [H1 H2]. split; [congruence|]. intros i' Hi'. destruct (H2 i' Hi') as [row [E R]].
    exists row. rewrite He by auto. auto.
  Qed.

  (** declaring field [i] for section [i_sect] *)
  Lemma declare_ok i i_sect z : 1 <= i_sect <= n_sects -> during i i_sect z ->
    exists z' row, cgp_field_write keeps z (field_name (S i)) = (z', S i) /\
      before i z' /\ List.length (f_fields z') = S i /\
      nth_error (f_fields z') i = Some (field_name (S i), row) /\ row_ok i row /\
      forall m k s, In m maps -> In (k, s) m -> k < i_sect -> row_done row s.
  Proof.
    intros Hi [Hb Hd]. unfold cgp_field_write.
    destruct (Nat.eqb_spec i_sect 1) as [->|H1].
    - pose proof (find_field_names (f_fields z) 0 i) as F. cbn [Nat.add] in F. rewrite F.
      2:{ rewrite Hd. apply names_before. apply Hb. }
      rewrite Hd. destruct (Nat.ltb_spec i i); [lia|].
      eexists _, (repeat None (n_cells z)). split; [reflexivity|].
      cbn [f_fields n_cells]. split; [|split; [|split; [|split]]].
      + refine (before_ext i z _ _ _ Hb); [reflexivity|].
        intros q Hq. cbn [f_fields]. rewrite nth_error_app1 by lia. auto.
      + rewrite app_length. simpl. lia.
      + rewrite nth_error_app2 by lia. rewrite Hd, Nat.sub_diag. reflexivity.
      + destruct Hb as [Hb _]. split; [rewrite repeat_length; auto|].
        intros id v c Hid Hv. exfalso. apply nth_error_In, repeat_spec in Hv. discriminate.
      + intros m k s Hm Hs Hk. exfalso. apply (in_map fst) in Hs. rewrite (Hkeys m Hm) in Hs.
        apply in_seq in Hs. simpl in Hs. lia.
    - destruct Hd as [Hl [row [E [Hr Hdone]]]].
      destruct Hkeeps as [Hkp|Hle]; [|lia]. rewrite Hkp.
      pose proof (find_field_names (f_fields z) 0 i) as F. cbn [Nat.add] in F. rewrite F.
      2:{ rewrite Hl. intros q Hq. destruct (Nat.eq_dec q i) as [->|]; [eauto|].
          apply (names_before i z); [apply Hb|lia]. }
      rewrite Hl. destruct (Nat.ltb_spec i (S i)); [|lia].
      exists z, row. split; [reflexivity|]. repeat split; auto; apply Hb || apply Hr || auto.
  Qed.

  Lemma write_section_ok i i_sect z : i < K * N -> 1 <= i_sect < 1 + n_sects -> during i i_sect z ->
    exists z', write_section keeps maps (S i) z i_sect = Some z' /\ during i (i_sect + 1) z'.
  Proof.
    intros Hi Hs Hd. unfold write_section.
    destruct (mapM_some (find_key i_sect) maps) as [ss [Ess Hss]].
    { intros m Hm. assert (Hin : In i_sect (map fst m)) by (rewrite (Hkeys m Hm); apply in_seq; lia).
      apply in_map_iff in Hin. destruct Hin as [[k s] [Ek Hk]]. simpl in Ek. subst k.
      exists s. apply find_key_some; auto. rewrite (Hkeys m Hm). apply seq_NoDup. }
    rewrite Ess. cbn [bind].
    destruct (declare_ok i i_sect z ltac:(lia) Hd) as [z1 [row1 [E1 [B1 [L1 [F1 [R1 D1]]]]]]].
    rewrite E1. rewrite Nat.eqb_refl.
    match goal with |- context [foldM ?g _ _] => pose (step := g); change g with step end.
    destruct (foldM_list_inv step
      (fun done z => before i z /\ List.length (f_fields z) = S i /\
         exists row, nth_error (f_fields z) i = Some (field_name (S i), row) /\ row_ok i row /\
           (forall m k s, In m maps -> In (k, s) m -> k < i_sect -> row_done row s) /\
           (forall s, In s done -> row_done row s)) ss [] z1) as [z' [done' [Ef [[B2 [L2 [row2 [F2 [R2 [D2 G2]]]]]] Hin]]]].
    - split; auto. split; auto. exists row1. split; auto. split; auto. split; auto. intros s [].
    - intros done s z2 Hsin [B2 [L2 [row2 [F2 [R2 [D2 G2]]]]]].
      apply Hss in Hsin. destruct Hsin as [m [Hm Em]]. apply find_key_in in Em.
      destruct (write_data_ok z2 i _ row2 m i_sect s Hm Em Hi F2 R2)
        as [data [z3 [row3 [Ea [Ew [Hn [Hl [Ho [F3 [R3 [D3 P3]]]]]]]]]]].
      exists z3. split. { unfold step. rewrite Ea. exact Ew. }
      split. { refine (before_ext i z2 z3 Hn _ B2). intros q Hq. apply Ho. lia. }
      split; [congruence|]. exists row3. split; auto. split; auto. split.
      + intros m' k' s' H1 H2 H3. apply P3. eauto.
      + intros s' [->|H']; auto.
    - exists z'. split; [exact Ef|]. split; auto.
      destruct (Nat.eqb_spec (i_sect + 1) 1); [lia|]. split; auto. exists row2. split; auto. split; auto.
      intros m k s Hm Hs' Hk. destruct (Nat.eq_dec k i_sect) as [->|Hk']; [|eapply D2; eauto; lia].
      apply G2. apply Hin. left. apply Hss. exists m. split; auto. apply find_key_some; auto.
      rewrite (Hkeys m Hm). apply seq_NoDup.
  Qed.

  Lemma write_zone_ok : exists fz, write_zone K N keeps maps n = Some fz /\
    (0 < n_sects -> List.length (f_fields fz) = K * N /\
      forall i, i < K * N -> exists row, nth_error (f_fields fz) i = Some (field_name (S i), row) /\
        List.length row = n /\
        forall id c, zholds maps id c -> 1 <= id /\
          exists v, reshaped K c i = Some v /\ nth_error row (id - 1) = Some (Some v)).
  Proof.
    unfold write_zone. destruct maps as [|m0 mt] eqn:Emaps; [congruence|]. rewrite <- Emaps in *.
    assert (Hm0 : In m0 maps) by (rewrite Emaps; left; auto).
    assert (Hlen : forall m, In m maps -> List.length m = n_sects).
    { intros m Hm. rewrite <- (map_length fst), (Hkeys m Hm), seq_length. auto. }
    replace (forallb (fun m' : list (nat * Sect A) => List.length m' =? List.length m0) maps) with true.
    2:{ symmetry. apply forallb_forall. intros m Hm. apply Nat.eqb_eq. rewrite !Hlen; auto. }
    rewrite (Hlen m0 Hm0). unfold kFields.
    match goal with |- context [foldM ?g _ _] => pose (step := g); change g with step end.
    destruct (foldM_seq_inv step
      (fun i_field z => n_cells z = n /\ (0 < n_sects ->
         List.length (f_fields z) = i_field - 1 /\ forall i', i' < i_field - 1 -> complete i' z))
      (K * N) 1 (mkFZone n [])) as [fz [E [H1 H2]]].
    - split; auto. intros _. split; auto. intros; simpl in *; lia.
    - intros i_field z Hi [G1 G2]. unfold step.
      destruct (Nat.eq_dec n_sects 0) as [H0|H0].
      { rewrite H0. simpl. exists z. split; auto. split; auto. intros; lia. }
      destruct (G2 ltac:(lia)) as [G3 G4].
      destruct (foldM_seq_inv (write_section keeps maps i_field) (during (i_field - 1)) n_sects 1 z)
        as [z' [E' [D1 D2]]].
      + split; [split; auto|]. rewrite Nat.eqb_refl. auto.
      + intros i_sect z' Hs Hd. pose proof (write_section_ok (i_field - 1) i_sect z' ltac:(lia) Hs Hd) as P.
        replace (S (i_field - 1)) with i_field in P by lia. exact P.
      + exists z'. split; [exact E'|]. destruct D1 as [D1 D3]. split; auto. intros _.
        destruct (Nat.eqb_spec (1 + n_sects) 1); [lia|]. destruct D2 as [L2 [row [F2 [R2 D2]]]].
        split; [lia|]. intros i' Hi'. destruct (Nat.eq_dec i' (i_field - 1)) as [->|].
        * exists row. split; auto. split; auto. intros m k s Hm Hs. apply (D2 m k s); auto.
          apply (in_map fst) in Hs. rewrite (Hkeys m Hm) in Hs. apply in_seq in Hs. simpl in Hs. lia.
        * apply D3. lia.
    - exists fz. split; [exact E|]. intros H0. destruct (H2 H0) as [L C]. split; [lia|].
      intros i Hi. destruct (C i ltac:(lia)) as [row [F [[Rl Rv] D]]].
      exists row. split; auto. split; auto. intros id c Hh. pose proof Hh as [m [k [s [Hm [Hs [Hid Ec]]]]]].
      pose proof (nth_error_some_lt _ _ _ Ec) as Hlt.
      destruct (Hready m k s Hm Hs) as [_ [Hb _]].
      destruct Hb as [Hb1 _]. { intros E0. rewrite E0 in Hlt. simpl in Hlt. lia. }
      split; [lia|]. destruct (D m k s Hm Hs (id - head s) Hlt) as [v Ev].
      replace (head s + (id - head s) - 1) with (id - 1) in Ev by lia.
      exists v. split; auto. apply (Rv id v c); auto. lia.
  Qed.

  (** ** Reading *)

  (** [s'] is [s] with the arrays of fields below [top] read from the file *)
  Definition read_below (top : nat) (s s' : Sect A) : Prop :=
    head s' = head s /\ cells s' = cells s /\ shape (fields s') (K * N) (List.length (cells s)) /\
    forall i j c, i < top -> i < K * N -> j < List.length (cells s) -> zholds maps (head s + j) c ->
      cell2 (fields s') i j = reshaped K c i.

  Definition read_one (z : FZone A) (i_field : nat) (s : Sect A) : option (Sect A) :=
    do old <- at_shift (fields s) 1 i_field;
    do row <- cgp_field_read_data z i_field (head s) old;
    do fs <- set_shift (fields s) 1 i_field row;
    Some (mkSect (head s) (cells s) fs).

  Lemma read_one_ok fz s s' i :
    write_zone K N keeps maps n = Some fz -> 0 < n_sects -> i < K * N ->
    (cells s <> [] -> 1 <= head s /\ head s + List.length (cells s) <= S n) ->
    (forall j, j < List.length (cells s) -> exists c, zholds maps (head s + j) c) ->
    read_below i s s' ->
    exists s'', read_one fz (S i) s' = Some s'' /\ read_below (i + 1) s s''.
  Proof.
    intros Hw Hn Hi Hb Hcov [H1 [H2 [Sh He]]].
    destruct write_zone_ok as [fz' [E Hf]]. rewrite Hw in E. inversion E; subst fz'. clear E.
    destruct (Hf Hn) as [Lf Hf']. destruct (Hf' i Hi) as [row [Er [Lr Hr]]].
    destruct (shape_row _ _ _ i Sh Hi) as [old [Eo Lo]].
    unfold read_one. unfold at_shift at 1. simpl (1 <=? S i). cbv iota.
    replace (S i - 1) with i by lia. rewrite Eo. cbn [bind].
    assert (Hdata : exists data, cgp_field_read_data fz (S i) (head s') old = Some data /\
      List.length data = List.length (cells s) /\
      forall j c, j < List.length (cells s) -> zholds maps (head s + j) c -> nth_error data j = reshaped K c i).
    { unfold cgp_field_read_data. unfold at_shift. simpl (1 <=? S i). cbv iota.
      replace (S i - 1) with i by lia. rewrite Er. cbn [bind snd].
      destruct old as [|o0 ot] eqn:Eold.
      - exists []. split; auto. split; auto. intros j c Hj. simpl in Lo. lia.
      - assert (Hc : cells s <> []) by (intros E0; rewrite E0 in Lo; discriminate).
        destruct (Hb Hc) as [Hb1 Hb2]. rewrite H1. destruct (Nat.eqb_spec (head s) 0); [lia|].
        rewrite Lo. rewrite slice_some by lia. cbn [bind].
        set (sub := firstn (List.length (cells s)) (skipn (head s - 1) row)).
        assert (Hsub : forall j, j < List.length (cells s) ->
          nth_error sub j = nth_error row (head s + j - 1)).
        { intros j Hj. unfold sub. rewrite nth_firstn_skipn by auto. f_equal. lia. }
        assert (Ls : List.length sub = List.length (cells s)).
        { unfold sub. rewrite firstn_length, skipn_length. lia. }
        destruct (mapM_some (fun x : option A => x) sub) as [data [Ed _]].
        { intros x Hx. apply In_nth_error in Hx. destruct Hx as [j Ej].
          pose proof (nth_error_some_lt _ _ _ Ej) as Hj. rewrite Ls in Hj.
          destruct (Hcov j Hj) as [c Hc']. destruct (Hr _ c Hc') as [_ [v [_ Ev]]].
          rewrite Hsub in Ej by auto. rewrite Ej in Ev. inversion Ev; subst. eauto. }
        exists data. split; [exact Ed|]. split; [rewrite (mapM_length _ _ _ Ed); auto|].
        intros j c Hj Hh. destruct (Hr _ c Hh) as [_ [v [Ev1 Ev2]]].
        rewrite <- Hsub in Ev2 by auto.
        destruct (mapM_nth _ _ _ _ _ Ed Ev2) as [y [Ey1 Ey2]]. inversion Ey1; subst. congruence. }
    destruct Hdata as [data [Ed [Ld Hd]]]. rewrite Ed. cbn [bind].
    rewrite set_shift_some by (destruct Sh; lia). cbn [bind]. eexists. split; [reflexivity|].
    replace (S i - 1) with i by lia.
    split; [exact H1|]. split; [exact H2|]. cbn [fields]. split; [apply shape_upd; auto|].
    intros i' j c Hi' Hi'' Hj Hh. unfold cell2. destruct (Nat.eq_dec i' i) as [->|Hne'].
    - rewrite nth_error_upd_same by (destruct Sh; lia). cbn [bind]. apply Hd; auto.
    - rewrite nth_error_upd_other by auto. apply (He i' j c); auto. lia.
  Qed.

  Lemma read_section_one z i_field m k :
    read_section z i_field m k =
    do s <- find_key k m; do s' <- read_one z i_field s; Some (assign k s' m).
  Proof.
    unfold read_section, read_one. destruct (find_key k m) as [s|]; auto. cbn [bind].
    destruct (at_shift (fields s) 1 i_field); auto. cbn [bind].
    destruct (cgp_field_read_data z i_field (head s) l); auto. cbn [bind].
    destruct (set_shift (fields s) 1 i_field l0); auto.
  Qed.

  Lemma Forall2_trans_in {X} (P Q S : X -> X -> Prop) l1 l2 : Forall2 P l1 l2 ->
    forall l3, Forall2 Q l2 l3 -> (forall a b c, In a l1 -> P a b -> Q b c -> S a c) -> Forall2 S l1 l3.
  Proof.
    induction 1 as [|a b t1 t2 H1 _ IH]; intros l3 H2 H; inversion H2; subst; constructor.
    - eapply H; eauto. left; auto.
    - apply IH; auto. intros; eapply H; eauto. right; auto.
  Qed.

  Lemma read_zone_ok fz m : write_zone K N keeps maps n = Some fz ->
    map fst m = seq 1 n_sects ->
    (forall k s, In (k, s) m -> section_ok K N n s) ->
    (forall k s j, In (k, s) m -> j < List.length (cells s) -> exists c, zholds maps (head s + j) c) ->
    exists m', read_zone K N fz m = Some m' /\
      Forall2 (fun x x' => fst x = fst x' /\ read_below (K * N) (snd x) (snd x')) m m'.
  Proof.
    intros Hw Hk Hok Hcov. unfold read_zone, kFields.
    match goal with |- context [foldM ?g _ _] => pose (step := g); change g with step end.
    destruct (foldM_seq_inv step
      (fun i_field mc => map fst mc = seq 1 n_sects /\
         Forall2 (fun x x' => fst x = fst x' /\ read_below (i_field - 1) (snd x) (snd x')) m mc)
      (K * N) 1 m) as [m' [E [H1 H2]]].
    - split; auto. clear Hk Hcov. induction m as [|[k s] t IH]; constructor.
      + split; auto. simpl. destruct (Hok k s (or_introl eq_refl)) as [Hc [Hl [Hr _]]].
        split; auto. split; auto. split; [split; auto|]. intros; lia.
      + apply IH. intros k' s' H'. eapply Hok. right; eauto.
    - intros i_field mc Hi [G1 G2]. unfold step.
      rewrite (foldM_ext _ (fun m0 k => do s <- find_key k m0; do s' <- read_one fz i_field s;
        Some (assign k s' m0))) by (intros; apply read_section_one).
      assert (Hpair : forall k s', In (k, s') mc -> exists s, In (k, s) m /\ read_below (i_field - 1) s s').
      { clear - G2. induction G2 as [|x x' t t' [Hf Hr] _ IH]; intros k s' Hin; [destruct Hin|].
        destruct Hin as [->|Hin].
        - exists (snd x). simpl in *. split; auto. left. destruct x; simpl in *; congruence.
        - destruct (IH k s' Hin) as [s [Hs Hrb]]. exists s. split; auto. right; auto. }
      destruct (each_section_ok (read_one fz i_field)
        (fun b c => forall k s, In (k, s) m -> read_below (i_field - 1) s b -> read_below i_field s c)
        mc n_sects G1) as [m2 [E2 F2]].
      + intros k s' Hin. destruct (Hpair k s' Hin) as [s [Hs Hrb]].
        assert (Hn0 : 0 < n_sects).
        { apply (in_map fst) in Hs. rewrite Hk in Hs. apply in_seq in Hs. lia. }
        destruct (Hok k s Hs) as [_ [_ [_ Hb]]].
        destruct (read_one_ok fz s s' (i_field - 1) Hw Hn0 ltac:(lia) Hb (fun j => Hcov k s j Hs) Hrb)
          as [s'' [Es Hrb']].
        replace (S (i_field - 1)) with i_field in Es by lia.
        exists s''. split; auto. intros k0 s0 Hs0 Hrb0.
        destruct (Hok k0 s0 Hs0) as [_ [_ [_ Hb0]]].
        destruct (read_one_ok fz s0 s' (i_field - 1) Hw Hn0 ltac:(lia) Hb0 (fun j => Hcov k0 s0 j Hs0) Hrb0)
          as [s3 [Es3 Hrb3]].
        replace (S (i_field - 1)) with i_field in Es3 by lia.
        rewrite Es in Es3. inversion Es3; subst s3.
        replace (i_field - 1 + 1) with i_field in Hrb3 by lia. auto.
      + exists m2. split; [exact E2|]. split.
        * rewrite <- G1. clear - F2. induction F2 as [|x x' t t' [Hf _] _ IH]; simpl; congruence.
        * replace (i_field + 1 - 1) with i_field by lia.
          eapply Forall2_trans_in; [exact G2|exact F2|].
          intros [k s] b c Hin [P1 P2] [Q1 Q2]. split; [congruence|]. eapply Q2; eauto.
    - exists m'. split; [exact E|]. replace (1 + K * N - 1) with (K * N) in H2 by lia. auto.
  Qed.
End Write.
