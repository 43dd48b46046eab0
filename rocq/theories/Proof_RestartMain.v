(** A solution that is written by some processes and read by others is the same solution. *)
From Coq Require Import List Arith Bool Lia String.
From Verif Require Import Arrays Model_Restart Spec_Restart Proof_Restart Proof_RestartFile.
Import ListNotations.

Lemma mapM_Forall2 {X Y} (f : X -> option Y) (R : X -> Y -> Prop) l :
  (forall x, In x l -> exists y, f x = Some y /\ R x y) -> exists r, mapM f l = Some r /\ Forall2 R l r.
Proof.
  induction l as [|x t IH]; intros H; simpl; [exists []; auto|].
  destruct (H x (or_introl eq_refl)) as [y [E Hy]]. rewrite E.
  destruct IH as [r [Er Hr]]. { intros x' Hx. apply H. right; auto. }
  rewrite Er. eexists. split; [reflexivity|]. constructor; auto.
Qed.

Lemma Forall2_nth {X Y} (R : X -> Y -> Prop) l l' : Forall2 R l l' -> forall i x, nth_error l i = Some x ->
  exists y, nth_error l' i = Some y /\ R x y.
Proof.
  induction 1 as [|x y t t' H _ IH]; intros [|i] x' E; simpl in *; try discriminate.
  - inversion E; subst. eauto.
  - apply IH; auto.
Qed.
Lemma Forall2_nth' {X Y} (R : X -> Y -> Prop) l l' : Forall2 R l l' -> forall i y, nth_error l' i = Some y ->
  exists x, nth_error l i = Some x /\ R x y.
Proof.
  induction 1 as [|x y t t' H _ IH]; intros [|i] x' E; simpl in *; try discriminate.
  - inversion E; subst. eauto.
  - apply IH; auto.
Qed.
Lemma Forall2_in {X Y} (R : X -> Y -> Prop) l l' : Forall2 R l l' -> forall x, In x l ->
  exists y, In y l' /\ R x y.
Proof.
  intros H x Hx. apply In_nth_error in Hx. destruct Hx as [i E].
  destruct (Forall2_nth _ _ _ H i x E) as [y [Ey Hy]]. exists y. split; auto. eapply nth_error_In; eauto.
Qed.
Lemma Forall2_in' {X Y} (R : X -> Y -> Prop) l l' : Forall2 R l l' -> forall y, In y l' ->
  exists x, In x l /\ R x y.
Proof.
  intros H x Hx. apply In_nth_error in Hx. destruct Hx as [i E].
  destruct (Forall2_nth' _ _ _ H i x E) as [y [Ey Hy]]. exists y. split; auto. eapply nth_error_In; eauto.
Qed.

Lemma Forall2_join {X Y Z} (P : X -> Y -> Prop) (Q : X -> Z -> Prop) (S : Y -> Z -> Prop) l l1 : Forall2 P l l1 ->
  forall l2, Forall2 Q l l2 -> (forall a b c, P a b -> Q a c -> S b c) -> Forall2 S l1 l2.
Proof.
  induction 1 as [|a b t t1 H _ IH]; intros l2 H2 HS; inversion H2; subst; constructor; eauto.
Qed.

Lemma same_part_join {A} (p p1 p2 : Part A) : same_part p p1 -> same_part p p2 -> same_part p1 p2.
Proof.
  intros H1 H2. eapply Forall2_join; [exact H1|exact H2|].
  intros a b c Ha Hb. eapply Forall2_join; [exact Ha|exact Hb|].
  intros x y z [A1 [A2 A3]] [B1 [B2 B3]]. split; [congruence|split; congruence].
Qed.

Section Main.
  Context {A : Type} (K N : nat) (keeps : bool) (zones : list (nat * nat)).
  Variables writers readers : list (Part A).
  Hypothesis Hw : parts_ok K N zones writers.
  Hypothesis Hc : consistent writers.
  Hypothesis Hkeeps : keeps = true \/ Forall (fun z => snd z <= 1) zones.

  Definition rel_part (R : Sect A -> Sect A -> Prop) : Part A -> Part A -> Prop :=
    Forall2 (Forall2 (fun x x' => fst x = fst x' /\ R (snd x) (snd x'))).

  Lemma zone_of p z m : In p writers -> nth_error p z = Some m ->
    exists n n_sects, nth_error zones z = Some (n, n_sects) /\
      map fst m = seq 1 n_sects /\ forall k s, In (k, s) m -> section_ok K N n s.
  Proof.
    intros Hp Hm. destruct Hw as [_ H]. destruct (H p Hp) as [L Hz].
    destruct (nth_error_lt_some zones z) as [[n ns] E].
    { rewrite <- L. eapply nth_error_some_lt; eauto. }
    exists n, ns. split; auto. destruct (Hz z m n ns Hm E) as [H1 H2]. split; auto.
    intros k s Hs. rewrite Forall_forall in H2. apply (H2 (k, s)); auto.
  Qed.

  Lemma gather_ok : exists g, mapM (GatherSolutions K N) writers = Some g /\
    Forall2 (rel_part (gathered K N)) writers g.
  Proof.
    apply mapM_Forall2. intros p Hp. unfold GatherSolutions, rel_part. apply mapM_Forall2.
    intros m Hm. apply In_nth_error in Hm. destruct Hm as [z Ez].
    destruct (zone_of p z m Hp Ez) as [n [ns [_ [Hk Hs]]]].
    apply (each_section_ok _ _ m ns Hk). intros k s Hin.
    apply (GatherFields_ok K N s n). eauto.
  Qed.

  Lemma keys_rel R m m' : Forall2 (fun x x' : nat * Sect A => fst x = fst x' /\ R (snd x) (snd x')) m m' ->
    map fst m' = map fst m.
  Proof. induction 1 as [|x x' t t' [H _] _ IH]; simpl; congruence. Qed.

  (** the maps of zone [z] in the processes after gathering *)
  Lemma maps_of g z n ns : Forall2 (rel_part (gathered K N)) writers g ->
    nth_error zones z = Some (n, ns) ->
    exists maps, mapM (fun p : Part A => nth_error p z) g = Some maps /\ maps <> [] /\
      (forall m, In m maps -> map fst m = seq 1 ns) /\
      (forall m k s, In m maps -> In (k, s) m -> ready K N n s) /\
      (forall id c, zholds maps id c <-> holds writers z id c).
  Proof.
    intros Hg Hz.
    assert (Hall : forall q, In q g -> exists m p m0, nth_error q z = Some m /\ In p writers /\
      nth_error p z = Some m0 /\
      Forall2 (fun x x' => fst x = fst x' /\ gathered K N (snd x) (snd x')) m0 m).
    { intros q Hq. destruct (Forall2_in' _ _ _ Hg q Hq) as [p [Hp Hr]].
      destruct Hw as [_ H]. destruct (H p Hp) as [L _].
      destruct (nth_error_lt_some p z) as [m0 E0]. { rewrite L. eapply nth_error_some_lt; eauto. }
      destruct (Forall2_nth _ _ _ Hr z m0 E0) as [m [E1 H1]]. exists m, p, m0. auto. }
    destruct (mapM_some (fun p : Part A => nth_error p z) g) as [maps [Em Hin]].
    { intros q Hq. destruct (Hall q Hq) as [m [_ [_ [E _]]]]. eauto. }
    exists maps. split; auto. split; [|split; [|split]].
    - intros E0. subst maps. destruct Hw as [Hne _]. apply Hne.
      pose proof (mapM_length _ _ _ Em) as L. simpl in L. destruct g; [|discriminate].
      inversion Hg; auto.
    - intros m Hm. apply Hin in Hm. destruct Hm as [q [Hq E]].
      destruct (Hall q Hq) as [m' [p [m0 [E' [Hp [E0 Hr]]]]]]. rewrite E in E'. inversion E'; subst m'.
      rewrite (keys_rel _ _ _ Hr). destruct (zone_of p z m0 Hp E0) as [n' [ns' [Ez [Hk _]]]].
      rewrite Hz in Ez. inversion Ez; subst. auto.
    - intros m k s Hm Hs. apply Hin in Hm. destruct Hm as [q [Hq E]].
      destruct (Hall q Hq) as [m' [p [m0 [E' [Hp [E0 Hr]]]]]]. rewrite E in E'. inversion E'; subst m'.
      destruct (zone_of p z m0 Hp E0) as [n' [ns' [Ez [_ Hok]]]]. rewrite Hz in Ez. inversion Ez; subst n' ns'.
      destruct (Forall2_in' _ _ _ Hr (k, s) Hs) as [[k0 s0] [Hin0 [_ [G1 [G2 [G3 G4]]]]]]. cbn [snd] in *.
      destruct (Hok k0 s0 Hin0) as [_ [_ [_ Hb]]]. unfold ready. rewrite G1, G2. auto.
    - intros id c. split.
      + intros [m [k [s [Hm [Hs [Hid Ec]]]]]]. apply Hin in Hm. destruct Hm as [q [Hq E]].
        destruct (Hall q Hq) as [m' [p [m0 [E' [Hp [E0 Hr]]]]]]. rewrite E in E'. inversion E'; subst m'.
        destruct (Forall2_in' _ _ _ Hr (k, s) Hs) as [[k0 s0] [Hin0 [_ [G1 [G2 _]]]]]. cbn [snd] in *.
        exists p, m0, k0, s0. rewrite G1, G2 in *. auto.
      + intros [p [m0 [k [s [Hp [E0 [Hs [Hid Ec]]]]]]]].
        destruct (Forall2_in _ _ _ Hg p Hp) as [q [Hq Hr]].
        destruct (Forall2_nth _ _ _ Hr z m0 E0) as [m [Em' Hr']].
        destruct (Forall2_in _ _ _ Hr' (k, s) Hs) as [[k1 s1] [Hs1 [_ [G1 [G2 _]]]]]. cbn [snd] in *.
        exists m, k1, s1. rewrite G1, G2. split; [|auto]. apply Hin. eauto.
  Qed.

  Lemma keeps_zone z n ns : nth_error zones z = Some (n, ns) -> keeps = true \/ ns <= 1.
  Proof.
    intros E. destruct Hkeeps as [H|H]; [auto|right]. rewrite Forall_forall in H.
    apply (H (n, ns)). eapply nth_error_In; eauto.
  Qed.

  (** zone [z] of the file *)
  Definition zone_file (z : nat) (fz : FZone A) : Prop :=
    forall n ns, nth_error zones z = Some (n, ns) ->
    exists maps, maps <> [] /\ (forall m, In m maps -> map fst m = seq 1 ns) /\
      (forall m k s, In m maps -> In (k, s) m -> ready K N n s) /\
      (forall id c, zholds maps id c <-> holds writers z id c) /\
      write_zone K N keeps maps n = Some fz.

  Lemma holds_cons maps z : (forall id c, zholds maps id c <-> holds writers z id c) ->
    forall id c c', zholds maps id c -> zholds maps id c' -> c = c'.
  Proof. intros H id c c' H1 H2. apply H in H1. apply H in H2. eapply Hc; eauto. Qed.

  Lemma write_ok g : Forall2 (rel_part (gathered K N)) writers g ->
    exists file, WriteSolutions K N keeps (map fst zones) g = Some file /\
      List.length file = List.length zones /\
      forall z fz, nth_error file z = Some fz -> zone_file z fz.
  Proof.
    intros Hg. unfold WriteSolutions.
    match goal with |- context [mapM ?f ?l] => pose (h := f); pose (ll := l); change f with h; change l with ll end.
    assert (Hnth : forall z, nth_error ll z = option_map (fun x => (z, fst x)) (nth_error zones z)).
    { intros z. unfold ll. rewrite map_length.
      assert (G : forall (l : list (nat * nat)) a q,
        nth_error (combine (seq a (List.length l)) (map fst l)) q = option_map (fun x => (a + q, fst x)) (nth_error l q)).
      { induction l as [|x t IH]; intros a [|q]; simpl; auto.
        - rewrite Nat.add_0_r. auto.
        - rewrite IH. destruct (nth_error t q); simpl; auto. do 3 f_equal. lia. }
      rewrite (G zones 0 z). auto. }
    assert (Hll : List.length ll = List.length zones).
    { unfold ll. rewrite combine_length, seq_length, map_length. lia. }
    destruct (mapM_Forall2 h (fun x fz => zone_file (fst x) fz) ll) as [file [E F]].
    - intros [z n] Hx. apply In_nth_error in Hx. destruct Hx as [q Eq]. rewrite Hnth in Eq.
      destruct (nth_error zones q) as [[n' ns]|] eqn:Ez; [|discriminate]. simpl in Eq. inversion Eq; subst q n'.
      destruct (maps_of g z n ns Hg Ez) as [maps [Em [M1 [M2 [M3 M4]]]]].
      destruct (write_zone_ok K N keeps n ns maps M1 M2 M3 (holds_cons maps z M4) (keeps_zone z n ns Ez))
        as [fz [Ef _]].
      exists fz. split.
      + unfold h. cbn [fst snd]. rewrite Em. exact Ef.
      + intros n1 ns1 Ez1. cbn [fst] in Ez1. rewrite Ez in Ez1. inversion Ez1; subst n1 ns1.
        exists maps. auto 10.
    - exists file. split; [exact E|]. split; [rewrite (mapM_length _ _ _ E); auto|].
      intros z fz Ez. destruct (Forall2_nth' _ _ _ F z fz Ez) as [[z' n] [Ex Hx]].
      rewrite Hnth in Ex. destruct (nth_error zones z) as [[n' ns]|] eqn:Ezz; [|discriminate].
      simpl in Ex. inversion Ex; subst. auto.
  Qed.

  (** ** Reading *)
  Hypothesis Hr : parts_ok K N zones readers.
  Hypothesis Hcov : forall z id c', holds readers z id c' -> exists c, holds writers z id c.

  (** [s'] is [s] with the solution of the writers *)
  Definition restored_at (z : nat) (s s' : Sect A) : Prop :=
    (same_section s s' /\ shape (fields s') (K * N) (List.length (cells s))) /\
    forall j c, nth_error (cells s') j = Some c -> holds writers z (head s + j) c.

  (** the numbers and the sizes of the arrays *)
  Definition kept_part : Part A -> Part A -> Prop :=
    rel_part (fun s s' => same_section s s' /\ shape (fields s') (K * N) (List.length (cells s))).
  Lemma kept_same p p2 : kept_part p p2 -> same_part p p2.
  Proof.
    intros H. eapply Forall2_impl; [|exact H]. intros m m2 H1. eapply Forall2_impl; [|exact H1].
    intros x x' [E [H2 _]]. auto.
  Qed.

  Lemma restore_zone p z m fz : In p readers -> nth_error p z = Some m -> zone_file z fz ->
    exists m1 m2, read_zone K N fz m = Some m1 /\ each_section (ScatterFields K N) m1 = Some m2 /\
      Forall2 (fun x x' => fst x = fst x' /\ restored_at z (snd x) (snd x')) m m2.
  Proof.
    intros Hp Em Hz. destruct Hr as [_ H]. destruct (H p Hp) as [L Hm].
    destruct (nth_error_lt_some zones z) as [[n ns] Ez]. { rewrite <- L. eapply nth_error_some_lt; eauto. }
    destruct (Hm z m n ns Em Ez) as [Hk Hs]. rewrite Forall_forall in Hs.
    destruct (Hz n ns Ez) as [maps [M1 [M2 [M3 [M4 Ew]]]]].
    assert (Hok : forall k s, In (k, s) m -> section_ok K N n s) by (intros k s Hin; apply (Hs (k, s)); auto).
    assert (Hcv : forall k s j, In (k, s) m -> j < List.length (cells s) ->
      exists c, holds writers z (head s + j) c).
    { intros k s j Hin Hj. destruct (nth_error_lt_some (cells s) j Hj) as [c' Ec].
      apply (Hcov z (head s + j) c'). exists p, m, k, s. repeat split; auto; [lia|].
      replace (head s + j - head s) with j by lia. auto. }
    destruct (read_zone_ok K N keeps n ns maps M1 M2 M3 (holds_cons maps z M4) (keeps_zone z n ns Ez) fz m Ew Hk Hok)
      as [m1 [E1 F1]].
    { intros k s j Hin Hj. destruct (Hcv k s j Hin Hj) as [c Hh]. exists c. apply M4; auto. }
    assert (Hpair : forall k s1, In (k, s1) m1 -> exists s, In (k, s) m /\ read_below K N maps (K * N) s s1).
    { intros k s1 Hin. destruct (Forall2_in' _ _ _ F1 (k, s1) Hin) as [[k0 s0] [Hin0 [Hf Hb]]].
      cbn [fst snd] in *. subst k0. eauto. }
    destruct (each_section_ok (ScatterFields K N) (scattered K N) m1 ns) as [m2 [E2 F2]].
    - rewrite (keys_rel _ _ _ F1). auto.
    - intros k s1 Hin. destruct (Hpair k s1 Hin) as [s [Hin0 [R1 [R2 [R3 R4]]]]].
      apply ScatterFields_ok; rewrite R2; auto. apply (Hok k s); auto.
    - exists m1, m2. split; auto. split; auto. eapply Forall2_trans_in; [exact F1|exact F2|].
      intros [k s] [k1 s1] [k2 s2] Hin [P1 [R1 [R2 [R3 R4]]]] [P2 [S1 [S2 [S3 S4]]]]. cbn [fst snd] in *.
      split; [congruence|]. split; [split; [split; congruence|rewrite S2; exact R3]|].
      intros j c Ec. destruct (S4 j c Ec) as [C1 C2].
      assert (Hj : j < List.length (cells s)).
      { apply nth_error_some_lt in Ec. rewrite S3, R2 in Ec. auto. }
      destruct (Hcv k s j Hin Hj) as [cw Hh]. replace c with cw; auto.
      destruct Hh as [pw [mw [kw [sw [Hpw [Emw [Hsw [Hid Ecw]]]]]]]].
      destruct (zone_of pw z mw Hpw Emw) as [n' [ns' [Ez' [_ Hokw]]]].
      destruct (Hokw kw sw Hsw) as [Hcw _]. rewrite Forall_forall in Hcw.
      apply (reshaped_ext K N); auto.
      { apply Hcw. eapply nth_error_In; eauto. }
      intros i Hi. rewrite C2 by auto. symmetry. apply R4; auto. apply M4.
      exists pw, mw, kw, sw. auto 10.
  Qed.

  Lemma restore_part file p : In p readers -> List.length file = List.length zones ->
    (forall z fz, nth_error file z = Some fz -> zone_file z fz) ->
    exists p2, (do q <- ReadSolutions K N file p; ScatterSolutions K N q) = Some p2 /\ kept_part p p2 /\
      forall z m2 k s2 j c, nth_error p2 z = Some m2 -> In (k, s2) m2 -> nth_error (cells s2) j = Some c ->
        holds writers z (head s2 + j) c.
  Proof.
    intros Hp Hl Hz. destruct Hr as [_ H]. destruct (H p Hp) as [L _].
    unfold ReadSolutions. rewrite Hl, <- L, Nat.eqb_refl.
    assert (G : forall (fs : list (FZone A)) (ms : Part A) a,
      List.length fs = List.length ms ->
      (forall q m, nth_error ms q = Some m -> nth_error p (a + q) = Some m) ->
      (forall q fz, nth_error fs q = Some fz -> zone_file (a + q) fz) ->
      exists q p2, mapM (fun x : FZone A * list (nat * Sect A) => read_zone K N (fst x) (snd x)) (combine fs ms) = Some q /\
        ScatterSolutions K N q = Some p2 /\ kept_part ms p2 /\
        forall z m2 k s2 j c, nth_error p2 z = Some m2 -> In (k, s2) m2 -> nth_error (cells s2) j = Some c ->
          holds writers (a + z) (head s2 + j) c).
    { induction fs as [|fz ft IH]; intros [|m mt] a HL Hms Hfs; try discriminate.
      - exists [], []. simpl. split; [reflexivity|]. split; [reflexivity|]. split; [constructor|].
        intros [|z] m2 k s2 j c E; discriminate.
      - destruct (IH mt (S a)) as [q [p2 [E1 [E2 [E3 E4]]]]].
        + simpl in HL; lia.
        + intros r m' E. replace (S a + r) with (a + S r) by lia. apply Hms. auto.
        + intros r f' E. replace (S a + r) with (a + S r) by lia. apply Hfs. auto.
        + destruct (restore_zone p a m fz Hp) as [m1 [m2 [R1 [R2 R3]]]].
          * replace a with (a + 0) by lia. apply Hms. auto.
          * replace a with (a + 0) by lia. apply Hfs. auto.
          * exists (m1 :: q), (m2 :: p2). simpl. rewrite R1, E1.
            split; [reflexivity|]. unfold ScatterSolutions in *. simpl. rewrite R2, E2.
            split; [reflexivity|]. split.
            { constructor; auto. eapply Forall2_impl; [|exact R3].
              intros x x' [H1 [H2 _]]. auto. }
            intros [|z] m3 k s2 j c Em Hin Ec.
            { simpl in Em. inversion Em; subst m3. rewrite Nat.add_0_r.
              destruct (Forall2_in' _ _ _ R3 (k, s2) Hin) as [[k0 s0] [_ [_ [[[H1 H2] _] H3]]]].
              cbn [snd] in *. rewrite <- H1. apply H3; auto. }
            replace (a + S z) with (S a + z) by lia. eapply E4; eauto. }
    destruct (G file p 0) as [q [p2 [E1 [E2 [E3 E4]]]]]; auto.
    { congruence. }
    exists p2. rewrite E1. cbn [bind]. auto.
  Qed.

  Lemma restart_kept : exists g file restored,
    mapM (GatherSolutions K N) writers = Some g /\
    WriteSolutions K N keeps (map fst zones) g = Some file /\
    mapM (fun p => do q <- ReadSolutions K N file p; ScatterSolutions K N q) readers = Some restored /\
    Forall2 (rel_part (gathered K N)) writers g /\
    Forall2 kept_part readers restored /\
    forall z id c, holds restored z id c -> holds writers z id c.
  Proof.
    destruct gather_ok as [g [Eg Fg]]. destruct (write_ok g Fg) as [file [Ef [Lf Hf]]].
    destruct (mapM_Forall2 (fun p => do q <- ReadSolutions K N file p; ScatterSolutions K N q)
      (fun p p2 => kept_part p p2 /\
        forall z m2 k s2 j c, nth_error p2 z = Some m2 -> In (k, s2) m2 -> nth_error (cells s2) j = Some c ->
          holds writers z (head s2 + j) c) readers) as [res [Er Fr]].
    { intros p Hp. apply restore_part; auto. }
    exists g, file, res. split; auto. split; auto. split; auto. split; auto. split.
    - eapply Forall2_impl; [|exact Fr]. intros a b [H _]. auto.
    - intros z id c [p2 [m2 [k [s2 [Hp [Em [Hs [Hid Ec]]]]]]]].
      destruct (Forall2_in' _ _ _ Fr p2 Hp) as [p [_ [_ Hh]]].
      specialize (Hh z m2 k s2 (id - head s2) c Em Hs Ec).
      replace (head s2 + (id - head s2)) with id in Hh by lia. auto.
  Qed.

  Lemma restart_ok : exists g file restored,
    mapM (GatherSolutions K N) writers = Some g /\
    WriteSolutions K N keeps (map fst zones) g = Some file /\
    mapM (fun p => do q <- ReadSolutions K N file p; ScatterSolutions K N q) readers = Some restored /\
    Forall2 same_part readers restored /\
    forall z id c, holds restored z id c -> holds writers z id c.
  Proof.
    destruct restart_kept as [g [file [res [E1 [E2 [E3 [_ [F H]]]]]]]].
    exists g, file, res. split; auto. split; auto. split; auto. split; auto.
    eapply Forall2_impl; [|exact F]. exact kept_same.
  Qed.

  (** the fields of the file *)
  Lemma content_ok : exists g file,
    mapM (GatherSolutions K N) writers = Some g /\
    WriteSolutions K N keeps (map fst zones) g = Some file /\
    forall z id c n k, holds writers z id c -> n < N -> k < K ->
      exists v, (do col <- nth_error c n; nth_error col k) = Some v /\
        forall w, entry file z (field_name (n * K + k + 1)) id w <-> w = v.
  Proof.
    destruct gather_ok as [g [Eg Fg]]. destruct (write_ok g Fg) as [file [Ef [Lf Hf]]].
    exists g, file. split; auto. split; auto. intros z id c n k Hh Hn Hk.
    pose proof Hh as [pw [mw [kw [sw [Hpw [Emw [Hsw [Hid Ecw]]]]]]]].
    destruct (zone_of pw z mw Hpw Emw) as [nc [ns [Ez [Hkeys Hokw]]]].
    destruct (nth_error_lt_some file z) as [fz Efz]. { rewrite Lf. eapply nth_error_some_lt; eauto. }
    destruct (Hf z fz Efz nc ns Ez) as [maps [M1 [M2 [M3 [M4 Ew]]]]].
    destruct (write_zone_ok K N keeps nc ns maps M1 M2 M3 (holds_cons maps z M4) (keeps_zone z nc ns Ez))
      as [fz' [E' Hfz]]. rewrite Ew in E'. inversion E'; subst fz'. clear E'.
    assert (Hn0 : 0 < ns).
    { apply (in_map fst) in Hsw. rewrite Hkeys in Hsw. apply in_seq in Hsw. lia. }
    destruct (Hfz Hn0) as [Lff Hrow]. assert (Hi : n * K + k < K * N) by nia.
    destruct (Hrow (n * K + k) Hi) as [row [Erow [Lrow Hv]]].
    destruct (Hv id c) as [H1 [v [Ev Env]]]; [apply M4; auto|].
    rewrite reshaped_entry in Ev by auto. exists v. split; [exact Ev|].
    replace (n * K + k + 1) with (S (n * K + k)) by lia. intros w. split.
    - intros [fz' [row' [Ef' [Hin [_ Ew']]]]]. rewrite Efz in Ef'. inversion Ef'; subst fz'.
      apply In_nth_error in Hin. destruct Hin as [q Eq].
      assert (Hq : q < K * N) by (rewrite <- Lff; eapply nth_error_some_lt; eauto).
      destruct (Hrow q Hq) as [rq [Erq _]]. rewrite Eq in Erq.
      assert (Hnm : field_name (S (n * K + k)) = field_name (S q)).
      { apply (f_equal (option_map fst)) in Erq. cbn [option_map fst] in Erq. congruence. }
      apply field_name_inj in Hnm. assert (Hq' : q = n * K + k) by lia. subst q. rewrite Eq in Erow.
      apply (f_equal (option_map snd)) in Erow. cbn [option_map snd] in Erow. congruence.
    - intros ->. exists fz, row. split; auto. split; [eapply nth_error_In; eauto|]. auto.
  Qed.
End Main.

(** ** The same processes *)

Lemma round_trip_solution {A} (writers restored : list (Part A)) : consistent writers ->
  Forall2 same_part writers restored ->
  (forall z id c, holds restored z id c -> holds writers z id c) ->
  map solution restored = map solution writers.
Proof.
  intros Hc Hs Hh.
  assert (G : forall z p p' m m' x x', In p writers -> In p' restored -> nth_error p z = Some m ->
    nth_error p' z = Some m' -> In x m -> In x' m' -> fst x = fst x' -> same_section (snd x) (snd x') ->
    cells (snd x') = cells (snd x)).
  { intros z p p' m m' [k s] [k' s'] Hp Hp' Em Em' Hx Hx' Hk [H1 H2]. cbn [fst snd] in *.
    apply nth_error_ext. intros j. destruct (Nat.lt_ge_cases j (List.length (cells s))) as [Hj|Hj].
    - destruct (nth_error_lt_some (cells s) j Hj) as [c Ec].
      destruct (nth_error_lt_some (cells s') j ltac:(lia)) as [c' Ec']. rewrite Ec, Ec'. f_equal.
      apply (Hc z (head s + j)).
      + apply Hh. exists p', m', k', s'. repeat split; auto; [lia|].
        replace (head s + j - head s') with j by lia. auto.
      + exists p, m, k, s. repeat split; auto; [lia|].
        replace (head s + j - head s) with j by lia. auto.
    - transitivity (@None (coeff A)); [|symmetry]; apply nth_error_None; lia. }
  assert (Gp : forall p p', In p writers -> In p' restored -> same_part p p' -> solution p' = solution p).
  { intros p p' Hp Hp' Hpp. unfold solution.
    apply nth_error_ext. intros z. rewrite !nth_error_map.
    destruct (nth_error p z) as [m|] eqn:Em.
    - destruct (Forall2_nth _ _ _ Hpp z m Em) as [m' [Em' Hm]]. rewrite Em'. simpl. f_equal.
      apply nth_error_ext. intros q. rewrite !nth_error_map.
      destruct (nth_error m q) as [x|] eqn:Ex.
      + destruct (Forall2_nth _ _ _ Hm q x Ex) as [x' [Ex' [Hk Hss]]]. rewrite Ex'. simpl. f_equal.
        rewrite (G z p p' m m' x x'); auto; try (eapply nth_error_In; eauto).
        destruct Hss as [Hh' _]. rewrite Hk, Hh'. auto.
      + destruct (nth_error m' q) as [x'|] eqn:Ex'; auto.
        destruct (Forall2_nth' _ _ _ Hm q x' Ex') as [x [Ex2 _]]. congruence.
    - destruct (nth_error p' z) as [m'|] eqn:Em'; auto.
      destruct (Forall2_nth' _ _ _ Hpp z m' Em') as [m [Em2 _]]. congruence. }
  clear G Hc. apply nth_error_ext. intros r. rewrite !nth_error_map.
  destruct (nth_error writers r) as [p|] eqn:Ep.
  - destruct (Forall2_nth _ _ _ Hs r p Ep) as [p' [Ep' Hpp]]. rewrite Ep'. simpl. f_equal.
    apply Gp; auto; eapply nth_error_In; eauto.
  - destruct (nth_error restored r) as [p'|] eqn:Ep'; auto.
    destruct (Forall2_nth' _ _ _ Hs r p' Ep') as [p [Ep2 _]]. congruence.
Qed.
