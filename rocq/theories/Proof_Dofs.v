From Coq Require Import Reals List Arith Lia Lra Bool.
From Verif Require Import Vec3 Arrays RSum Model_Dofs Model_DG Spec_DG.
Import ListNotations.
Open Scope R_scope.

Section Facts.
  Variables K N : nat.

  Lemma poke_row (h : nat -> R -> R) n m p :
    let st := fold_left (fun st r => poke (h r) st) (seq 0 n) (m, p) in
    snd st = (p + n)%nat
    /\ (forall r, (r < n)%nat -> fst st (p + r)%nat = h r (m (p + r)%nat))
    /\ (forall a, (a < p \/ p + n <= a)%nat -> fst st a = m a).
  Proof.
    cbv zeta. induction n as [|n (I1 & I2 & I3)].
    - cbn. repeat split; [lia|intros; lia].
    - rewrite seq_S, fold_left_app. cbn [fold_left].
      destruct (fold_left (fun st r => poke (h r) st) (seq 0 n) (m, p)) as [m' p'].
      cbn [fst snd] in *. subst p'. cbn. repeat split.
      + lia.
      + intros r L. destruct (Nat.eqb_spec (p + r) (p + n)) as [E|E].
        * replace r with n by lia. rewrite I3 by lia. reflexivity.
        * apply I2. lia.
      + intros a L. destruct (Nat.eqb_spec a (p + n)); [lia|]. apply I3. lia.
  Qed.

  Lemma poke_block (h : nat -> nat -> R -> R) n m p :
    let st := fold_left (fun st c => fold_left (fun st r => poke (h c r) st) (seq 0 K) st) (seq 0 n) (m, p) in
    snd st = (p + n * K)%nat
    /\ (forall c r, (c < n)%nat -> (r < K)%nat -> fst st (p + (c * K + r))%nat = h c r (m (p + (c * K + r))%nat))
    /\ (forall a, (a < p \/ p + n * K <= a)%nat -> fst st a = m a).
  Proof.
    cbv zeta. induction n as [|n (I1 & I2 & I3)].
    - cbn. repeat split; [lia|intros; lia].
    - rewrite seq_S, fold_left_app. cbn [fold_left].
      destruct (fold_left (fun st c => fold_left (fun st r => poke (h c r) st) (seq 0 K) st) (seq 0 n) (m, p)) as [m' p'].
      cbn [fst snd] in I1, I2, I3. subst p'. rewrite Nat.add_0_l.
      destruct (poke_row (h n) K m' (p + n * K)) as (J1 & J2 & J3). repeat split.
      + rewrite J1. lia.
      + intros c r Lc Lr. destruct (Nat.eq_dec c n) as [->|E].
        * rewrite !Nat.add_assoc. rewrite J2 by exact Lr. rewrite I3 by lia. reflexivity.
        * rewrite J3; [|left; nia]. apply I2; lia.
      + intros a L. rewrite J3 by lia. apply I3. lia.
  Qed.

  Lemma for_each_in op x off m j k : (j < N)%nat -> (k < K)%nat ->
    for_each K N op x off m (off + (j * K + k))%nat = op (m (off + (j * K + k))%nat) (x k j).
  Proof.
    intros. unfold for_each.
    destruct (poke_block (fun c r old => op old (x r c)) N m off) as (_ & I & _). apply I; assumption.
  Qed.
  Lemma for_each_out op x off m a : (a < off \/ off + N * K <= a)%nat -> for_each K N op x off m a = m a.
  Proof.
    intros. unfold for_each.
    destruct (poke_block (fun c r old => op old (x r c)) N m off) as (_ & _ & I). apply I; assumption.
  Qed.

  (** blocks of different cells do not overlap *)
  Lemma address_out i i' j k : (i <> i')%nat -> (j < N)%nat -> (k < K)%nat ->
    (address K N i' j k < K * N * i \/ K * N * i + N * K <= address K N i' j k)%nat.
  Proof.
    unfold address. intros E J L. assert (j * K + k < K * N)%nat by nia.
    destruct (Nat.lt_trichotomy i i') as [H1|[H1|H1]]; [right|lia|left]; nia.
  Qed.

  Lemma for_each_address op x i i' m j k : (j < N)%nat -> (k < K)%nat ->
    for_each K N op x (K * N * i) m (address K N i' j k)
    = if (i =? i')%nat then op (m (address K N i' j k)) (x k j) else m (address K N i' j k).
  Proof.
    intros J L. destruct (Nat.eqb_spec i i') as [->|E].
    - apply for_each_in; assumption.
    - apply for_each_out. apply address_out; assumption.
  Qed.

  Lemma cell_data_spec n : length (cell_data K N n) = S n /\
    forall i, (i <= n)%nat -> nth_error (cell_data K N n) i = Some (K * N * i)%nat.
  Proof.
    induction n as [|n [L I]].
    - split; [reflexivity|]. intros i H. replace i with 0%nat by lia. cbn. f_equal. lia.
    - cbn [cell_data]. rewrite app_length. cbn [length]. rewrite L. split; [lia|].
      intros i H. destruct (Nat.eq_dec i (S n)) as [->|E].
      + rewrite nth_error_app2 by lia. rewrite L, Nat.sub_diag. cbn [nth_error]. f_equal.
        assert (last (cell_data K N n) 0%nat = (K * N * n)%nat) as ->; [|lia].
        specialize (I n (le_n _)). revert I L. generalize (cell_data K N n) as l.
        intros l. generalize (K * N * n)%nat as v. intros v I L.
        destruct (exists_last (l := l)) as (l' & a & ->); [intros ->; cbn in L; lia|].
        rewrite last_last. rewrite app_length in L. cbn in L. rewrite nth_error_app2 in I by lia.
        replace (n - length l')%nat with 0%nat in I by lia. cbn in I. congruence.
      + rewrite nth_error_app1 by lia. apply I. lia.
  Qed.

  Lemma offset_some n i : (i <= n)%nat -> GetCellDataOffset K N n i = Some (K * N * i)%nat.
  Proof.
    intros H. unfold GetCellDataOffset. apply Nat.leb_le in H. rewrite H. apply Nat.leb_le in H.
    apply cell_data_spec. exact H.
  Qed.
  Lemma size_some n : GetCellDataSize K N n = Some (K * N * n)%nat.
  Proof. unfold GetCellDataSize. rewrite offset_some by lia. cbn. rewrite Nat.eqb_refl. reflexivity. Qed.
  Lemma add_offset_some n col i : size col = (K * N * n)%nat -> (i < n)%nat ->
    AddCellDataOffset K N n col i = Some (K * N * i)%nat.
  Proof.
    intros E H. unfold AddCellDataOffset. rewrite offset_some by lia. cbn. rewrite E.
    destruct (Nat.leb_spec (K * N * i + K * N) (K * N * n)); [reflexivity|nia].
  Qed.
  Lemma check_end_true n col i : size col = (K * N * n)%nat -> (i < n)%nat ->
    check_end K N n col i (K * N * i + K * N) = true.
  Proof.
    intros E H. unfold check_end. destruct (Nat.eq_dec (S i) n) as [<-|D].
    - rewrite E. replace (K * N * i + K * N)%nat with (K * N * S i)%nat by lia. rewrite Nat.eqb_refl. reflexivity.
    - rewrite (add_offset_some n col (S i)) by (auto; lia).
      replace (K * N * i + K * N)%nat with (K * N * S i)%nat by lia. rewrite Nat.eqb_refl. apply orb_true_r.
  Qed.

  Lemma write_in x m off j k : (j < N)%nat -> (k < K)%nat ->
    fst (WriteCoeffTo K N x (m, off)) (off + (j * K + k))%nat = x k j.
  Proof.
    intros J L. cbn [WriteCoeffTo fst].
    assert (j * K + k < K * N)%nat by nia.
    destruct (Nat.leb_spec off (off + (j * K + k))); [|lia].
    destruct (Nat.ltb_spec (off + (j * K + k)) (off + K * N)); [|lia]. cbn [andb].
    replace (off + (j * K + k) - off)%nat with (k + j * K)%nat by lia.
    rewrite Nat.mod_add, Nat.div_add, Nat.mod_small, Nat.div_small by lia. f_equal.
  Qed.
  Lemma write_out x m off a : (a < off \/ off + K * N <= a)%nat ->
    fst (WriteCoeffTo K N x (m, off)) a = m a.
  Proof.
    intros H. cbn [WriteCoeffTo fst].
    destruct (Nat.leb_spec off a), (Nat.ltb_spec a (off + K * N)); cbn [andb]; try reflexivity; lia.
  Qed.
End Facts.

Section RoundTrip.
  Variables K N n : nat.
  Variable ids : list nat.
  Hypothesis OK : forall i, In i ids -> (i < n)%nat.

  Lemma get_solution (l : list nat) sol col : (forall i, In i l -> (i < n)%nat) -> size col = (K * N * n)%nat ->
    exists col', foldM (fun col i_cell =>
      do data <- AddCellDataOffset K N n col i_cell;
      let '(m, data) := WriteCoeffTo K N (sol i_cell) (at_ col, data) in
      let col := Col (size col) m in
      if check_end K N n col i_cell data then Some col else None) l col = Some col'
      /\ size col' = (K * N * n)%nat
      /\ forall i j k, (j < N)%nat -> (k < K)%nat ->
           (In i l -> at_ col' (address K N i j k) = sol i k j)
           /\ (~ In i l -> at_ col' (address K N i j k) = at_ col (address K N i j k)).
  Proof.
    revert col. induction l as [|i l IH]; intros col H S; cbn [foldM].
    - exists col. repeat split; auto. contradiction.
    - rewrite add_offset_some by (auto; apply H; left; reflexivity). cbn [bind].
      pose proof (write_in K N (sol i) (at_ col) (K * N * i)) as WI.
      pose proof (write_out K N (sol i) (at_ col) (K * N * i)) as WO.
      destruct (WriteCoeffTo K N (sol i) (at_ col, (K * N * i)%nat)) as [m d] eqn:W.
      assert (d = (K * N * i + K * N)%nat) as -> by (cbn in W; congruence). cbn [fst] in WI, WO.
      rewrite check_end_true by (auto; apply H; left; reflexivity). cbn [bind].
      destruct (IH (Col (size col) m)) as (col' & E & S' & V); [intros; apply H; right; assumption|exact S|].
      exists col'. split; [exact E|]. split; [exact S'|]. intros i' j k J L. destruct (V i' j k J L) as [V1 V2]. cbn [at_] in V2.
      split.
      + intros [<-|I]; [|apply V1; exact I].
        destruct (in_dec Nat.eq_dec i l) as [I|I]; [apply V1; exact I|]. rewrite V2 by exact I.
        unfold address. apply WI; assumption.
      + intros I. rewrite V2 by (intros X; apply I; right; exact X).
        apply WO.
        pose proof (address_out K N i i' j k ltac:(intros ->; apply I; left; reflexivity) J L). lia.
  Qed.

  Lemma set_solution (l : list nat) col sol : (forall i, In i l -> (i < n)%nat) -> size col = (K * N * n)%nat ->
    exists sol', foldM (fun solution i_cell =>
      do data <- AddCellDataOffset K N n col i_cell;
      let '(x, data) := GetCoeffFrom K N (at_ col) data in
      if check_end K N n col i_cell data
      then Some (fun i => if (i =? i_cell)%nat then x else solution i) else None) l sol = Some sol'
      /\ forall i r c, (In i l -> sol' i r c = at_ col (K * N * i + (c * K + r))%nat)
                       /\ (~ In i l -> sol' i r c = sol i r c).
  Proof.
    intros H S. revert sol. induction l as [|i l IH]; intros sol; cbn [foldM].
    - exists sol. split; [reflexivity|]. intros. split; [contradiction|reflexivity].
    - rewrite add_offset_some by (auto; apply H; left; reflexivity). cbn [bind GetCoeffFrom].
      rewrite check_end_true by (auto; apply H; left; reflexivity). cbn [bind].
      destruct (IH ltac:(intros; apply H; right; assumption)
        (fun i0 => if (i0 =? i)%nat then (fun r c => at_ col (K * N * i + (c * K + r))%nat) else sol i0)) as (sol' & E & V).
      exists sol'. split; [exact E|]. intros i' r c. destruct (V i' r c) as [V1 V2]. split.
      + intros [<-|I]; [|apply V1; exact I].
        destruct (in_dec Nat.eq_dec i l) as [I|I]; [apply V1; exact I|]. rewrite V2 by exact I.
        rewrite Nat.eqb_refl. reflexivity.
      + intros I. rewrite V2 by (intros X; apply I; right; exact X).
        destruct (Nat.eqb_spec i' i) as [->|]; [|reflexivity]. elim I. left. reflexivity.
  Qed.

  Theorem get_main sol garbage : exists col, GetSolutionColumn K N n ids sol garbage = Some col
    /\ size col = (K * N * n)%nat
    /\ forall i j k, In i ids -> (j < N)%nat -> (k < K)%nat -> at_ col (address K N i j k) = sol i k j.
  Proof.
    unfold GetSolutionColumn. rewrite size_some. cbn [bind].
    destruct (get_solution ids sol (Col (K * N * n) garbage) OK eq_refl) as (col & E & S & V).
    exists col. split; [exact E|]. split; [exact S|]. intros i j k I J L. apply V; assumption.
  Qed.
  Theorem set_main col sol : size col = (K * N * n)%nat -> exists sol', SetSolutionColumn K N n ids col sol = Some sol'
    /\ forall i j k, (In i ids -> sol' i k j = at_ col (address K N i j k)) /\ (~ In i ids -> sol' i k j = sol i k j).
  Proof.
    intros S. destruct (set_solution ids col sol OK S) as (sol' & E & V). exists sol'. split; [exact E|].
    intros i j k. apply V.
  Qed.

  (** ** values of one basis function *)
  Lemma add_value v off b m : (b < N)%nat -> exists m', AddValueTo K N v off b m = Some m'
    /\ (forall r, (r < K)%nat -> m' (off + (b * K + r))%nat = m (off + (b * K + r))%nat + v r)
    /\ (forall a, (a < off + b * K \/ off + b * K + K <= a)%nat -> m' a = m a).
  Proof.
    intros L. unfold AddValueTo. destruct (Nat.ltb_spec b N); [|lia]. eexists. split; [reflexivity|].
    destruct (poke_row (fun r old => old + v r) K m (off + K * b)) as (_ & I & O). split.
    - intros r Lr. replace (off + (b * K + r))%nat with (off + K * b + r)%nat by lia. apply I. exact Lr.
    - intros a La. apply O. lia.
  Qed.
  Lemma minus_value v off b m : (b < N)%nat -> exists m', MinusValue K N v off b m = Some m'
    /\ (forall r, (r < K)%nat -> m' (off + (b * K + r))%nat = m (off + (b * K + r))%nat - v r)
    /\ (forall a, (a < off + b * K \/ off + b * K + K <= a)%nat -> m' a = m a).
  Proof.
    intros L. unfold MinusValue. destruct (Nat.ltb_spec b N); [|lia]. eexists. split; [reflexivity|].
    destruct (poke_row (fun r old => old - v r) K m (off + K * b)) as (_ & I & O). split.
    - intros r Lr. replace (off + (b * K + r))%nat with (off + K * b + r)%nat by lia. apply I. exact Lr.
    - intros a La. apply O. lia.
  Qed.
  Lemma scale_value c m off : exists m', ScaleValueAt K c (m, off) = (m', (off + K)%nat)
    /\ (forall r, (r < K)%nat -> m' (off + r)%nat = m (off + r)%nat * c)
    /\ (forall a, (a < off \/ off + K <= a)%nat -> m' a = m a).
  Proof.
    destruct (poke_row (fun r old => old * c) K m off) as (E & I & O).
    unfold ScaleValueAt. destruct (fold_left _ (seq 0 K) (m, off)) as [m' d]. cbn [fst snd] in *. subst d.
    exists m'. repeat split; assumption.
  Qed.
End RoundTrip.
