From Coq Require Import List Arith Bool Lia Permutation Reals.
From Verif Require Import Model_Reconstruct Spec_Reconstruct.
Import ListNotations.

Section Facts.
  Context {A : Type}.
  Variable ins : memory A -> nat -> bool.
  Variable lim : memory A -> nat -> A.

  Lemma write_all_map (f : nat -> A) l m c :
    write_all l (map f l) m c = if in_dec Nat.eq_dec c l then f c else m c.
  Proof.
    revert m. induction l as [|a l IH]; intros m; cbn [map write_all]; [reflexivity|].
    rewrite IH. destruct (in_dec Nat.eq_dec c l) as [I|I].
    - destruct (in_dec Nat.eq_dec c (a :: l)) as [J|J]; [reflexivity|]. elim J. right. exact I.
    - unfold mset. destruct (Nat.eqb_spec c a) as [->|E].
      + destruct (in_dec Nat.eq_dec a (a :: l)) as [J|J]; [reflexivity|]. elim J. left. reflexivity.
      + destruct (in_dec Nat.eq_dec c (a :: l)) as [[J|J]|J]; [congruence|contradiction|reflexivity].
  Qed.

  Lemma pass_value l m c : limited_at_once ins lim l m c (Reconstruct_cells ins lim l m c).
  Proof.
    unfold limited_at_once, Reconstruct_cells. rewrite write_all_map.
    destruct (in_dec Nat.eq_dec c (filter (ins m) l)) as [I|I]; rewrite filter_In in I; [left|right]; tauto.
  Qed.

  Lemma pass_in l m c : In c l -> ins m c = true -> Reconstruct_cells ins lim l m c = lim m c.
  Proof. intros I T. destruct (pass_value l m c) as [(_ & _ & E)|(N & _)]; [exact E|tauto]. Qed.
  Lemma pass_out l m c : ~ In c l -> Reconstruct_cells ins lim l m c = m c.
  Proof. intros I. destruct (pass_value l m c) as [(J & _)|(_ & E)]; [contradiction|exact E]. Qed.
  Lemma pass_smooth l m c : ins m c = false -> Reconstruct_cells ins lim l m c = m c.
  Proof. intros I. destruct (pass_value l m c) as [(_ & J & _)|(_ & E)]; [congruence|exact E]. Qed.

  (** a pass on two memories that the limiter cannot tell apart *)
  Lemma pass_same l l' m m' c : (In c l <-> In c l') -> m c = m' c ->
    ins m c = ins m' c -> lim m c = lim m' c ->
    Reconstruct_cells ins lim l m c = Reconstruct_cells ins lim l' m' c.
  Proof.
    intros P E I L.
    destruct (pass_value l m c) as [(a & b & ->)|(a & ->)], (pass_value l' m' c) as [(d & e & ->)|(d & ->)];
      try assumption; exfalso; rewrite I in *; tauto.
  Qed.

  Lemma order l l' m c : (forall d, In d l <-> In d l') ->
    Reconstruct_cells ins lim l m c = Reconstruct_cells ins lim l' m c.
  Proof. intros P. apply pass_same; auto. Qed.

  Variable cells : list nat.
  Variable adj : nat -> list nat.

  Section Part.
    Variable part : nat -> nat.
    Variable stale : nat -> memory A.
    Variable s : memory A.
    Variable degrees : nat.
    Hypothesis D : degrees <> 0.

    Lemma inner_spec c : inner adj part c = true <-> forall n, In n (adj c) -> part n = part c.
    Proof.
      unfold inner. rewrite forallb_forall. split; intros H n I; specialize (H n I).
      - apply Nat.eqb_eq in H. exact H.
      - apply Nat.eqb_eq. exact H.
    Qed.

    (** the memory of a rank before and after the first pass *)
    Definition before rank : memory A := fun d => if part d =? rank then s d else stale rank d.
    Definition between rank : memory A :=
      UpdateGhostCellCoeffs part s rank (Reconstruct_cells ins lim (inner_cells cells adj part rank) (before rank)).

    Lemma result_eq c :
      Reconstruct ins lim cells adj part degrees stale s c
      = Reconstruct_cells ins lim (inter_cells cells adj part (part c)) (between (part c)) c.
    Proof. unfold Reconstruct, Reconstruct_rank. apply Nat.eqb_neq in D. rewrite D. reflexivity. Qed.

    Lemma in_inner c : In c (inner_cells cells adj part (part c)) <-> In c cells /\ inner adj part c = true.
    Proof. unfold inner_cells. rewrite filter_In, Nat.eqb_refl. cbn. tauto. Qed.
    Lemma in_inter c : In c (inter_cells cells adj part (part c)) <-> In c cells /\ inner adj part c = false.
    Proof.
      unfold inter_cells. rewrite filter_In, Nat.eqb_refl. cbn.
      destruct (inner adj part c); cbn; intuition congruence.
    Qed.

    Lemma between_own c : between (part c) c
      = Reconstruct_cells ins lim (inner_cells cells adj part (part c)) (before (part c)) c.
    Proof. unfold between, UpdateGhostCellCoeffs. rewrite Nat.eqb_refl. reflexivity. Qed.
    Lemma before_own c : before (part c) c = s c.
    Proof. unfold before. rewrite Nat.eqb_refl. reflexivity. Qed.

    (** the memory between the passes at the neighbours of an inter-part cell *)
    Lemma between_cases rank n :
      between rank n = s n
      \/ (part n = rank /\ In n cells /\ inner adj part n = true /\ ins (before rank) n = true
          /\ between rank n = lim (before rank) n).
    Proof.
      unfold between, UpdateGhostCellCoeffs. destruct (Nat.eqb_spec (part n) rank) as [<-|N]; [|left; reflexivity].
      destruct (pass_value (inner_cells cells adj part (part n)) (before (part n)) n) as [(a & b & ->)|(a & ->)].
      - apply in_inner in a. right. tauto.
      - left. apply before_own.
    Qed.

    Lemma between_inter c : inner adj part c = false -> between (part c) c = s c.
    Proof.
      intros I. destruct (between_cases (part c) c) as [E|(_ & _ & J & _)]; [exact E|congruence].
    Qed.

    (** the memory a rank has at the start is indistinguishable from the state for its inner cells *)
    Lemma before_local n : inner adj part n = true -> forall k, In k (adj n) -> before (part n) k = s k.
    Proof.
      intros I k K. unfold before. rewrite inner_spec in I. rewrite (I k K), Nat.eqb_refl. reflexivity.
    Qed.

    Section Local.
      Hypothesis L : local ins lim adj.

      Lemma at_inner n : inner adj part n = true ->
        ins (before (part n)) n = ins s n /\ lim (before (part n)) n = lim s n.
      Proof.
        intros I. apply L; [apply before_own|]. apply before_local. exact I.
      Qed.

      Lemma result_inner c : inner adj part c = true ->
        Reconstruct ins lim cells adj part degrees stale s c = Reconstruct_cells ins lim cells s c.
      Proof.
        intros I. rewrite result_eq, pass_out; [|rewrite in_inter; intros (_ & J); congruence].
        rewrite between_own. destruct (at_inner c I) as (a & b). apply pass_same; auto using before_own.
        rewrite in_inner. tauto.
      Qed.

      Lemma result_inter c : inner adj part c = false ->
        (forall n, In n (adj c) -> part n = part c -> inner adj part n = true -> ins s n = false) ->
        Reconstruct ins lim cells adj part degrees stale s c = Reconstruct_cells ins lim cells s c.
      Proof.
        intros I Q. rewrite result_eq.
        assert (E : ins (between (part c)) c = ins s c /\ lim (between (part c)) c = lim s c).
        { apply L; [apply between_inter; exact I|]. intros n K.
          destruct (between_cases (part c) n) as [E|(P & _ & J & T & _)]; [exact E|].
          exfalso. rewrite <- P in T. destruct (at_inner n J) as (a & _). rewrite a in T.
          rewrite (Q n K P J) in T. discriminate. }
        destruct E. apply pass_same; auto using between_inter. rewrite in_inter. tauto.
      Qed.
    End Local.

    Section Through.
      Context {B : Type}.
      Variable f : A -> B.
      Hypothesis L : local_through ins lim f adj.

      Lemma through_local : local ins lim adj.
      Proof. intros m m' c E H. apply (proj1 L); [exact E|]. intros n I. rewrite (H n I). reflexivity. Qed.

      Lemma result_through c :
        Reconstruct ins lim cells adj part degrees stale s c = Reconstruct_cells ins lim cells s c.
      Proof.
        destruct (inner adj part c) eqn:I; [apply result_inner; [apply through_local|exact I]|].
        rewrite result_eq.
        assert (E : ins (between (part c)) c = ins s c /\ lim (between (part c)) c = lim s c).
        { apply (proj1 L); [apply between_inter; exact I|]. intros n K.
          destruct (between_cases (part c) n) as [->|(P & _ & J & T & ->)]; [reflexivity|].
          rewrite (proj2 L). rewrite <- P, before_own. reflexivity. }
        destruct E. apply pass_same; auto using between_inter. rewrite in_inter. tauto.
      Qed.
    End Through.
  End Part.
End Facts.

Lemma smooth_slopes_local adj : local (fun _ _ => true) (smooth_slopes adj) adj.
Proof.
  intros m m' c E H. split; [reflexivity|]. unfold smooth_slopes. rewrite E. f_equal. f_equal.
  assert (forall l, (forall n, In n l -> m n = m' n) ->
    fold_right (fun n s => (snd (m n) + s)%R) (snd (m' c)) l = fold_right (fun n s => (snd (m' n) + s)%R) (snd (m' c)) l) as X.
  { induction l as [|a l IH]; intros Q; cbn [fold_right]; [reflexivity|].
    rewrite (Q a (or_introl eq_refl)), IH; [reflexivity|]. intros n I. apply Q. right. exact I. }
  apply X. exact H.
Qed.
