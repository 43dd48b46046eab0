From Coq Require Import List Arith Lia.
From Verif Require Import Arrays Model_Mapper Model_Metis Spec_Mesh Spec_Metis Proof_Mapper.
Import ListNotations.

(** value of a node after the cells of a list of rows *)
Lemma gnp_nodes_spec idx pv : forall n ptr np,
  ptr + n <= length idx -> Forall (fun k => k < length np) idx ->
  exists np', gnp_nodes idx pv n ptr np = Some (ptr + n, np') /\ length np' = length np /\
    forall k v, nth_error np k = Some v ->
      nth_error np' k = Some (if in_dec Nat.eq_dec k (firstn n (skipn ptr idx))
                              then min pv v else v).
Proof.
  induction n as [|n IH]; intros ptr np Hl Hf.
  - exists np. simpl. rewrite Nat.add_0_r. repeat split; auto.
  - cbn [gnp_nodes].
    destruct (nth_error_lt_some idx ptr) as [x Hx]; [lia|]. rewrite Hx. cbn [bind].
    assert (Lx : x < length np).
    { rewrite Forall_forall in Hf. apply Hf. eapply nth_error_In; eauto. }
    destruct (nth_error_lt_some np x Lx) as [old Ho]. rewrite Ho. cbn [bind].
    set (np1 := if pv <? old then upd np x pv else np).
    assert (L1 : length np1 = length np)
      by (unfold np1; destruct (pv <? old); [apply upd_length|auto]).
    destruct (IH (S ptr) np1) as (np' & E & L & G); [lia|rewrite L1; auto|].
    exists np'. rewrite E. split; [do 2 f_equal; lia|]. split; [congruence|].
    intros k v Hk.
    assert (Es : skipn ptr idx = x :: skipn (S ptr) idx).
    { clear -Hx. revert ptr Hx. induction idx as [|a t IH]; intros [|p] Hx; try discriminate.
      - simpl in Hx. inversion Hx. reflexivity.
      - simpl in Hx. apply IH in Hx. exact Hx. }
    rewrite Es. cbn [firstn].
    assert (Hk1 : nth_error np1 k = Some (if Nat.eq_dec k x then min pv v else v)).
    { unfold np1. destruct (Nat.eq_dec k x) as [->|Ne].
      - assert (v = old) by congruence. subst v.
        destruct (Nat.ltb_spec pv old).
        + rewrite nth_error_upd_same by auto. f_equal. lia.
        + rewrite Ho. f_equal. lia.
      - destruct (pv <? old); auto. rewrite nth_error_upd_other; auto. }
    rewrite (G _ _ Hk1). f_equal.
    destruct (Nat.eq_dec k x) as [->|Ne];
      destruct (in_dec Nat.eq_dec _ (firstn n (skipn (S ptr) idx))) as [Hj|Hj];
      destruct (in_dec Nat.eq_dec _ (x :: firstn n (skipn (S ptr) idx))) as [Hi|Hi];
      simpl in *; try lia; intuition congruence.
Qed.

Definition own (mesh : MetisMesh) (cell_parts : list nat) (n_parts n k p : nat) : Prop :=
  (forall m q, m < n -> uses mesh m k -> nth_error cell_parts m = Some q -> p <= q) /\
  p <= n_parts /\
  (p = n_parts \/ exists m, m < n /\ uses mesh m k /\ nth_error cell_parts m = Some p).

Lemma csr_row_slice mesh n_cells i a b : wf_csr mesh n_cells ->
  nth_error (mm_range mesh) i = Some a -> nth_error (mm_range mesh) (S i) = Some b ->
  a <= b /\ b <= length (mm_index mesh) /\
  csr_row mesh i = Some (firstn (b - a) (skipn a (mm_index mesh))).
Proof.
  intros W Ha Hb. pose proof (wc_mono _ _ W _ _ _ Ha Hb) as Hab.
  assert (Hbl : b <= length (mm_index mesh)).
  { assert (G : forall d j x, j + d = n_cells -> nth_error (mm_range mesh) j = Some x ->
              x <= length (mm_index mesh)).
    { induction d as [|d IH]; intros j x E Hx.
      - rewrite Nat.add_0_r in E. subst j. rewrite (wc_last _ _ W) in Hx. inversion Hx. lia.
      - destruct (nth_error_lt_some (mm_range mesh) (S j)) as [y Hy].
        + rewrite (wc_len _ _ W). lia.
        + pose proof (wc_mono _ _ W _ _ _ Hx Hy).
          assert (y <= length (mm_index mesh)) by (apply (IH (S j) y); [lia|auto]). lia. }
    pose proof (nth_error_some_lt _ _ _ Hb) as L. rewrite (wc_len _ _ W) in L.
    apply (G (n_cells - S i) (S i)); auto. lia. }
  repeat split; auto. unfold csr_row. rewrite Ha, Hb. cbn [bind].
  destruct (Nat.leb_spec a b); [|lia]. apply slice_some. lia.
Qed.

Lemma gnp_cells_spec mesh cell_parts n_parts n_cells :
  wf_csr mesh n_cells -> length cell_parts = n_cells ->
  forall n i ptr np, i + n = n_cells -> nth_error (mm_range mesh) i = Some ptr ->
  length np = mm_nodes mesh ->
  (forall k, k < mm_nodes mesh -> exists p, nth_error np k = Some p /\
     own mesh cell_parts n_parts i k p) ->
  exists np', gnp_cells (mm_range mesh) (mm_index mesh) cell_parts n i ptr np = Some np' /\
    length np' = mm_nodes mesh /\
    (forall k, k < mm_nodes mesh -> exists p, nth_error np' k = Some p /\
       own mesh cell_parts n_parts n_cells k p).
Proof.
  intros W Lc. induction n as [|n IH]; intros i ptr np E Hp Ln Hinv.
  - exists np. rewrite Nat.add_0_r in E. subst i. auto.
  - cbn [gnp_cells].
    destruct (nth_error_lt_some cell_parts i) as [pv Hpv]; [lia|].
    destruct (nth_error_lt_some (mm_range mesh) (S i)) as [b Hb]; [rewrite (wc_len _ _ W); lia|].
    rewrite Hpv, Hp, Hb. cbn [bind].
    destruct (csr_row_slice mesh n_cells i ptr b W Hp Hb) as (Hab & Hbl & Erow).
    destruct (gnp_nodes_spec (mm_index mesh) pv (b - ptr) ptr np) as (np1 & E1 & L1 & G1).
    { lia. }
    { rewrite Ln. apply (wc_ids _ _ W). }
    rewrite E1. cbn [bind]. replace (ptr + (b - ptr)) with b by lia.
    apply IH; auto; [lia|congruence|].
    intros k Hk. destruct (Hinv k Hk) as (p & Hp0 & H1 & H2 & H3).
    rewrite (G1 k p Hp0). eexists. split; [reflexivity|].
    destruct (in_dec Nat.eq_dec k (firstn (b - ptr) (skipn ptr (mm_index mesh)))) as [Hin|Hin].
    + assert (U : uses mesh i k) by (exists (firstn (b - ptr) (skipn ptr (mm_index mesh))); auto).
      split; [|split].
      * intros m q Hm Hu Hq. destruct (Nat.eq_dec m i) as [->|Ne].
        -- assert (q = pv) by congruence. lia.
        -- specialize (H1 m q). assert (p <= q) by (apply H1; auto; lia). lia.
      * lia.
      * destruct (Nat.min_spec pv p) as [[_ ->]|[_ ->]].
        -- right. exists i. repeat split; auto.
        -- destruct H3 as [->|(m & Hm & Hu & Hq)]; auto. right. exists m. repeat split; auto.
    + split; [|split]; auto.
      * intros m q Hm Hu Hq. destruct (Nat.eq_dec m i) as [->|Ne].
        -- destruct Hu as (row & Er & Hr). rewrite Erow in Er. inversion Er; subst. contradiction.
        -- apply (H1 m q); auto. lia.
      * destruct H3 as [->|(m & Hm & Hu & Hq)]; auto. right. exists m. repeat split; auto.
Qed.

Lemma uses_lt mesh n_cells m k : wf_csr mesh n_cells -> uses mesh m k ->
  m < n_cells /\ k < mm_nodes mesh.
Proof.
  intros W (row & E & Hin). unfold csr_row in E.
  destruct (nth_error (mm_range mesh) m) as [a|] eqn:Ea; [|discriminate].
  destruct (nth_error (mm_range mesh) (S m)) as [b|] eqn:Eb; [|discriminate].
  cbn [bind] in E. pose proof (nth_error_some_lt _ _ _ Eb) as L. rewrite (wc_len _ _ W) in L.
  split; [lia|]. destruct (a <=? b); [|discriminate].
  unfold slice in E. destruct (_ <=? _); [|discriminate]. inversion E; subst.
  pose proof (wc_ids _ _ W) as F. rewrite Forall_forall in F. apply F.
  rewrite <- (firstn_skipn a (mm_index mesh)). apply in_or_app; right.
  rewrite <- (firstn_skipn (b - a) (skipn a (mm_index mesh))). apply in_or_app; left. auto.
Qed.

Theorem GetNodeParts_correct mesh cell_parts n_parts n_cells :
  wf_csr mesh n_cells -> length cell_parts = n_cells ->
  exists np, GetNodeParts mesh cell_parts n_parts = Some np /\ length np = mm_nodes mesh /\
    forall k, k < mm_nodes mesh ->
      exists p, nth_error np k = Some p /\ owner_part mesh cell_parts n_parts k p.
Proof.
  intros W Lc. unfold GetNodeParts. rewrite (wc_len _ _ W). simpl (S n_cells - 1).
  rewrite Nat.sub_0_r.
  destruct (gnp_cells_spec mesh cell_parts n_parts n_cells W Lc n_cells 0 0
              (repeat n_parts (mm_nodes mesh))) as (np & E & L & G); auto.
  - apply (wc_zero _ _ W).
  - apply repeat_length.
  - intros k Hk. exists n_parts. split.
    + rewrite nth_error_repeat; auto.
    + repeat split; auto. intros m q Hm. lia.
  - exists np. repeat split; auto. intros k Hk. destruct (G k Hk) as (p & Hp & H1 & H2 & H3).
    exists p. split; auto. split; [|split]; auto.
    + intros m q Hu. apply H1; auto. apply (uses_lt mesh n_cells m k W Hu).
    + destruct H3 as [->|(m & Hm & Hu & Hq)]; eauto.
Qed.

Lemma GetNodeParts_used mesh cell_parts n_parts n_cells np k :
  wf_csr mesh n_cells -> length cell_parts = n_cells ->
  Forall (fun q => q < n_parts) cell_parts ->
  GetNodeParts mesh cell_parts n_parts = Some np -> (exists m, uses mesh m k) ->
  exists p m, nth_error np k = Some p /\ p < n_parts /\ uses mesh m k /\
    nth_error cell_parts m = Some p.
Proof.
  intros W Lc F E [m Hu].
  destruct (GetNodeParts_correct mesh cell_parts n_parts n_cells W Lc) as (np' & E' & L & G).
  rewrite E in E'. inversion E'; subst np'.
  destruct (uses_lt mesh n_cells m k W Hu) as [Lm Lk].
  destruct (G k Lk) as (p & Hp & H1 & H2 & H3).
  destruct (nth_error_lt_some cell_parts m) as [q Hq]; [lia|].
  pose proof (H1 m q Hu Hq) as Hle. rewrite Forall_forall in F.
  pose proof (F q (nth_error_In _ _ Hq)) as Hlt.
  destruct H3 as [->|(m' & Hu' & Hq')]; [lia|].
  exists p, m'. repeat split; auto. lia.
Qed.

Lemma GetNodeParts_orphan mesh cell_parts n_parts n_cells np k :
  wf_csr mesh n_cells -> length cell_parts = n_cells -> k < mm_nodes mesh ->
  GetNodeParts mesh cell_parts n_parts = Some np -> ~ (exists m, uses mesh m k) ->
  nth_error np k = Some n_parts.
Proof.
  intros W Lc Lk E Hn.
  destruct (GetNodeParts_correct mesh cell_parts n_parts n_cells W Lc) as (np' & E' & L & G).
  rewrite E in E'. inversion E'; subst np'.
  destruct (G k Lk) as (p & Hp & _ & _ & [->|(m & Hu & _)]); auto. exfalso. eauto.
Qed.
