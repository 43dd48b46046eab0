From Coq Require Import List Arith ZArith Lia Bool.
From Verif Require Import Arrays Model_Cgns Model_Mapper Spec_Mesh.
Import ListNotations.

(** ** inverse index pairs *)
Record inv_pair (n : nat) (n2o o2n : list nat) : Prop := {
  ip_len1 : length n2o = n;
  ip_len2 : length o2n = n;
  ip_inv : forall i k, nth_error n2o i = Some k <-> nth_error o2n k = Some i
}.

Lemma inv_pair_id n : inv_pair n (seq 0 n) (seq 0 n).
Proof.
  constructor; try apply seq_length.
  assert (H : forall i k, nth_error (seq 0 n) i = Some k -> nth_error (seq 0 n) k = Some i).
  { intros i k H. pose proof (nth_error_some_lt _ _ _ H) as L. rewrite seq_length in L.
    rewrite nth_error_seq in H by auto. inversion H; subst. rewrite nth_error_seq; auto. }
  intros; split; apply H.
Qed.

Lemma inv_pair_lt1 n a b : inv_pair n a b -> forall i k, nth_error a i = Some k -> k < n.
Proof.
  intros H i k Hi. apply (ip_inv _ _ _ H) in Hi. apply nth_error_some_lt in Hi.
  rewrite (ip_len2 _ _ _ H) in Hi. auto.
Qed.

Lemma inv_pair_lt2 n a b : inv_pair n a b -> forall i k, nth_error b i = Some k -> k < n.
Proof.
  intros H i k Hi. apply (ip_inv _ _ _ H) in Hi. apply nth_error_some_lt in Hi.
  rewrite (ip_len1 _ _ _ H) in Hi. auto.
Qed.

Lemma seq_add a n : seq a n = map (Nat.add a) (seq 0 n).
Proof.
  revert a; induction n as [|n IH]; intros a; simpl; auto. f_equal; [lia|].
  rewrite (IH (S a)), (IH 1), map_map. apply map_ext. intros; lia.
Qed.

(** ** closed form of the node tables *)
Fixpoint cn_m2c (z : nat) (os : list (list nat * list nat)) : list (nat * nat) :=
  match os with
  | [] => []
  | (n2o, o2n) :: t => map (fun k => (z, S k)) o2n ++ cn_m2c (S z) t
  end.

Fixpoint cn_c2m (off : nat) (os : list (list nat * list nat)) : list (list nat) :=
  match os with
  | [] => []
  | (n2o, o2n) :: t => map (Nat.add off) n2o :: cn_c2m (off + length n2o) t
  end.

Definition ok_order (o : list nat * list nat) : Prop :=
  inv_pair (length (fst o)) (fst o) (snd o).

Lemma nth_error_map_inv {A B} (f : A -> B) l i y :
  nth_error (map f l) i = Some y -> exists x, nth_error l i = Some x /\ y = f x.
Proof.
  rewrite nth_error_map. destruct (nth_error l i) as [x|]; simpl; [|discriminate].
  intros E; inversion E; eauto.
Qed.

Lemma cn_c2m_ge os : forall off k i v,
  (do nodes <- nth_error (cn_c2m off os) k; at1 nodes i) = Some v -> off <= v.
Proof.
  induction os as [|[n2o o2n] t IH]; intros off k i v H.
  - destruct k; discriminate.
  - destruct k as [|k]; simpl in H.
    + destruct i as [|i]; [discriminate|]. simpl in H.
      apply nth_error_map_inv in H. destruct H as (x & _ & ->). lia.
    + apply IH in H. lia.
Qed.

Lemma cn_m2c_ge os : forall z0 m z i, nth_error (cn_m2c z0 os) m = Some (z, i) -> z0 <= z.
Proof.
  induction os as [|[n2o o2n] t IH]; intros z0 m z i H; simpl in H.
  - destruct m; discriminate.
  - destruct (Nat.lt_ge_cases m (length (map (fun k => (z0, S k)) o2n))) as [L|L].
    + rewrite nth_error_app1 in H by auto. apply nth_error_map_inv in H.
      destruct H as (x & _ & E). inversion E; auto.
    + rewrite nth_error_app2 in H by auto. apply IH in H. lia.
Qed.

Lemma cn_inverse os : Forall ok_order os -> forall z0 off m z i,
  nth_error (cn_m2c z0 os) m = Some (z, i) <->
  z0 <= z /\ (do nodes <- nth_error (cn_c2m off os) (z - z0); at1 nodes i) = Some (off + m).
Proof.
  induction 1 as [|[n2o o2n] t Ho _ IH]; intros z0 off m z i.
  - simpl. split; [destruct m; discriminate|]. intros [_ H]. destruct (z - z0); discriminate.
  - unfold ok_order in Ho. cbn [fst snd] in Ho.
    cbn [cn_m2c cn_c2m].
    assert (Hl : length (map (fun k => (z0, S k)) o2n) = length n2o)
      by (rewrite map_length; apply (ip_len2 _ _ _ Ho)).
    destruct (Nat.lt_ge_cases m (length n2o)) as [L|L].
    + rewrite nth_error_app1 by lia. split; intros H.
      * apply nth_error_map_inv in H. destruct H as (k & Hk & E). inversion E; subst.
        split; auto. rewrite Nat.sub_diag. simpl. rewrite nth_error_map.
        apply (ip_inv _ _ _ Ho) in Hk. rewrite Hk. reflexivity.
      * destruct H as [Hz H]. destruct (z - z0) as [|d] eqn:Ed.
        -- assert (z = z0) by lia. subst z. simpl in H.
           destruct i as [|i]; [discriminate|]. simpl in H.
           apply nth_error_map_inv in H. destruct H as (x & Hx & E).
           assert (x = m) by lia. subst x.
           apply (ip_inv _ _ _ Ho) in Hx. rewrite nth_error_map, Hx. reflexivity.
        -- simpl in H. apply cn_c2m_ge in H. lia.
    + rewrite nth_error_app2 by lia. rewrite Hl.
      rewrite (IH (S z0) (off + length n2o)).
      replace (off + length n2o + (m - length n2o)) with (off + m) by lia.
      split; intros [Hz H].
      * split; [lia|]. replace (z - z0) with (S (z - S z0)) by lia. exact H.
      * destruct (z - z0) as [|d] eqn:Ed.
        -- simpl in H. destruct i as [|i]; [discriminate|]. simpl in H.
           apply nth_error_map_inv in H. destruct H as (x & Hx & E).
           apply (inv_pair_lt1 _ _ _ Ho) in Hx. lia.
        -- split; [lia|]. replace (z - S z0) with d by lia. exact H.
Qed.

(** ** closed form of the cell tables *)
Record sect_order := mkSO { so_cell : bool; so_first : nat; so_n2o : list nat; so_o2n : list nat }.

Definition so_size (o : sect_order) : nat := if so_cell o then length (so_n2o o) else 0.

Fixpoint cs_m2c' (z s : nat) (sos : list sect_order) : list (nat * nat * nat) :=
  match sos with
  | [] => []
  | o :: t =>
    (if so_cell o then map (fun k => (z, s, so_first o + k)) (so_o2n o) else [])
    ++ cs_m2c' z (S s) t
  end.

Fixpoint cs_c2m' (off : nat) (sos : list sect_order) : list (nat * list nat) :=
  match sos with
  | [] => []
  | o :: t =>
    (if so_cell o then (so_first o, map (Nat.add off) (so_n2o o)) else (0, []))
    :: cs_c2m' (off + so_size o) t
  end.

Definition sos_size (sos : list sect_order) : nat := fold_right (fun o a => so_size o + a) 0 sos.

Fixpoint cz_m2c (z : nat) (zos : list (list sect_order)) : list (nat * nat * nat) :=
  match zos with
  | [] => []
  | sos :: t => cs_m2c' z 1 sos ++ cz_m2c (S z) t
  end.

Fixpoint cz_c2m (off : nat) (zos : list (list sect_order)) : list (list (nat * list nat)) :=
  match zos with
  | [] => []
  | sos :: t => cs_c2m' off sos :: cz_c2m (off + sos_size sos) t
  end.

Definition ok_so (o : sect_order) : Prop :=
  inv_pair (length (so_n2o o)) (so_n2o o) (so_o2n o).

Definition shifted_at (v : nat * list nat) (c : nat) : option nat :=
  let '(shift, data) := v in if c <? shift then None else nth_error data (c - shift).

Lemma cs_m2c'_length z sos : forall s, Forall ok_so sos ->
  length (cs_m2c' z s sos) = sos_size sos.
Proof.
  induction sos as [|o t IH]; intros s H; simpl; auto.
  inversion H as [|? ? Ho Ht]; subst. rewrite app_length, IH by auto.
  unfold so_size. destruct (so_cell o); simpl; auto.
  rewrite map_length, (ip_len2 _ _ _ Ho). auto.
Qed.

Lemma cs_c2m'_bound sos : Forall ok_so sos -> forall off k c v,
  (do e <- nth_error (cs_c2m' off sos) k; shifted_at e c) = Some v ->
  off <= v < off + sos_size sos.
Proof.
  induction 1 as [|o t Ho _ IH]; intros off k c v H.
  - destruct k; discriminate.
  - cbn [cs_c2m' sos_size fold_right] in *. fold (sos_size t). destruct k as [|k]; simpl in H.
    + unfold so_size. destruct (so_cell o); simpl in H.
      * destruct (c <? so_first o); [discriminate|].
        apply nth_error_map_inv in H. destruct H as (x & Hx & ->).
        apply (inv_pair_lt1 _ _ _ Ho) in Hx. lia.
      * destruct (c - 0); discriminate.
    + apply IH in H. unfold so_size in *. destruct (so_cell o); lia.
Qed.

Lemma cs_inverse z sos : Forall ok_so sos -> forall s0 off m z' s c,
  nth_error (cs_m2c' z s0 sos) m = Some (z', s, c) <->
  z' = z /\ s0 <= s /\
  (do e <- nth_error (cs_c2m' off sos) (s - s0); shifted_at e c) = Some (off + m).
Proof.
  induction 1 as [|o t Ho Ht IH]; intros s0 off m z' s c.
  - simpl. split; [destruct m; discriminate|]. intros (_ & _ & H). destruct (s - s0); discriminate.
  - cbn [cs_m2c' cs_c2m'].
    assert (Hl : length (if so_cell o then map (fun k => (z, s0, so_first o + k)) (so_o2n o) else [])
             = so_size o).
    { unfold so_size. destruct (so_cell o); auto. rewrite map_length. apply (ip_len2 _ _ _ Ho). }
    destruct (Nat.lt_ge_cases m (so_size o)) as [L|L].
    + rewrite nth_error_app1 by lia. unfold so_size in *.
      destruct (so_cell o) eqn:Ec; [|lia]. split; intros H.
      * apply nth_error_map_inv in H. destruct H as (k & Hk & E). inversion E; subst.
        repeat split; auto. rewrite Nat.sub_diag. simpl.
        destruct (Nat.ltb_spec (so_first o + k) (so_first o)); [lia|].
        replace (so_first o + k - so_first o) with k by lia.
        rewrite nth_error_map. apply (ip_inv _ _ _ Ho) in Hk. rewrite Hk. reflexivity.
      * destruct H as (-> & Hs & H). destruct (s - s0) as [|d] eqn:Ed.
        -- assert (s = s0) by lia. subst s. simpl in H.
           destruct (Nat.ltb_spec c (so_first o)); [discriminate|].
           apply nth_error_map_inv in H. destruct H as (x & Hx & E).
           assert (x = m) by lia. subst x.
           apply (ip_inv _ _ _ Ho) in Hx. rewrite nth_error_map, Hx. simpl.
           do 2 f_equal. lia.
        -- simpl in H. apply cs_c2m'_bound in H; auto. lia.
    + rewrite nth_error_app2 by lia. rewrite Hl.
      rewrite (IH (S s0) (off + so_size o)).
      replace (off + so_size o + (m - so_size o)) with (off + m) by lia.
      split; intros (Hz & Hs & H).
      * split; [auto|]. split; [lia|]. replace (s - s0) with (S (s - S s0)) by lia. exact H.
      * split; [auto|]. destruct (s - s0) as [|d] eqn:Ed.
        -- exfalso. simpl in H. unfold so_size in *. destruct (so_cell o); simpl in H.
           ++ destruct (c <? so_first o); [discriminate|].
              apply nth_error_map_inv in H. destruct H as (x & Hx & E).
              apply (inv_pair_lt1 _ _ _ Ho) in Hx. lia.
           ++ destruct (c - 0); discriminate.
        -- split; [lia|]. replace (s - S s0) with d by lia. exact H.
Qed.

Lemma cz_c2m_ge zos : Forall (Forall ok_so) zos -> forall off k s c v,
  (do sects <- nth_error (cz_c2m off zos) k; do e <- at1 sects s; shifted_at e c) = Some v ->
  off <= v.
Proof.
  induction 1 as [|sos t Ho _ IH]; intros off k s c v H.
  - destruct k; discriminate.
  - destruct k as [|k]; simpl in H.
    + destruct s as [|s]; [discriminate|]. apply (cs_c2m'_bound sos Ho) in H. lia.
    + apply IH in H. lia.
Qed.

Lemma cz_inverse zos : Forall (Forall ok_so) zos -> forall z0 off m z s c,
  nth_error (cz_m2c z0 zos) m = Some (z, s, c) <->
  z0 <= z /\
  (do sects <- nth_error (cz_c2m off zos) (z - z0); do e <- at1 sects s; shifted_at e c)
    = Some (off + m).
Proof.
  induction 1 as [|sos t Ho Ht IH]; intros z0 off m z s c.
  - simpl. split; [destruct m; discriminate|]. intros (_ & H). destruct (z - z0); discriminate.
  - cbn [cz_m2c cz_c2m].
    pose proof (cs_m2c'_length z0 sos 1 Ho) as Hl.
    destruct (Nat.lt_ge_cases m (sos_size sos)) as [L|L].
    + rewrite nth_error_app1 by lia. rewrite (cs_inverse z0 sos Ho 1 off).
      split.
      * intros (-> & Hs & H). split; auto. rewrite Nat.sub_diag. simpl.
        destruct s as [|s]; [lia|]. simpl in *. rewrite Nat.sub_0_r in H. exact H.
      * intros (Hz & H). destruct (z - z0) as [|d] eqn:Ed.
        -- assert (z = z0) by lia. simpl in H. destruct s as [|s]; [discriminate|].
           simpl in *. rewrite Nat.sub_0_r. repeat split; auto. lia.
        -- simpl in H. apply cz_c2m_ge in H; auto. lia.
    + rewrite nth_error_app2 by lia. rewrite Hl, (IH (S z0) (off + sos_size sos)).
      replace (off + sos_size sos + (m - sos_size sos)) with (off + m) by lia.
      split; intros (Hz & H).
      * split; [lia|]. replace (z - z0) with (S (z - S z0)) by lia. exact H.
      * destruct (z - z0) as [|d] eqn:Ed.
        -- exfalso. simpl in H. destruct s as [|s]; [discriminate|].
           apply (cs_c2m'_bound sos Ho) in H. lia.
        -- split; [lia|]. replace (z - S z0) with d by lia. exact H.
Qed.

(** ** the loops of [Map] in closed form *)
Lemma map_nodes_closed i_zone n : forall m2c nodes k,
  map_nodes i_zone n (m2c, nodes, k)
    = (m2c ++ map (fun i => (i_zone, i)) (seq 1 n), nodes ++ seq k n, k + n).
Proof.
  unfold map_nodes. generalize 1 as f. induction n as [|n IH]; intros f m2c nodes k; simpl.
  - rewrite !app_nil_r, Nat.add_0_r. reflexivity.
  - rewrite IH. rewrite <- !app_assoc. simpl. f_equal. lia.
Qed.

Lemma map_cells_closed i_zone i_sect npe n : forall first cs acc,
  map_cells i_zone i_sect first n npe (cs, acc)
    = (mkCS (cs_m2c cs ++ map (fun c => (i_zone, i_sect, c)) (seq first n))
            (cs_ptr cs ++ map (fun k => cs_val cs + npe * S k) (seq 0 n))
            (cs_val cs + npe * n) (cs_idx cs),
       acc ++ seq (length (cs_m2c cs)) n).
Proof.
  unfold map_cells. induction n as [|n IH]; intros first cs acc.
  - simpl. rewrite !app_nil_r, Nat.mul_0_r, Nat.add_0_r. destruct cs; reflexivity.
  - cbn [seq fold_left]. rewrite IH. cbn [cs_m2c cs_ptr cs_val cs_idx].
    rewrite <- !app_assoc, app_length. cbn [length app map].
    f_equal; [f_equal|].
    + f_equal. cbn [app]. f_equal; [lia|]. rewrite <- seq_shift, map_map.
      apply map_ext. intros k. lia.
    + lia.
    + do 2 f_equal. f_equal. lia.
Qed.

Definition is_cell (cell_dim : Z) (s : Section) : bool := Z.eqb (s_dim s) cell_dim.

Lemma CheckTypeDim_is_cell cell_dim n s : (cell_dim = 2 \/ cell_dim = 3)%Z ->
  wf_section n cell_dim s -> CheckTypeDim (s_type s) cell_dim = is_cell cell_dim s.
Proof.
  intros Hd [Ht Hdim _ _ _]. unfold is_cell, CheckTypeDim.
  destruct (s_type s); simpl in *; try congruence; inversion Hdim as [E];
    destruct Hd; subst; reflexivity.
Qed.

Definition so_id (cell_dim : Z) (s : Section) : sect_order :=
  mkSO (is_cell cell_dim s) (s_first s) (seq 0 (s_count s)) (seq 0 (s_count s)).

Lemma so_size_id cell_dim s : so_size (so_id cell_dim s) = if is_cell cell_dim s then s_count s else 0.
Proof. unfold so_size; simpl. rewrite seq_length. reflexivity. Qed.

(** rows contributed by the sections, as METIS node numbers *)
Definition rows_of (off : nat) (s : Section) : list (list nat) :=
  map (fun k => map (fun id => off + id - 1)
                  (firstn (s_npe s) (skipn (s_npe s * k) (s_conn s)))) (seq 0 (s_count s)).

Lemma concat_chunks npe n : forall (l : list nat), length l = npe * n ->
  concat (map (fun k => firstn npe (skipn (npe * k) l)) (seq 0 n)) = l.
Proof.
  induction n as [|n IH]; intros l Hl.
  - rewrite Nat.mul_0_r in Hl. destruct l; [reflexivity|discriminate].
  - cbn [seq map concat]. rewrite Nat.mul_0_r. simpl (skipn 0 l).
    rewrite <- seq_shift, map_map.
    etransitivity; [|apply (firstn_skipn npe l)]. f_equal.
    etransitivity; [|apply (IH (skipn npe l))].
    + f_equal. apply map_ext. intros k. rewrite skipn_skipn. do 2 f_equal. lia.
    + rewrite skipn_length. rewrite Hl. lia.
Qed.

Lemma concat_rows_of off n cell_dim s : wf_section n cell_dim s ->
  concat (rows_of off s) = map (fun id => off + id - 1) (s_conn s).
Proof.
  intros W. unfold rows_of.
  rewrite <- (map_map (fun k => firstn (s_npe s) (skipn (s_npe s * k) (s_conn s)))
               (map (fun id => off + id - 1))).
  rewrite <- concat_map, concat_chunks; auto. apply (ws_conn _ _ _ W).
Qed.

(** CSR state described by the list of rows *)
Definition csr_ok (rows : list (list nat)) (cs : CellState) : Prop :=
  cs_val cs = length (concat rows) /\ cs_idx cs = concat rows /\
  cs_ptr cs = map (fun k => length (concat (firstn k rows))) (seq 0 (S (length rows))) /\
  length (cs_m2c cs) = length rows.

Lemma concat_length_const npe (rows : list (list nat)) :
  Forall (fun r => length r = npe) rows -> length (concat rows) = npe * length rows.
Proof.
  induction 1 as [|r t Hr _ IH]; simpl; [lia|]. rewrite app_length, IH, Hr. lia.
Qed.

Lemma csr_extend rows new npe z s first n cs : csr_ok rows cs ->
  length new = n -> Forall (fun r => length r = npe) new ->
  csr_ok (rows ++ new)
    (mkCS (cs_m2c cs ++ map (fun c => (z, s, c)) (seq first n))
          (cs_ptr cs ++ map (fun k => cs_val cs + npe * S k) (seq 0 n))
          (cs_val cs + npe * n) (cs_idx cs ++ concat new)).
Proof.
  intros (Hv & Hi & Hp & Hm) Hn Hf. unfold csr_ok. cbn [cs_m2c cs_ptr cs_val cs_idx].
  rewrite !app_length, map_length, seq_length, concat_app.
  rewrite app_length, (concat_length_const npe new) by auto.
  repeat split; try congruence.
  - rewrite Hp. rewrite Hn.
    replace (S (length rows + n)) with (S (length rows) + n) by lia.
    rewrite seq_app, map_app. f_equal.
    + apply map_ext_in. intros k Hk. apply in_seq in Hk.
      rewrite firstn_app. replace (k - length rows) with 0 by lia. simpl.
      rewrite app_nil_r. reflexivity.
    + replace (0 + S (length rows)) with (S (length rows) + 0) by lia.
      assert (E : forall a, seq (a + 0) n = map (Nat.add a) (seq 0 n)).
      { intros a. clear. rewrite Nat.add_0_r. revert a. induction n as [|n IH]; intros a; simpl.
        - reflexivity.
        - f_equal; [lia|]. rewrite IH. rewrite <- seq_shift, map_map.
          apply map_ext. intros; lia. }
      rewrite E, map_map. apply map_ext_in. intros k Hk. apply in_seq in Hk.
      rewrite Hv. rewrite firstn_app.
      rewrite firstn_all2 by lia.
      replace (S (length rows) + k - length rows) with (S k) by lia.
      rewrite concat_app, app_length. f_equal.
      rewrite (concat_length_const npe).
      * rewrite firstn_length. f_equal. lia.
      * apply Forall_forall. intros r Hr. rewrite Forall_forall in Hf. apply Hf.
        rewrite <- (firstn_skipn (S k) new). apply in_or_app; auto.
Qed.

Lemma rows_of_length off s : length (rows_of off s) = s_count s.
Proof. unfold rows_of. rewrite map_length, seq_length. reflexivity. Qed.

Lemma rows_of_const off n cell_dim s : wf_section n cell_dim s ->
  Forall (fun r => length r = s_npe s) (rows_of off s).
Proof.
  intros W. apply Forall_forall. intros r Hr. apply in_map_iff in Hr.
  destruct Hr as (k & <- & Hk). apply in_seq in Hk.
  rewrite map_length, firstn_length, skipn_length, (ws_conn _ _ _ W).
  nia.
Qed.

Definition cell_rows (cell_dim : Z) (off : nat) (ss : list Section) : list (list nat) :=
  concat (map (fun s => if is_cell cell_dim s then rows_of off s else []) ss).

Lemma map_sections_closed cell_dim z n_prev n ss :
  (cell_dim = 2 \/ cell_dim = 3)%Z -> Forall (wf_section n cell_dim) ss ->
  forall s0 cs rows, csr_ok rows cs ->
  exists cs', map_sections cell_dim z s0 n_prev ss cs
      = Some (cs', cs_c2m' (length (cs_m2c cs)) (map (so_id cell_dim) ss)) /\
    cs_m2c cs' = cs_m2c cs ++ cs_m2c' z s0 (map (so_id cell_dim) ss) /\
    csr_ok (rows ++ cell_rows cell_dim n_prev ss) cs'.
Proof.
  intros Hd. induction 1 as [|s t Hs _ IH]; intros s0 cs rows Hcsr.
  - exists cs. simpl. unfold cell_rows. simpl. rewrite !app_nil_r. auto.
  - cbn [map_sections map cs_c2m' cs_m2c' so_cell so_first so_n2o so_o2n so_id].
    unfold map_section. rewrite (CheckTypeDim_is_cell cell_dim n s Hd Hs).
    unfold cell_rows. cbn [map concat]. fold (cell_rows cell_dim n_prev t).
    fold (so_id cell_dim s). rewrite so_size_id.
    destruct (is_cell cell_dim s) eqn:Ec.
    + rewrite map_cells_closed. cbn [app cs_m2c cs_ptr cs_val cs_idx].
      unfold slice. rewrite (ws_conn _ _ _ Hs), Nat.add_0_l, Nat.leb_refl.
      cbn [bind]. simpl (skipn 0 (s_conn s)).
      rewrite <- (ws_conn _ _ _ Hs), firstn_all.
      rewrite <- (concat_rows_of n_prev n cell_dim s Hs).
      set (cs1 := mkCS _ _ _ _).
      assert (H1 : csr_ok (rows ++ rows_of n_prev s) cs1).
      { unfold cs1. rewrite (ws_conn _ _ _ Hs). apply csr_extend; auto; [apply rows_of_length|eapply rows_of_const; eauto]. }
      destruct (IH (S s0) cs1 _ H1) as (cs' & E & Em & Hc).
      rewrite E. cbn [bind]. exists cs'.
      assert (L1 : length (cs_m2c cs1) = length (cs_m2c cs) + s_count s).
      { unfold cs1. cbn [cs_m2c]. rewrite app_length, map_length, seq_length. reflexivity. }
      split; [|split].
      * rewrite L1, <- seq_add. reflexivity.
      * rewrite Em. unfold cs1. cbn [cs_m2c]. rewrite <- app_assoc. f_equal. f_equal.
        rewrite seq_add, map_map. reflexivity.
      * rewrite app_assoc. exact Hc.
    + cbn [bind]. destruct (IH (S s0) cs _ Hcsr) as (cs' & E & Em & Hc).
      rewrite E. cbn [bind]. exists cs'. rewrite Nat.add_0_r. auto.
Qed.

Definition no_id {A} (zn : Zone A) : list nat * list nat :=
  (seq 0 (CountNodes zn), seq 0 (CountNodes zn)).
Definition zo_id {A} (cell_dim : Z) (zn : Zone A) : list sect_order :=
  map (so_id cell_dim) (z_sections zn).

Fixpoint zones_rows {A} (cell_dim : Z) (off : nat) (zs : list (Zone A)) : list (list nat) :=
  match zs with
  | [] => []
  | zn :: t => cell_rows cell_dim off (z_sections zn) ++ zones_rows cell_dim (off + CountNodes zn) t
  end.

Lemma ok_so_id cell_dim ss : Forall ok_so (map (so_id cell_dim) ss).
Proof.
  apply Forall_forall. intros o Ho. apply in_map_iff in Ho. destruct Ho as (s & <- & _).
  unfold ok_so, so_id. simpl. rewrite seq_length. apply inv_pair_id.
Qed.

Lemma map_zones_closed {A} cell_dim (zs : list (Zone A)) :
  (cell_dim = 2 \/ cell_dim = 3)%Z -> Forall (wf_zone cell_dim) zs ->
  forall z0 off m2c cs rows, length m2c = off -> csr_ok rows cs ->
  exists n cs', map_zones cell_dim z0 off zs off m2c cs
     = Some (n, m2c ++ cn_m2c z0 (map no_id zs), cs',
             cn_c2m off (map no_id zs), cz_c2m (length (cs_m2c cs)) (map (zo_id cell_dim) zs)) /\
    n = length (m2c ++ cn_m2c z0 (map no_id zs)) /\
    cs_m2c cs' = cs_m2c cs ++ cz_m2c z0 (map (zo_id cell_dim) zs) /\
    csr_ok (rows ++ zones_rows cell_dim off zs) cs'.
Proof.
  intros Hd. induction 1 as [|zn t Hz _ IH]; intros z0 off m2c cs rows Hoff Hcsr.
  - exists off, cs. simpl. rewrite !app_nil_r. auto.
  - cbn [map_zones]. rewrite map_nodes_closed. cbn [app].
    destruct (map_sections_closed cell_dim z0 off (CountNodes zn) (z_sections zn) Hd
                (wz_sections _ _ Hz) 1 cs rows Hcsr) as (cs1 & E1 & Em1 & Hc1).
    rewrite E1. cbn [bind].
    set (m2c1 := m2c ++ map (fun i => (z0, i)) (seq 1 (CountNodes zn))).
    assert (L1 : length m2c1 = off + CountNodes zn)
      by (unfold m2c1; rewrite app_length, map_length, seq_length; lia).
    destruct (IH (S z0) (off + CountNodes zn) m2c1 cs1 _ L1 Hc1)
      as (n & cs' & E2 & En & Em2 & Hc2).
    rewrite E2. cbn [bind].
    exists n, cs'. cbn [map zones_rows].
    change (no_id zn) with (seq 0 (CountNodes zn), seq 0 (CountNodes zn)).
    cbn [cn_m2c cn_c2m cz_c2m cz_m2c]. rewrite seq_length.
    assert (Eb : m2c1 ++ cn_m2c (S z0) (map no_id t)
      = m2c ++ map (fun k => (z0, S k)) (seq 0 (CountNodes zn)) ++ cn_m2c (S z0) (map no_id t)).
    { unfold m2c1. rewrite <- app_assoc. do 2 f_equal. rewrite (seq_add 1), map_map.
      reflexivity. }
    assert (Ls : length (cs_m2c cs1) = length (cs_m2c cs) + sos_size (zo_id cell_dim zn)).
    { rewrite Em1, app_length, cs_m2c'_length; auto. apply ok_so_id. }
    split; [|split; [|split]].
    + rewrite <- (seq_add off), <- Eb, <- Ls. reflexivity.
    + rewrite <- Eb. auto.
    + rewrite Em2, Em1, <- app_assoc. reflexivity.
    + rewrite app_assoc. auto.
Qed.

Theorem Map_closed {A} cell_dim (zs : list (Zone A)) :
  (cell_dim = 2 \/ cell_dim = 3)%Z -> Forall (wf_zone cell_dim) zs ->
  exists mesh, Map cell_dim zs
    = Some (mkMapper (cn_m2c 1 (map no_id zs)) (cz_m2c 1 (map (zo_id cell_dim) zs))
              (cn_c2m 0 (map no_id zs)) (cz_c2m 0 (map (zo_id cell_dim) zs)), mesh) /\
    let rows := zones_rows cell_dim 0 zs in
    mm_nodes mesh = length (cn_m2c 1 (map no_id zs)) /\
    mm_index mesh = concat rows /\
    mm_range mesh = map (fun k => length (concat (firstn k rows))) (seq 0 (S (length rows))) /\
    length (cz_m2c 1 (map (zo_id cell_dim) zs)) = length rows.
Proof.
  intros Hd Hw.
  destruct (map_zones_closed cell_dim zs Hd Hw 1 0 [] (mkCS [] [0] 0 []) [] eq_refl)
    as (n & cs' & E & En & Em & Hc1 & Hc2 & Hc3 & Hc4).
  { repeat split. }
  unfold Map. rewrite E. cbn [bind cs_m2c length app] in *.
  rewrite En, Nat.eqb_refl. eexists. split; [rewrite Em; reflexivity|].
  cbn [mm_nodes mm_index mm_range]. repeat split; auto. rewrite <- Em. auto.
Qed.

(** ** validity of any mapper in closed form *)
Definition closed_mapper (os : list (list nat * list nat)) (zos : list (list sect_order)) : Mapper :=
  mkMapper (cn_m2c 1 os) (cz_m2c 1 zos) (cn_c2m 0 os) (cz_c2m 0 zos).

Lemma closed_node_of os zos z i : node_of (closed_mapper os zos) z i =
  match z with O => None | S z' => do nodes <- nth_error (cn_c2m 0 os) z'; at1 nodes i end.
Proof. destruct z; reflexivity. Qed.

Lemma closed_cell_of os zos z s c : cell_of (closed_mapper os zos) z s c =
  match z with O => None | S z' =>
    do sects <- nth_error (cz_c2m 0 zos) z'; do e <- at1 sects s; shifted_at e c end.
Proof.
  destruct z; [reflexivity|]. unfold cell_of. cbn [closed_mapper c2m_cells at1].
  destruct (nth_error (cz_c2m 0 zos) z) as [sects|]; [|reflexivity]. cbn [bind].
  destruct (at1 sects s) as [[shift data]|]; reflexivity.
Qed.

Lemma closed_nodes_iff os zos : Forall ok_order os -> forall m z i,
  nth_error (m2c_nodes (closed_mapper os zos)) m = Some (z, i)
  <-> node_of (closed_mapper os zos) z i = Some m.
Proof.
  intros H m z i. rewrite closed_node_of. cbn [closed_mapper m2c_nodes].
  rewrite (cn_inverse os H 1 0). destruct z as [|z]; simpl.
  - split; [lia|discriminate].
  - rewrite Nat.sub_0_r. split; [tauto|]. split; [lia|auto].
Qed.

Lemma closed_cells_iff os zos : Forall (Forall ok_so) zos -> forall m z s c,
  nth_error (m2c_cells (closed_mapper os zos)) m = Some (z, s, c)
  <-> cell_of (closed_mapper os zos) z s c = Some m.
Proof.
  intros H m z s c. rewrite closed_cell_of. cbn [closed_mapper m2c_cells].
  rewrite (cz_inverse zos H 1 0). destruct z as [|z]; simpl.
  - split; [lia|discriminate].
  - rewrite Nat.sub_0_r. split; [tauto|]. split; [lia|auto].
Qed.

Lemma cn_c2m_nth os : forall off k o, nth_error os k = Some o ->
  exists off', nth_error (cn_c2m off os) k = Some (map (Nat.add off') (fst o)).
Proof.
  induction os as [|[a b] t IH]; intros off [|k] o H; try discriminate; simpl in *.
  - inversion H; subst. eauto.
  - apply IH; auto.
Qed.

Lemma cn_c2m_length os : forall off, length (cn_c2m off os) = length os.
Proof. induction os as [|[a b] t IH]; intros off; simpl; auto. Qed.

Lemma cs_c2m'_nth sos : forall off k o, nth_error sos k = Some o ->
  exists off', nth_error (cs_c2m' off sos) k
    = Some (if so_cell o then (so_first o, map (Nat.add off') (so_n2o o)) else (0, [])).
Proof.
  induction sos as [|a t IH]; intros off [|k] o H; try discriminate; simpl in *.
  - inversion H; subst. eauto.
  - apply IH; auto.
Qed.

Lemma cs_c2m'_length sos : forall off, length (cs_c2m' off sos) = length sos.
Proof. induction sos as [|a t IH]; intros off; simpl; auto. Qed.

Lemma cz_c2m_nth zos : forall off k sos, nth_error zos k = Some sos ->
  exists off', nth_error (cz_c2m off zos) k = Some (cs_c2m' off' sos).
Proof.
  induction zos as [|a t IH]; intros off [|k] o H; try discriminate; simpl in *.
  - inversion H; subst. eauto.
  - apply IH; auto.
Qed.

Lemma cz_c2m_length zos : forall off, length (cz_c2m off zos) = length zos.
Proof. induction zos as [|a t IH]; intros off; simpl; auto. Qed.

(** orders that fit the zones *)
Definition fits_so (cell_dim : Z) (s : Section) (o : sect_order) : Prop :=
  so_cell o = is_cell cell_dim s /\ so_first o = s_first s /\ length (so_n2o o) = s_count s.

Definition fits {A} (cell_dim : Z) (zn : Zone A) (o : list nat * list nat)
    (sos : list sect_order) : Prop :=
  length (fst o) = CountNodes zn /\ Forall2 (fits_so cell_dim) (z_sections zn) sos.

Lemma Forall2_nth {A B} (R : A -> B -> Prop) l1 l2 k : Forall2 R l1 l2 ->
  match nth_error l1 k, nth_error l2 k with
  | Some a, Some b => R a b
  | None, None => True
  | _, _ => False
  end.
Proof.
  intros H. revert k. induction H as [|a b t u Hab _ IH]; intros [|k]; simpl; auto.
  apply IH.
Qed.

Theorem closed_valid {A} cell_dim (zs : list (Zone A)) os zos :
  Forall ok_order os -> Forall (Forall ok_so) zos ->
  Forall2 (fun zn o => length (fst o) = CountNodes zn) zs os ->
  Forall2 (fun zn sos => Forall2 (fits_so cell_dim) (z_sections zn) sos) zs zos ->
  valid_mapper cell_dim zs (closed_mapper os zos).
Proof.
  intros Ho Hz Fn Fc. constructor.
  - apply closed_nodes_iff; auto.
  - intros z i. rewrite closed_node_of. destruct z as [|z].
    { split; [intros [m H]; discriminate|]. intros (zn & H & _); discriminate. }
    cbn [at1]. pose proof (Forall2_nth _ _ _ z Fn) as HF.
    destruct (nth_error zs z) as [zn|] eqn:Ez; destruct (nth_error os z) as [o|] eqn:Eo;
      try contradiction.
    + destruct (cn_c2m_nth os 0 z o Eo) as (off' & E). rewrite E. cbn [bind].
      split.
      * intros [m Hm]. exists zn. split; auto. destruct i as [|i]; [discriminate|].
        simpl in Hm. apply nth_error_some_lt in Hm. rewrite map_length in Hm. lia.
      * intros (zn' & E' & Hi). inversion E'; subst zn'. destruct i as [|i]; [lia|].
        simpl. rewrite nth_error_map.
        destruct (nth_error_lt_some (fst o) i) as [x Hx]; [lia|]. rewrite Hx. simpl. eauto.
    + apply nth_error_None in Eo. assert (En : nth_error (cn_c2m 0 os) z = None)
        by (apply nth_error_None; rewrite cn_c2m_length; auto).
      rewrite En. cbn [bind]. split; [intros [m H]; discriminate|].
      intros (zn & H & _); discriminate.
  - apply closed_cells_iff; auto.
  - intros z s c. rewrite closed_cell_of. destruct z as [|z].
    { split; [intros [m H]; discriminate|]. intros (zn & ? & H & _); discriminate. }
    cbn [at1]. pose proof (Forall2_nth _ _ _ z Fc) as HF.
    destruct (nth_error zs z) as [zn|] eqn:Ez; destruct (nth_error zos z) as [sos|] eqn:Eo;
      try contradiction.
    + destruct (cz_c2m_nth zos 0 z sos Eo) as (off' & E). rewrite E. cbn [bind].
      destruct s as [|s].
      { split; [intros [m H]; discriminate|].
        intros (zn' & sec & E1 & E2 & _). discriminate. }
      cbn [at1]. pose proof (Forall2_nth _ _ _ s HF) as HS.
      destruct (nth_error (z_sections zn) s) as [sec|] eqn:Es;
        destruct (nth_error sos s) as [o|] eqn:Eso; try contradiction.
      * destruct (cs_c2m'_nth sos off' s o Eso) as (off2 & E2). rewrite E2. cbn [bind].
        destruct HS as (Hc & Hf & Hl). rewrite Hc.
        unfold is_cell. destruct (Z.eqb_spec (s_dim sec) cell_dim) as [Ed|Ed]; simpl.
        -- rewrite Hf. split.
           ++ intros [m Hm]. exists zn, sec. repeat split; auto.
              ** destruct (Nat.ltb_spec c (s_first sec)); [discriminate|auto].
              ** destruct (Nat.ltb_spec c (s_first sec)); [discriminate|].
                 apply nth_error_some_lt in Hm. rewrite map_length in Hm. lia.
           ++ intros (zn' & sec' & E1 & E3 & _ & Hr). inversion E1; subst zn'.
              cbn [at1] in E3. rewrite Es in E3. inversion E3; subst sec'.
              destruct (Nat.ltb_spec c (s_first sec)); [lia|].
              rewrite nth_error_map.
              destruct (nth_error_lt_some (so_n2o o) (c - s_first sec)) as [x Hx]; [lia|].
              rewrite Hx. simpl. eauto.
        -- split.
           ++ intros [m Hm]. destruct (c - 0); discriminate.
           ++ intros (zn' & sec' & E1 & E3 & Ed' & _). inversion E1; subst zn'.
              rewrite Es in E3. inversion E3; subst sec'. contradiction.
      * apply nth_error_None in Eso.
        assert (En : nth_error (cs_c2m' off' sos) s = None)
          by (apply nth_error_None; rewrite cs_c2m'_length; auto).
        rewrite En. cbn [bind]. split; [intros [m H]; discriminate|].
        intros (zn' & sec' & E1 & E3 & _). inversion E1; subst zn'.
        cbn [at1] in E3. congruence.
    + apply nth_error_None in Eo. assert (En : nth_error (cz_c2m 0 zos) z = None)
        by (apply nth_error_None; rewrite cz_c2m_length; auto).
      rewrite En. cbn [bind]. split; [intros [m H]; discriminate|].
      intros (zn & ? & H & _); discriminate.
Qed.

(** ** [IsValid] answers true for every valid mapper *)
Lemma nodes_valid_true mp : forall l m,
  (forall k z i, nth_error l k = Some (z, i) -> node_of mp z i = Some (m + k)) ->
  nodes_valid mp m l = Some true.
Proof.
  induction l as [|[z i] t IH]; intros m H; simpl; auto.
  rewrite (H 0 z i eq_refl). cbn [bind]. rewrite Nat.add_0_r, Nat.eqb_refl.
  apply IH. intros k z' i' Hk. rewrite (H (S k) z' i' Hk). f_equal. lia.
Qed.

Lemma cells_valid_true mp : forall l m,
  (forall k z s c, nth_error l k = Some (z, s, c) -> cell_of mp z s c = Some (m + k)) ->
  cells_valid mp m l = Some true.
Proof.
  induction l as [|[[z s] c] t IH]; intros m H; simpl; auto.
  rewrite (H 0 z s c eq_refl). cbn [bind]. rewrite Nat.add_0_r, Nat.eqb_refl.
  apply IH. intros k z' s' c' Hk. rewrite (H (S k) z' s' c' Hk). f_equal. lia.
Qed.

Lemma valid_IsValid {A} cell_dim (zs : list (Zone A)) mp :
  valid_mapper cell_dim zs mp -> IsValid mp = Some true.
Proof.
  intros V. unfold IsValid. rewrite nodes_valid_true.
  - cbn [bind]. apply cells_valid_true. intros k z s c Hk. apply (vm_cells _ _ _ V) in Hk. auto.
  - intros k z i Hk. apply (vm_nodes _ _ _ V) in Hk. auto.
Qed.

Lemma ok_order_id {A} (zs : list (Zone A)) : Forall ok_order (map no_id zs).
Proof.
  apply Forall_forall. intros o Ho. apply in_map_iff in Ho. destruct Ho as (zn & <- & _).
  unfold ok_order, no_id. simpl. rewrite seq_length. apply inv_pair_id.
Qed.

Lemma ok_zo_id {A} cell_dim (zs : list (Zone A)) :
  Forall (Forall ok_so) (map (zo_id cell_dim) zs).
Proof.
  apply Forall_forall. intros o Ho. apply in_map_iff in Ho. destruct Ho as (zn & <- & _).
  apply ok_so_id.
Qed.

Lemma fits_id {A} (zs : list (Zone A)) :
  Forall2 (fun zn o => length (fst o) = CountNodes zn) zs (map no_id zs).
Proof.
  induction zs as [|zn t IH]; simpl; constructor; auto. simpl. apply seq_length.
Qed.

Lemma fits_so_id cell_dim ss : Forall2 (fits_so cell_dim) ss (map (so_id cell_dim) ss).
Proof.
  induction ss as [|s t IH]; simpl; constructor; auto.
  repeat split. simpl. apply seq_length.
Qed.

Lemma fits_zo_id {A} cell_dim (zs : list (Zone A)) :
  Forall2 (fun zn sos => Forall2 (fits_so cell_dim) (z_sections zn) sos) zs
    (map (zo_id cell_dim) zs).
Proof.
  induction zs as [|zn t IH]; simpl; constructor; auto. apply fits_so_id.
Qed.

Theorem Map_valid {A} cell_dim (zs : list (Zone A)) :
  (cell_dim = 2 \/ cell_dim = 3)%Z -> Forall (wf_zone cell_dim) zs ->
  exists mp mesh, Map cell_dim zs = Some (mp, mesh) /\
    valid_mapper cell_dim zs mp /\ IsValid mp = Some true.
Proof.
  intros Hd Hw. destruct (Map_closed cell_dim zs Hd Hw) as (mesh & E & _).
  eexists _, mesh. split; [exact E|].
  assert (V : valid_mapper cell_dim zs
    (closed_mapper (map no_id zs) (map (zo_id cell_dim) zs))).
  { apply closed_valid; [apply ok_order_id|apply ok_zo_id|apply fits_id|apply fits_zo_id]. }
  split; [exact V|]. eapply valid_IsValid; eauto.
Qed.

(** ** the CSR mesh *)
Lemma nth_error_firstn_lt {A} (l : list A) n k : k < n -> nth_error (firstn n l) k = nth_error l k.
Proof.
  revert n k; induction l as [|a t IH]; intros [|n] [|k] H; simpl; auto; try lia.
  apply IH. lia.
Qed.

Lemma csr_row_rows mesh rows m r :
  mm_index mesh = concat rows ->
  mm_range mesh = map (fun k => length (concat (firstn k rows))) (seq 0 (S (length rows))) ->
  nth_error rows m = Some r -> csr_row mesh m = Some r.
Proof.
  intros Hi Hr Hm. pose proof (nth_error_some_lt _ _ _ Hm) as L.
  unfold csr_row. rewrite Hr.
  rewrite !nth_error_map, !nth_error_seq by lia. simpl (0 + m). cbn [option_map bind].
  apply nth_error_split in Hm. destruct Hm as (l1 & l2 & -> & <-).
  rewrite Hi.
  replace (0 + S (length l1)) with (length (l1 ++ [r])) by (rewrite app_length; simpl; lia).
  rewrite firstn_app, firstn_all, Nat.sub_diag. simpl (firstn 0 _). rewrite app_nil_r.
  replace (l1 ++ r :: l2) with ((l1 ++ [r]) ++ l2) by (rewrite <- app_assoc; reflexivity).
  rewrite (firstn_app (length (l1 ++ [r]))), firstn_all, Nat.sub_diag.
  simpl (firstn 0 l2). rewrite app_nil_r.
  rewrite !concat_app, app_length. simpl. rewrite app_nil_r.
  destruct (Nat.leb_spec (length (concat l1)) (length (concat l1) + length r)); [|lia].
  replace (length (concat l1) + length r - length (concat l1)) with (length r) by lia.
  rewrite <- app_assoc. apply slice_app.
Qed.

Lemma cell_row_nth n cell_dim s k : wf_section n cell_dim s -> k < s_count s ->
  cell_row s (s_first s + k)
    = Some (firstn (s_npe s) (skipn (s_npe s * k) (s_conn s))).
Proof.
  intros W Hk. unfold cell_row.
  destruct (Nat.ltb_spec (s_first s + k) (s_first s)); [lia|].
  replace (s_first s + k - s_first s) with k by lia.
  apply slice_some. rewrite (ws_conn _ _ _ W). nia.
Qed.

(** rows of a list of sections against the cell table *)
Lemma cell_rows_nth cell_dim off n z ss : Forall (wf_section n cell_dim) ss ->
  forall s0 m z' s c, nth_error (cs_m2c' z s0 (map (so_id cell_dim) ss)) m = Some (z', s, c) ->
  exists sec row, z' = z /\ s0 <= s /\ nth_error ss (s - s0) = Some sec /\
    cell_row sec c = Some row /\
    nth_error (cell_rows cell_dim off ss) m = Some (map (fun id => off + id - 1) row) /\
    Forall (fun id => 1 <= id <= n) row.
Proof.
  induction 1 as [|s t Hs _ IH]; intros s0 m z' s' c H.
  - destruct m; discriminate.
  - cbn [map cs_m2c' so_id so_cell so_first so_o2n] in H.
    unfold cell_rows. cbn [map concat]. fold (cell_rows cell_dim off t).
    set (blk := if is_cell cell_dim s then rows_of off s else []).
    set (keys := if is_cell cell_dim s
                 then map (fun k => (z, s0, s_first s + k)) (seq 0 (s_count s)) else []) in H.
    assert (L : length blk = length keys).
    { unfold blk, keys. destruct (is_cell cell_dim s); auto.
      rewrite rows_of_length, map_length, seq_length. auto. }
    destruct (Nat.lt_ge_cases m (length keys)) as [Lt|Ge].
    + rewrite nth_error_app1 in H by auto. rewrite nth_error_app1 by lia.
      unfold blk, keys in *. destruct (is_cell cell_dim s); [|simpl in Lt; lia].
      rewrite map_length, seq_length in Lt.
      rewrite nth_error_map, nth_error_seq in H by auto. simpl in H. inversion H; subst.
      exists s. eexists. rewrite Nat.sub_diag. split; [auto|]. split; [auto|].
      split; [reflexivity|]. split; [eapply cell_row_nth; eauto|]. split.
      * unfold rows_of. rewrite nth_error_map, nth_error_seq by auto. reflexivity.
      * pose proof (ws_ids _ _ _ Hs) as Hids. rewrite Forall_forall in *.
        intros id Hid. apply Hids.
        rewrite <- (firstn_skipn (s_npe s * m) (s_conn s)). apply in_or_app. right.
        rewrite <- (firstn_skipn (s_npe s) (skipn (s_npe s * m) (s_conn s))).
        apply in_or_app. left. auto.
    + rewrite nth_error_app2 in H by auto. rewrite nth_error_app2 by lia. rewrite L.
      apply IH in H. destruct H as (sec & row & -> & Hs' & E & R).
      exists sec, row. split; [auto|]. split; [lia|]. split; [|exact R].
      replace (s' - s0) with (S (s' - S s0)) by lia. exact E.
Qed.

Lemma node_of_id {A} (zs : list (Zone A)) zos : forall z zn i, nth_error zs z = Some zn ->
  1 <= i <= CountNodes zn ->
  node_of (closed_mapper (map no_id zs) zos) (S z) i
    = Some (length (cn_m2c 1 (map no_id (firstn z zs))) + i - 1).
Proof.
  intros z zn i Hz Hi. rewrite closed_node_of.
  assert (G : forall z0 off, nth_error (cn_c2m off (map no_id zs)) z
     = Some (seq (off + length (cn_m2c z0 (map no_id (firstn z zs)))) (CountNodes zn))).
  { clear Hi. revert z Hz. induction zs as [|a t IH]; intros [|z] Hz z0 off; try discriminate.
    - simpl in Hz. inversion Hz; subst. simpl. rewrite Nat.add_0_r, <- seq_add. reflexivity.
    - simpl in Hz. cbn [map nth_error firstn].
      change (no_id a) with (seq 0 (CountNodes a), seq 0 (CountNodes a)).
      cbn [cn_c2m cn_m2c nth_error]. rewrite seq_length.
      rewrite (IH z Hz (S z0)). rewrite app_length, map_length, seq_length. do 2 f_equal. lia. }
  rewrite (G 1 0). cbn [bind]. destruct i as [|i]; [lia|]. cbn [at1].
  rewrite nth_error_seq by lia. f_equal. lia.
Qed.

Lemma zones_rows_nth {A} cell_dim (all : list (Zone A)) zos : forall zs pre,
  all = pre ++ zs -> Forall (wf_zone cell_dim) zs ->
  forall m z s c,
  nth_error (cz_m2c (S (length pre)) (map (zo_id cell_dim) zs)) m = Some (z, s, c) ->
  exists r, nth_error (zones_rows cell_dim (length (cn_m2c 1 (map no_id pre))) zs) m = Some r /\
    metis_row all (closed_mapper (map no_id all) zos) z s c = Some r.
Proof.
  induction zs as [|zn t IH]; intros pre E W m z s c H.
  - destruct m; discriminate.
  - inversion W as [|? ? Wz Wt]; subst.
    cbn [map cz_m2c] in H. cbn [zones_rows].
    set (off := length (cn_m2c 1 (map no_id pre))) in *.
    assert (L : length (cell_rows cell_dim off (z_sections zn))
       = length (cs_m2c' (S (length pre)) 1 (zo_id cell_dim zn))).
    { rewrite cs_m2c'_length by apply ok_so_id. unfold cell_rows, zo_id.
      clear. induction (z_sections zn) as [|s t IH]; simpl; auto.
      rewrite app_length, IH. f_equal. fold (so_id cell_dim s). rewrite so_size_id.
      destruct (is_cell cell_dim s); auto. apply rows_of_length. }
    destruct (Nat.lt_ge_cases m (length (cs_m2c' (S (length pre)) 1 (zo_id cell_dim zn)))) as [Lt|Ge].
    + rewrite nth_error_app1 in H by auto. rewrite nth_error_app1 by lia.
      destruct (cell_rows_nth cell_dim off (CountNodes zn) (S (length pre)) _
                  (wz_sections _ _ Wz) 1 m z s c H)
        as (sec & row & -> & Hs & Esec & Erow & Enth & Hids).
      eexists. split; [exact Enth|]. unfold metis_row. cbn [at1].
      assert (Ez : nth_error (pre ++ zn :: t) (length pre) = Some zn).
      { rewrite nth_error_app2, Nat.sub_diag by lia. reflexivity. }
      rewrite Ez. cbn [bind]. destruct s as [|s]; [lia|]. cbn [at1].
      simpl in Esec. rewrite Nat.sub_0_r in Esec. rewrite Esec. cbn [bind].
      rewrite Erow. cbn [bind].
      apply mapM_map. intros id Hid. rewrite Forall_forall in Hids.
      rewrite (node_of_id _ _ _ zn id Ez) by (apply Hids; auto).
      rewrite firstn_app, firstn_all, Nat.sub_diag. simpl (firstn 0 _). rewrite app_nil_r.
      reflexivity.
    + rewrite nth_error_app2 in H by auto. rewrite nth_error_app2 by lia. rewrite L.
      specialize (IH (pre ++ [zn])). rewrite <- app_assoc in IH. specialize (IH eq_refl Wt).
      rewrite app_length in IH. simpl (length [zn]) in IH. rewrite Nat.add_1_r in IH.
      destruct (IH _ z s c H) as (r & Er & Em). exists r. split; auto.
      rewrite <- Er. f_equal. f_equal.
      clear. unfold off. rewrite map_app. simpl.
      generalize 1. induction pre as [|a p IH]; intros k; simpl.
      * rewrite app_nil_r, map_length, seq_length. reflexivity.
      * rewrite !app_length, <- IH. lia.
Qed.

(** C05: every METIS cell row is the METIS image of the CGNS row *)
Theorem Map_rows {A} cell_dim (zs : list (Zone A)) mp mesh :
  (cell_dim = 2 \/ cell_dim = 3)%Z -> Forall (wf_zone cell_dim) zs ->
  Map cell_dim zs = Some (mp, mesh) ->
  length (mm_range mesh) = S (length (m2c_cells mp)) /\
  nth_error (mm_range mesh) 0 = Some 0 /\
  nth_error (mm_range mesh) (length (m2c_cells mp)) = Some (length (mm_index mesh)) /\
  mm_nodes mesh = length (m2c_nodes mp) /\
  (forall i a b, nth_error (mm_range mesh) i = Some a ->
     nth_error (mm_range mesh) (S i) = Some b -> a <= b) /\
  (forall m z s c, nth_error (m2c_cells mp) m = Some (z, s, c) ->
     exists row, csr_row mesh m = Some row /\ metis_row zs mp z s c = Some row).
Proof.
  intros Hd Hw HM. destruct (Map_closed cell_dim zs Hd Hw) as (mesh' & E & Hn & Hi & Hr & Hl).
  rewrite E in HM. inversion HM; subst mp mesh'; clear HM.
  cbn [m2c_cells m2c_nodes].
  set (rows := zones_rows cell_dim 0 zs) in *.
  split; [|split; [|split; [|split; [|split]]]].
  - rewrite Hr, map_length, seq_length. lia.
  - rewrite Hr. simpl. reflexivity.
  - rewrite Hr, Hl, nth_error_map, nth_error_seq by lia. simpl. rewrite firstn_all, Hi. reflexivity.
  - auto.
  - intros i a b Ha Hb. rewrite Hr in Ha, Hb.
    pose proof (nth_error_some_lt _ _ _ Hb) as Lb. rewrite map_length, seq_length in Lb.
    rewrite nth_error_map, nth_error_seq in Ha by lia.
    rewrite nth_error_map, nth_error_seq in Hb by lia. simpl (0 + _) in *. cbn [option_map] in *.
    inversion Ha; inversion Hb; subst.
    replace (S i) with (i + 1) by lia.
    generalize rows. clear. induction i as [|i IH]; intros rows.
    + simpl. lia.
    + destruct rows as [|r t]; simpl; [lia|]. rewrite !app_length. specialize (IH t). lia.
  - intros m z s c H.
    destruct (zones_rows_nth cell_dim zs (map (zo_id cell_dim) zs) zs [] eq_refl Hw m z s c H)
      as (r & Er & Em). exists r. split; auto.
    eapply csr_row_rows; eauto.
Qed.
