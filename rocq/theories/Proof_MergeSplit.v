From Coq Require Import String List Arith ZArith Lia Permutation Sorted Bool.
From Verif Require Import Arrays Model_Cgns Model_Mapper Model_Metis Model_Partition Model_Sections
  Spec_Mesh Spec_Sections Proof_Sections.
Import ListNotations.

Lemma code_ok t : code_type (type_code t) = Some t.
Proof. destruct t; reflexivity. Qed.

Lemma type_eqb_spec t t' : reflect (t = t') (type_eqb t t').
Proof. destruct t, t'; simpl; constructor; congruence. Qed.

Lemma foldM_app {S X} (f : S -> X -> option S) l1 l2 s :
  foldM f (l1 ++ l2) s = bind (foldM f l1 s) (foldM f l2).
Proof.
  revert s. induction l1 as [|x t IH]; intros s; simpl; auto.
  destruct (f s x); simpl; auto.
Qed.

(** ** The rows of a homogeneous section *)
Lemma rows_exist n : forall c (l : list nat), length l = n * c ->
  exists rows, length rows = c /\ concat rows = l /\ Forall (fun r => length r = n) rows.
Proof.
  induction c as [|c IH]; intros l H.
  - exists []. rewrite Nat.mul_0_r in H. destruct l; [auto|discriminate].
  - destruct (IH (skipn n l)) as (rows & A & B & C).
    { rewrite skipn_length. lia. }
    exists (firstn n l :: rows). simpl. repeat split; auto.
    + rewrite B. apply firstn_skipn.
    + constructor; auto. rewrite firstn_length. lia.
Qed.

Lemma concat_length_const n (rows : list (list nat)) :
  Forall (fun r => length r = n) rows -> length (concat rows) = n * length rows.
Proof. induction 1; simpl; [lia|]. rewrite app_length. lia. Qed.

Lemma rows_read s : homogeneous s -> exists rows, length rows = s_count s /\
  concat rows = s_conn s /\ Forall (fun r => length r = s_npe s) rows /\
  forall k row, nth_error rows k = Some row -> cell_row s (s_first s + k) = Some row.
Proof.
  intros (H1 & H2 & H3). destruct (rows_exist _ _ _ H3) as (rows & A & B & C).
  exists rows. repeat split; auto. intros k row Hk. unfold cell_row.
  destruct (Nat.ltb_spec (s_first s + k) (s_first s)); [lia|].
  replace (s_first s + k - s_first s) with k by lia.
  destruct (nth_error_split _ _ Hk) as (p & q & -> & Hp).
  apply Forall_app in C. destruct C as (C1 & C2). inversion C2 as [|? ? C3 C4]; subst.
  rewrite <- B, concat_app. simpl concat.
  unfold s_npe in *.
  rewrite <- (concat_length_const _ _ C1). rewrite <- C3 at 1. apply slice_app.
Qed.

(** ** The mixed section *)
Definition enc (c : ElementType * list nat) : list nat := type_code (fst c) :: snd c.
Definition encs (cells : list (ElementType * list nat)) : list nat := concat (map enc cells).

Definition mixed_ok (mx : Section) (cells : list (ElementType * list nat)) : Prop :=
  s_type mx = MIXED /\ s_conn mx = encs cells /\ s_count mx = length cells /\
  length (s_offset mx) = S (length cells) /\
  (forall k, k <= length cells ->
     nth_error (s_offset mx) k = Some (length (encs (firstn k cells)))) /\
  Forall (fun c => length (snd c) = CountNodesByType (fst c)) cells.

Lemma merge_cells s rows : Forall (fun r => length r = s_npe s) rows ->
  forall a mx cells, mixed_ok mx cells ->
  (forall k row, nth_error rows k = Some row -> cell_row s (a + k) = Some row) ->
  exists mx', foldM (merge_cell s) (seq a (length rows)) mx = Some mx' /\
    mixed_ok mx' (cells ++ map (pair (s_type s)) rows).
Proof.
  induction 1 as [|row t Hr HF IH]; intros a mx cells M H; simpl.
  - exists mx. rewrite app_nil_r. auto.
  - unfold merge_cell at 1. pose proof (H 0 row eq_refl) as H0. rewrite Nat.add_0_r in H0.
    rewrite H0. cbn [bind].
    set (mx1 := mkSection _ _ _ _ _ _ _ _).
    destruct (IH (S a) mx1 (cells ++ [(s_type s, row)])) as (mx' & E & M').
    + destruct M as (M1 & M2 & M3 & M4 & M5 & M6). subst mx1. unfold mixed_ok. simpl.
      assert (EN : s_conn mx ++ type_code (s_type s) :: row = encs (cells ++ [(s_type s, row)])).
      { unfold encs. rewrite map_app, concat_app, M2. simpl. rewrite app_nil_r. auto. }
      rewrite EN. rewrite !app_length, M4. simpl. repeat apply conj; auto; try lia.
      * intros k Hk. destruct (Nat.eq_dec k (S (length cells))) as [->|N].
        { rewrite nth_error_app2 by lia. rewrite M4, Nat.sub_diag. cbn [nth_error].
          rewrite firstn_all2; auto. rewrite app_length. simpl. lia. }
        rewrite nth_error_app1 by lia. rewrite M5 by lia. rewrite firstn_app.
        replace (k - length cells) with 0 by lia. simpl. rewrite app_nil_r. auto.
      * apply Forall_app. split; auto.
    + intros k r Hk. rewrite Nat.add_succ_comm. apply (H (S k)). auto.
    + exists mx'. split; auto. rewrite <- app_assoc in M'. auto.
Qed.

(** the cells of a list of sections *)
Definition cells_in (cells : list (ElementType * list nat)) (ss : list Section) : Prop :=
  exists rs, Forall2 (fun s rows => length rows = s_count s /\ concat rows = s_conn s) ss rs /\
    cells = concat (map (fun sr => map (pair (s_type (fst sr))) (snd sr)) (combine ss rs)).

Lemma cells_in_snoc cells ss s rows : cells_in cells ss ->
  length rows = s_count s -> concat rows = s_conn s ->
  cells_in (cells ++ map (pair (s_type s)) rows) (ss ++ [s]).
Proof.
  intros (rs & F & ->) H1 H2. exists (rs ++ [rows]). split.
  - apply Forall2_app; auto.
  - assert (L : length ss = length rs) by (clear -F; induction F; simpl; auto).
    clear -L. revert rs L. induction ss as [|x t IH]; intros [|r rs] L; try discriminate; simpl.
    + rewrite app_nil_r. auto.
    + rewrite <- app_assoc, IH; auto.
Qed.

Definition rows_of (t : ElementType) (cells : list (ElementType * list nat)) :=
  filter (fun c => type_eqb (fst c) t) cells.

Lemma cells_together cells ss t : cells_in cells ss ->
  together ss t = (t, length (rows_of t cells), concat (map snd (rows_of t cells))).
Proof.
  intros (rs & F & ->). unfold together.
  induction F as [|s rows ss rs (H1 & H2) F IH]; simpl; auto.
  unfold rows_of in *. rewrite filter_app, map_app, concat_app, app_length.
  assert (K : filter (fun c => type_eqb (fst c) t) (map (pair (s_type s)) rows) =
    if type_eqb (s_type s) t then map (pair (s_type s)) rows else []).
  { clear. induction rows as [|r u IH]; simpl.
    - destruct (type_eqb (s_type s) t); auto.
    - rewrite IH. destruct (type_eqb (s_type s) t); auto. }
  rewrite K. inversion IH as [[I1 I2]]. destruct (type_eqb (s_type s) t); simpl.
  - rewrite I1, I2, map_length, map_map. simpl. rewrite map_id, H1, H2. auto.
  - rewrite I1, I2. auto.
Qed.

Lemma cells_types cells ss t : cells_in cells ss ->
  (exists row, In (t, row) cells) <-> exists s, In s ss /\ s_type s = t /\ 1 <= s_count s.
Proof.
  intros (rs & F & ->).
  induction F as [|s rows ss rs (H1 & H2) F IH]; simpl.
  - split; [intros (? & [])|intros (? & [] & _)].
  - split.
    + intros (row & Hr). apply in_app_or in Hr. destruct Hr as [Hr|Hr].
      * apply in_map_iff in Hr. destruct Hr as (r & E & Hr). inversion E; subst.
        exists s. repeat split; auto. destruct rows; [destruct Hr|]. simpl in H1. lia.
      * destruct (proj1 IH) as (x & A & B & C); [eauto|]. exists x; auto.
    + intros (x & [->|Hx] & E & N).
      * destruct rows as [|r rows]; [simpl in H1; lia|].
        exists r. apply in_or_app. left. simpl. left. congruence.
      * destruct (proj2 IH) as (row & Hr); [eauto|]. exists row. apply in_or_app. auto.
Qed.

(** ** [MergeSections] *)
Lemma merge_loop set ss : Forall homogeneous ss ->
  forall mx kept cells sel, mixed_ok mx cells -> cells_in cells sel ->
    (s_first mx = 1) -> 
    exists mx' cells', foldM (fun st s =>
             if selected set s then do mx <- merge_section (fst st) s; Some (mx, snd st)
             else Some (fst st, snd st ++ [s])) ss (mx, kept)
      = Some (mx', kept ++ filter (fun s => negb (selected set s)) ss) /\
      mixed_ok mx' cells' /\ cells_in cells' (sel ++ filter (selected set) ss).
Proof.
  induction 1 as [|s t Hs HF IH]; intros mx kept cells sel M C F1.
  - exists mx, cells. simpl. rewrite !app_nil_r. auto.
  - cbn [foldM filter fst snd]. destruct (selected set s) eqn:E.
    + unfold merge_section at 1. set (mx1 := mkSection _ _ _ _ _ _ _ _).
      destruct (rows_read s Hs) as (rows & R1 & R2 & R3 & R4).
      assert (M1 : mixed_ok mx1 cells) by exact M.
      destruct (merge_cells s rows R3 (s_first s) mx1 cells M1 R4) as (mx' & E' & M').
      rewrite R1 in E'. rewrite E'. cbn [bind].
      assert (F' : s_first mx' = 1).
      { assert (K : forall l m m', s_first m = 1 -> foldM (merge_cell s) l m = Some m' -> s_first m' = 1).
        { clear. induction l as [|x l IH]; simpl; intros m m' H1 H2; [inversion H2; subst; auto|].
          unfold merge_cell at 1 in H2. destruct (cell_row s x); [|discriminate].
          cbn [bind] in H2. eapply IH; [|exact H2]. auto. }
        eapply K; [|exact E']. auto. }
      destruct (IH mx' kept _ _ M' (cells_in_snoc _ _ _ _ C R1 R2) F') as (mx2 & c2 & A1 & A2 & A3).
      exists mx2, c2. rewrite <- app_assoc in A3. auto.
    + cbn [bind negb]. destruct (IH mx (kept ++ [s]) cells sel M C F1) as (mx2 & c2 & A1 & A2 & A3).
      exists mx2, c2. rewrite <- app_assoc in A1. auto.
Qed.

(** ** [SplitSections] *)
Lemma mixed_read mx cells k t row : mixed_ok mx cells -> nth_error cells k = Some (t, row) ->
  mixed_row mx (s_first mx + k) = Some (t, row).
Proof.
  intros (M1 & M2 & M3 & M4 & M5 & M6) Hk. unfold mixed_row.
  destruct (Nat.ltb_spec (s_first mx + k) (s_first mx)); [lia|].
  replace (s_first mx + k - s_first mx) with k by lia.
  rewrite M5 by (apply nth_error_some_lt in Hk; lia). cbn [bind].
  destruct (nth_error_split _ _ Hk) as (p & q & -> & Hp). subst k.
  apply Forall_app in M6. destruct M6 as (_ & M6). inversion M6 as [|? ? L6 _]; subst.
  simpl in L6.
  rewrite firstn_app, firstn_all, Nat.sub_diag. simpl firstn. rewrite app_nil_r.
  assert (EC : s_conn mx = encs p ++ type_code t :: row ++ encs q).
  { rewrite M2. unfold encs. rewrite map_app, concat_app. auto. }
  rewrite EC. rewrite nth_error_app2, Nat.sub_diag by lia. cbn [nth_error bind].
  rewrite code_ok. cbn [bind]. rewrite <- L6.
  replace (encs p ++ type_code t :: row ++ encs q) with ((encs p ++ [type_code t]) ++ row ++ encs q)
    by (rewrite <- app_assoc; auto).
  replace (S (length (encs p))) with (length (encs p ++ [type_code t]))
    by (rewrite app_length; simpl; lia).
  rewrite slice_app. auto.
Qed.

(** what [type_to_sections] holds after [cells] *)
Definition table_ok (m : list (ElementType * Section)) (cells : list (ElementType * list nat)) :=
  NoDup (map fst m) /\
  (forall t, In t (map fst m) <-> exists row, In (t, row) cells) /\
  Forall (fun ts => shape (snd ts) =
    (fst ts, length (rows_of (fst ts) cells), concat (map snd (rows_of (fst ts) cells)))) m.

Lemma rows_of_snoc t cells t' row : rows_of t (cells ++ [(t', row)]) =
  rows_of t cells ++ if type_eqb t' t then [(t', row)] else [].
Proof. unfold rows_of. rewrite filter_app. simpl. destruct (type_eqb t' t); auto. Qed.

Lemma type_eqb_refl t : type_eqb t t = true.
Proof. destruct t; reflexivity. Qed.

Lemma add_row_ok i_sect t row d : dim t = Some d ->
  forall m n, exists m', add_row i_sect n m t row = Some m' /\
    ((In t (map fst m) /\ map fst m' = map fst m) \/
     (~ In t (map fst m) /\ map fst m' = map fst m ++ [t])) /\
    forall cells, (~ In t (map fst m) -> rows_of t cells = []) -> NoDup (map fst m) ->
      Forall (fun ts => shape (snd ts) =
        (fst ts, length (rows_of (fst ts) cells), concat (map snd (rows_of (fst ts) cells)))) m ->
      Forall (fun ts => shape (snd ts) =
        (fst ts, length (rows_of (fst ts) (cells ++ [(t, row)])),
         concat (map snd (rows_of (fst ts) (cells ++ [(t, row)]))))) m'.
Proof.
  intros Hd. induction m as [|[t' s] m IH]; intros n; cbn [add_row].
  - rewrite Hd. cbn [bind]. eexists. split; [reflexivity|]. split.
    + right. simpl. auto.
    + intros cells H _ _. constructor; auto. simpl. rewrite rows_of_snoc, type_eqb_refl, H by auto.
      simpl. rewrite app_nil_r. auto.
  - destruct (type_eqb_spec t t') as [<-|N].
    + eexists. split; [reflexivity|]. split; [left; simpl; auto|].
      intros cells _ ND F. simpl in ND. inversion ND as [|? ? N1 N2]; subst. inversion F as [|? ? F1 F2]; subst.
      constructor.
      * simpl in *. rewrite rows_of_snoc, type_eqb_refl, map_app, concat_app, app_length. simpl.
        unfold shape in *. simpl in *. inversion F1 as [[G1 G2 G3]]. rewrite G1, G2, G3.
        rewrite app_nil_r. f_equal. f_equal. lia.
      * rewrite Forall_forall in *. intros [t2 s2] H2. specialize (F2 _ H2). simpl in *.
        rewrite rows_of_snoc. destruct (type_eqb_spec t t2) as [<-|N3].
        { exfalso. apply N1. apply (in_map fst) in H2. exact H2. }
        rewrite app_nil_r. auto.
    + destruct (IH (S n)) as (m' & E & K & HF). rewrite E. cbn [bind].
      eexists. split; [reflexivity|]. split.
      * simpl. destruct K as [[K1 K2]|[K1 K2]]; [left|right].
        -- split; auto. f_equal; auto.
        -- split; [intros [?|?]; [congruence|auto]|]. f_equal. auto.
      * intros cells HN ND F. simpl in ND. inversion ND as [|? ? N1 N2]; subst. inversion F as [|? ? F1 F2]; subst.
        constructor; auto.
        -- simpl in *. rewrite rows_of_snoc. destruct (type_eqb_spec t t') as [E1|N3]; [congruence|].
           rewrite app_nil_r. auto.
        -- apply HF; auto. intros H. apply HN. simpl. intros [?|?]; [congruence|auto].
Qed.

Lemma rows_of_nil t cells : ~ (exists row, In (t, row) cells) -> rows_of t cells = [].
Proof.
  intros H. unfold rows_of. apply filter_none. apply Forall_forall. intros [t' row] Hc. simpl.
  destruct (type_eqb_spec t' t) as [->|]; auto. exfalso. eauto.
Qed.

Lemma add_row_table i_sect t row d m cells : dim t = Some d -> table_ok m cells ->
  exists m', add_row i_sect 0 m t row = Some m' /\ table_ok m' (cells ++ [(t, row)]).
Proof.
  intros Hd (T1 & T2 & T3). destruct (add_row_ok i_sect t row d Hd m 0) as (m' & E & K & HF).
  exists m'. split; auto. unfold table_ok. repeat apply conj.
  - destruct K as [[K1 ->]|[K1 ->]]; auto.
    apply (Permutation_NoDup (l := t :: map fst m)); [apply Permutation_cons_append|].
    constructor; auto.
  - intros t'. transitivity (In t' (map fst m) \/ t' = t).
    + destruct K as [[K1 ->]|[K1 ->]].
      * split; auto. intros [?|E0]; subst; auto.
      * rewrite in_app_iff. simpl. intuition.
    + rewrite T2. split.
      * intros [(r & Hr)|E0]; [exists r|exists row; subst]; apply in_or_app; simpl; auto.
      * intros (r & Hr). apply in_app_or in Hr. destruct Hr as [Hr|[Hr|[]]]; eauto.
        inversion Hr; auto.
  - apply HF; auto. intros N. apply rows_of_nil. rewrite <- T2. auto.
Qed.


Lemma split_cells i_sect mx todo : forall done a m,
  table_ok m done -> (forall k c, nth_error todo k = Some c -> mixed_row mx (a + k) = Some c) ->
  Forall (fun c => exists d, dim (fst c) = Some d) todo ->
  exists m', foldM (fun m i => do (t, row) <- mixed_row mx i; add_row i_sect 0 m t row)
               (seq a (length todo)) m = Some m' /\ table_ok m' (done ++ todo).
Proof.
  induction todo as [|[t row] todo IH]; intros done a m T H F; simpl.
  - exists m. rewrite app_nil_r. auto.
  - pose proof (H 0 _ eq_refl) as H0. rewrite Nat.add_0_r in H0. rewrite H0. cbn [bind].
    inversion F as [|? ? (d & Hd) F2]; subst.
    destruct (add_row_table i_sect t row d m done Hd T) as (m1 & E & T1). rewrite E. cbn [bind].
    destruct (IH (done ++ [(t, row)]) (S a) m1 T1) as (m' & E' & T'); auto.
    { intros k c Hk. rewrite Nat.add_succ_comm. apply (H (S k)). auto. }
    exists m'. rewrite <- app_assoc in T'. auto.
Qed.

Lemma split_loop n ss : forall m kept, Forall (fun s => s_type s <> MIXED) ss ->
  foldM (fun st s =>
     if (type_eqb (s_type s) MIXED && selected [] s)%bool
     then do m <- split_section n (fst st) s; Some (m, snd st)
     else Some (fst st, snd st ++ [s])) ss (m, kept) = Some (m, kept ++ ss).
Proof.
  induction ss as [|s t IH]; intros m kept H; simpl.
  - rewrite app_nil_r. auto.
  - inversion H; subst. destruct (type_eqb_spec (s_type s) MIXED); [congruence|]. simpl.
    rewrite IH; auto. rewrite <- app_assoc. auto.
Qed.

(** sorting, as used by the two functions *)
Lemma sort_step std_sort : (forall l, sort_contract before l (std_sort l)) ->
  forall l, exists r, SortSectionsByDim (std_sort l) l = Some r /\
    Permutation (map contents r) (map contents l) /\ consecutive 1 r /\
    map s_id r = seq 1 (length l) /\ StronglySorted (fun a b => (s_dim b <= s_dim a)%Z) r.
Proof.
  intros HC l. destruct (sort_ok l _ (HC l)) as (r & sorted & E & P & S & C & I & K & _ & _).
  exists r. repeat apply conj; auto.
  - rewrite C. apply Permutation_map. auto.
  - apply StronglySorted_unmap with (R2 := fun a b => (b <= a)%Z) (f := s_dim); auto.
    rewrite (contents_dim _ _ C). apply StronglySorted_map with (R1 := ordered); auto.
    intros a b [H|[H _]]; lia.
Qed.

Lemma contents_in l1 l2 x : Permutation (map contents l1) (map contents l2) -> In x l1 ->
  exists y, In y l2 /\ contents y = contents x.
Proof.
  intros P H. apply (in_map contents) in H. apply (Permutation_in _ P) in H.
  apply in_map_iff in H. destruct H as (y & E & Hy). eauto.
Qed.

Lemma perm_shape l1 l2 : Permutation (map contents l1) (map contents l2) ->
  Permutation (map shape l1) (map shape l2).
Proof.
  intros P.
  apply (Permutation_map (fun c => (snd (fst (fst c)), snd (fst (fst (fst (fst c)))), snd (fst c)))) in P.
  rewrite !map_map in P. exact P.
Qed.

Lemma homogeneous_contents x y : contents y = contents x -> homogeneous x -> homogeneous y.
Proof. unfold contents, homogeneous. intros H. inversion H as [[H1 H2 H3 H4 H5 H6]]. rewrite H2, H3, H4, H5. auto. Qed.

Lemma mixed_ok_contents x y cells : contents y = contents x -> mixed_ok x cells -> mixed_ok y cells.
Proof. unfold contents, mixed_ok. intros H. inversion H as [[H1 H2 H3 H4 H5 H6]]. rewrite H2, H4, H5, H6. auto. Qed.

Lemma cells_dims cells ss c : Forall homogeneous ss -> cells_in cells ss -> In c cells ->
  exists d, dim (fst c) = Some d.
Proof.
  intros F C Hc. destruct c as [t row].
  destruct (proj1 (cells_types cells ss t C)) as (s & Hs & E & _); [eauto|].
  rewrite Forall_forall in F. destruct (F s Hs) as (_ & D & _). simpl. subst t. eauto.
Qed.

Lemma split_found n l1 mx l2 m kept r : s_type mx = MIXED ->
  Forall (fun s => s_type s <> MIXED) l1 -> Forall (fun s => s_type s <> MIXED) l2 ->
  split_section n m mx = Some r ->
  foldM (fun st s =>
     if (type_eqb (s_type s) MIXED && selected [] s)%bool
     then do m <- split_section n (fst st) s; Some (m, snd st)
     else Some (fst st, snd st ++ [s])) (l1 ++ mx :: l2) (m, kept) = Some (r, kept ++ l1 ++ l2).
Proof.
  intros A B C Hr. rewrite foldM_app, split_loop by auto. cbn [bind foldM fst snd]. rewrite A.
  cbn [type_eqb selected andb]. rewrite Hr. cbn [bind]. rewrite split_loop by auto.
  rewrite app_assoc. auto.
Qed.

Theorem merge_split_ok std_sort hash_order set ss :
  (forall l, sort_contract before l (std_sort l)) ->
  (forall l, Permutation (hash_order l) l) ->
  Forall homogeneous ss ->
  exists m r types,
    MergeSections std_sort set ss = Some m /\ SplitSections std_sort hash_order [] m = Some r /\
    NoDup types /\
    (forall t, In t types <->
       exists s, In s ss /\ selected set s = true /\ s_type s = t /\ 1 <= s_count s) /\
    Permutation (map shape r)
      (map shape (filter (fun s => negb (selected set s)) ss) ++
       map (together (filter (selected set) ss)) types) /\
    consecutive 1 r /\ StronglySorted (fun a b => (s_dim b <= s_dim a)%Z) r.
Proof.
  intros HC HH HF.
  assert (M0 : mixed_ok empty_mixed []).
  { unfold mixed_ok, empty_mixed, encs. simpl. repeat apply conj; auto.
    intros [|k] Hk; [auto|lia]. }
  assert (C0 : cells_in [] []) by (exists []; split; auto).
  destruct (merge_loop set ss HF empty_mixed [] [] [] M0 C0 eq_refl) as (mx & cells & E & M & C).
  simpl app in E, C.
  set (kept := filter (fun s => negb (selected set s)) ss) in *.
  set (sel := filter (selected set) ss) in *.
  assert (HK : Forall homogeneous kept).
  { rewrite Forall_forall in *. intros x Hx. apply filter_In in Hx. apply HF. tauto. }
  assert (HS : Forall homogeneous sel).
  { rewrite Forall_forall in *. intros x Hx. apply filter_In in Hx. apply HF. tauto. }
  assert (NK : Forall (fun s => s_type s <> MIXED) kept).
  { eapply Forall_impl; [|exact HK]. intros s (A & _). auto. }
  assert (TS : forall t, (exists row, In (t, row) cells) <->
     exists s, In s ss /\ selected set s = true /\ s_type s = t /\ 1 <= s_count s).
  { intros t. rewrite (cells_types _ _ t C). unfold sel. split.
    - intros (s & A & B). apply filter_In in A. exists s; tauto.
    - intros (s & A & B & D). exists s. rewrite filter_In. tauto. }
  unfold MergeSections, SplitSections. rewrite E. cbn [bind].
  set (merged := if s_count mx =? 0 then kept else kept ++ [mx]).
  destruct (sort_step std_sort HC merged) as (m & Em & Pm & Cm & Im & Sm).
  destruct M as (M1 & M2 & M3 & M4 & M5 & M6).
  destruct (Nat.eqb_spec (s_count mx) 0) as [Z0|NZ].
  - (* nothing was merged *)
    destruct cells; [|simpl in M3; lia].
    assert (Nm : Forall (fun s => s_type s <> MIXED) m).
    { apply Forall_forall. intros x Hx. destruct (contents_in _ _ _ Pm Hx) as (y & Hy & Ey).
      unfold contents in Ey. rewrite Forall_forall in NK. specialize (NK _ Hy). congruence. }
    destruct (sort_step std_sort HC (m ++ hash_order [])) as (r & Er & Pr & Cr & Ir & Sr).
    exists m, r, []. split; [auto|]. split.
    { rewrite split_loop by auto. cbn [bind map snd app]. auto. }
    split; [constructor|]. split.
    { intros t. rewrite <- TS. split; [intros []|intros (row & [])]. }
    split; [|auto]. simpl map. rewrite app_nil_r.
    assert (HE : hash_order [] = []) by (apply Permutation_nil, Permutation_sym; auto).
    rewrite HE, app_nil_r in Pr.
    apply perm_shape. etransitivity; [exact Pr|exact Pm].
  - assert (Hin : exists y, In y m /\ contents y = contents mx).
    { apply (contents_in merged); [apply Permutation_sym; auto|]. unfold merged.
      apply in_or_app. right. left. auto. }
    destruct Hin as (y & Hy & Ey). apply in_split in Hy. destruct Hy as (l1 & l2 & ->).
    assert (MY : mixed_ok y cells).
    { eapply mixed_ok_contents; [exact Ey|]. unfold mixed_ok. auto 10. }
    assert (P12 : Permutation (map contents (l1 ++ l2)) (map contents kept)).
    { unfold merged in Pm. rewrite !map_app in Pm. simpl map in Pm. rewrite Ey in Pm.
      rewrite map_app.
      apply (Permutation_app_inv (map contents l1) (map contents l2) (map contents kept) [] (contents mx)) in Pm.
      rewrite app_nil_r in Pm. auto. }
    assert (N12 : Forall (fun s => s_type s <> MIXED) (l1 ++ l2)).
    { apply Forall_forall. intros x Hx. destruct (contents_in _ _ _ P12 Hx) as (z & Hz & Ez).
      unfold contents in Ez. rewrite Forall_forall in NK. specialize (NK _ Hz). congruence. }
    apply Forall_app in N12. destruct N12 as (N1 & N2).
    assert (T0 : table_ok [] []).
    { repeat split; simpl; try constructor; try tauto. intros (? & []). }
    destruct (split_cells (length (l1 ++ y :: l2)) y cells [] (s_first y) [] T0) as (tb & Etb & Ttb).
    { intros k [t row] Hk. eapply mixed_read; eauto. }
    { apply Forall_forall. intros c Hc. eapply cells_dims; eauto. }
    simpl app in Ttb.
    assert (SP : split_section (length (l1 ++ y :: l2)) [] y = Some tb).
    { unfold split_section. destruct MY as (_ & _ & Y3 & _). rewrite Y3. exact Etb. }
    destruct (sort_step std_sort HC ((l1 ++ l2) ++ hash_order (map snd tb))) as (r & Er & Pr & Cr & Ir & Sr).
    destruct Ttb as (T1 & T2 & T3).
    exists (l1 ++ y :: l2), r, (map fst tb). split; [auto|]. split.
    { rewrite (split_found _ l1 y l2 [] [] tb); auto. destruct MY; auto. }
    split; [auto|]. split; [intros t; rewrite T2; apply TS|]. split; [|auto].
    apply perm_shape in Pr. etransitivity; [exact Pr|]. rewrite (map_app shape (l1 ++ l2)).
    apply Permutation_app; [apply perm_shape; auto|].
    etransitivity; [apply Permutation_map; apply HH|].
    rewrite !map_map.
    assert (EQ : map (fun x => shape (snd x)) tb = map (fun x => together sel (fst x)) tb).
    { apply map_ext_in. intros x Hx. rewrite (cells_together _ _ _ C).
      rewrite Forall_forall in T3. apply T3. auto. }
    rewrite EQ. auto.
Qed.

(** ** Looking up names *)
Lemma substring_suffix p s : substring (String.length p) (String.length (p ++ s)) (p ++ s) = s.
Proof.
  assert (A : forall s n, String.length s <= n -> substring 0 n s = s).
  { induction s0 as [|c t IH]; intros [|n] H; simpl in *; auto; [lia|]. f_equal. apply IH. lia. }
  assert (B : forall n, String.length s <= n -> substring (String.length p) n (p ++ s) = s).
  { induction p as [|c p IH]; intros n H; simpl; auto. }
  apply B. clear. induction p; simpl; lia.
Qed.

Lemma string_app_nil_inv p s : (p ++ s)%string = s -> p = ""%string.
Proof.
  intros H. apply (f_equal String.length) in H.
  assert (L : forall a b, String.length (a ++ b) = String.length a + String.length b).
  { induction a; simpl; auto. }
  rewrite L in H. destruct p; auto. simpl in H. lia.
Qed.

Lemma string_app_length a b : String.length (a ++ b) = String.length a + String.length b.
Proof. induction a; simpl; auto. Qed.

Lemma substring_split s : forall n, n <= String.length s ->
  exists p, s = (p ++ substring n (String.length s) s)%string.
Proof.
  assert (A : forall s m, String.length s <= m -> substring 0 m s = s).
  { induction s0 as [|c t IH]; intros [|m] H; simpl in *; auto; [lia|]. f_equal. apply IH. lia. }
  assert (B : forall n m, n <= String.length s -> String.length s <= m ->
     exists p, s = (p ++ substring n m s)%string).
  { induction s as [|c t IH]; intros n m Hn Hm; simpl in *.
    - exists ""%string. destruct n, m; auto.
    - destruct n as [|n].
      + exists ""%string. destruct m; [lia|]. simpl. f_equal. rewrite A; auto. lia.
      + destruct (IH n m) as (p & Hp); [lia|lia|]. exists (String c p). simpl. f_equal. auto. }
  intros n Hn. apply B; lia.
Qed.

Lemma suffix_test name sname :
  let pos := if String.length name <? String.length sname
             then String.length sname - String.length name else 0 in
  String.eqb (substring pos (String.length sname) sname) name = true <-> ends_with sname name.
Proof.
  intros pos. rewrite String.eqb_eq. split.
  - intros H. destruct (substring_split sname pos) as (p & Hp).
    { unfold pos. destruct (_ <? _); lia. }
    rewrite H in Hp. exists p. auto.
  - intros (p & ->). unfold pos. rewrite string_app_length.
    destruct (Nat.ltb_spec (String.length name) (String.length p + String.length name)).
    + rewrite Nat.add_sub. rewrite <- string_app_length. apply substring_suffix.
    + assert (p = ""%string) as -> by (destruct p; simpl in *; auto; lia).
      exact (substring_suffix "" name).
Qed.

Lemma GetSection_ok name ss s : GetSection name ss = Some s <->
  exists l1 l2, ss = l1 ++ s :: l2 /\ ends_with (s_name s) name /\
    Forall (fun x => ~ ends_with (s_name x) name) l1.
Proof.
  induction ss as [|x t IH]; simpl.
  - split; [discriminate|]. intros ([|? ?] & ? & H & _); discriminate.
  - pose proof (suffix_test name (s_name x)) as T. cbv zeta in T.
    destruct (String.eqb _ _).
    + split.
      * intros H. inversion H; subst. exists [], t. repeat split; auto. apply T. auto.
      * intros ([|y l1] & l2 & H & A & B); inversion H; subst; auto.
        inversion B; subst. exfalso. apply H2. apply T. auto.
    + rewrite IH. split.
      * intros (l1 & l2 & -> & A & B). exists (x :: l1), l2. repeat split; auto.
        constructor; auto. rewrite <- T. discriminate.
      * intros ([|y l1] & l2 & H & A & B); inversion H; subst.
        -- apply T in A. discriminate.
        -- exists l1, l2. inversion B; auto.
Qed.

Lemma UpdateRanges_ok ss bcs :
  (forall b, In b bcs -> exists s, In s ss /\ s_name s = bc_name b) ->
  (forall b s, In b bcs -> In s ss -> ends_with (s_name s) (bc_name b) -> s_name s = bc_name b) ->
  NoDup (map s_name ss) ->
  exists r, UpdateRanges ss bcs = Some r /\ length r = length bcs /\
    forall k b s, nth_error bcs k = Some b -> In s ss -> s_name s = bc_name b ->
      nth_error r k = Some (mkBC (bc_name b) (s_first s) (s_first s + s_count s - 1)).
Proof.
  intros HE HU ND.
  assert (G : forall b, In b bcs -> exists s, In s ss /\ s_name s = bc_name b /\
     GetSection (bc_name b) ss = Some s).
  { intros b Hb. destruct (HE b Hb) as (s & Hs & En).
    apply in_split in Hs. destruct Hs as (l1 & l2 & Hss). exists s. repeat split; auto.
    - rewrite Hss. apply in_or_app. simpl; auto.
    - apply GetSection_ok. exists l1, l2. repeat split; auto.
      + exists ""%string. simpl. auto.
      + apply Forall_forall. intros x Hx Hend.
        assert (Ex : s_name x = bc_name b).
        { apply HU; auto. rewrite Hss. apply in_or_app. auto. }
        rewrite Hss, map_app in ND. simpl in ND. apply NoDup_remove_2 in ND. apply ND.
        apply in_or_app. left. rewrite En, <- Ex. apply in_map. auto. }
  assert (UN : forall s s', In s ss -> In s' ss -> s_name s = s_name s' -> s = s').
  { intros s s' H1 H2 En. clear -ND H1 H2 En. induction ss as [|x t IH]; simpl in *; [tauto|].
    inversion ND as [|? ? N1 N2]; subst. destruct H1 as [->|H1], H2 as [->|H2]; auto.
    - exfalso. apply N1. rewrite En. apply in_map. auto.
    - exfalso. apply N1. rewrite <- En. apply in_map. auto. }
  unfold UpdateRanges.
  set (f := fun b => do s <- GetSection (bc_name b) ss;
     Some (mkBC (bc_name b) (s_first s) (s_first s + s_count s - 1))).
  assert (EX : exists r, mapM f bcs = Some r).
  { clear HE HU. induction bcs as [|b t IH]; simpl; eauto.
    destruct (G b (or_introl eq_refl)) as (s & _ & _ & E). unfold f at 1. rewrite E. cbn [bind].
    destruct IH as (r & ->); [|eauto]. intros; apply G; right; auto. }
  destruct EX as (r & E). exists r. split; auto. split; [eapply mapM_length; eauto|].
  intros k b s Hk Hs En. destruct (mapM_nth _ _ _ _ _ E Hk) as (y & Y1 & Y2). rewrite Y2.
  destruct (G b (nth_error_In _ _ Hk)) as (s' & Hs' & En' & Eg).
  unfold f in Y1. rewrite Eg in Y1. cbn [bind] in Y1. rewrite (UN s s'); congruence.
Qed.

(** ** A sort that fulfils the contract *)
Fixpoint insert (ss : list Section) (x : nat) (l : list nat) : list nat :=
  match l with
  | [] => [x]
  | y :: t =>
    match nth_error ss x, nth_error ss y with
    | Some a, Some b => if before a b then x :: l else y :: insert ss x t
    | _, _ => x :: l
    end
  end.
Definition insertion_sort (ss : list Section) : list nat :=
  fold_left (fun l x => insert ss x l) (seq 0 (length ss)) [].

Lemma before_false a b : before b a = false <-> ordered a b.
Proof.
  split; [apply before_ordered|]. unfold before, ordered. intros H.
  apply orb_false_iff. rewrite andb_false_iff, Z.ltb_ge, Z.eqb_neq, Nat.ltb_ge. lia.
Qed.
Lemma before_true a b : before a b = true -> ordered a b.
Proof.
  unfold before, ordered. rewrite orb_true_iff, andb_true_iff, Z.ltb_lt, Z.eqb_eq, Nat.ltb_lt. lia.
Qed.
Lemma ordered_trans a b c : ordered a b -> ordered b c -> ordered a c.
Proof. unfold ordered. lia. Qed.

Definition ord_at ss x y := forall a b, nth_error ss x = Some a -> nth_error ss y = Some b -> ordered a b.

Lemma insert_ok ss x l : x < length ss -> Forall (fun y => y < length ss) l ->
  StronglySorted (ord_at ss) l ->
  Permutation (insert ss x l) (x :: l) /\ StronglySorted (ord_at ss) (insert ss x l).
Proof.
  intros Hx. induction l as [|y t IH]; intros F S; simpl.
  - split; auto. repeat constructor.
  - inversion F; subst. apply StronglySorted_inv in S. destruct S as (S1 & S2).
    destruct (nth_error_lt_some ss x Hx) as (a & Ea). rewrite Ea.
    destruct (nth_error_lt_some ss y) as (b & Eb); auto. rewrite Eb.
    destruct (before a b) eqn:E.
    + split; auto. constructor; [constructor; auto|]. constructor.
      * intros a' b' A B. rewrite Ea in A. rewrite Eb in B. inversion A; inversion B; subst.
        apply before_true; auto.
      * eapply Forall_impl; [|exact S2]. intros z Hz a' c A C. rewrite Ea in A. inversion A; subst.
        eapply ordered_trans; [apply before_true; eauto|]. apply (Hz b c Eb C).
    + destruct IH as (P & S); auto. split.
      * etransitivity; [apply perm_skip, P|]. constructor.
      * constructor; auto. rewrite Forall_forall in *. intros z Hz.
        apply (Permutation_in _ P) in Hz. destruct Hz as [<-|Hz]; auto.
        intros b' a' B A. rewrite Ea in A. rewrite Eb in B. inversion A; inversion B; subst.
        apply before_false; auto.
Qed.

Lemma StronglySorted_at {X} (Rl : X -> X -> Prop) l : StronglySorted Rl l ->
  forall i j a b, i < j -> nth_error l i = Some a -> nth_error l j = Some b -> Rl a b.
Proof.
  induction 1 as [|x t HS IH HF]; intros [|i] [|j] a b Hij Ha Hb; simpl in *; try lia; try discriminate.
  - inversion Ha; subst. rewrite Forall_forall in HF. apply HF. eapply nth_error_In; eauto.
  - eapply IH; [|eauto|eauto]. lia.
Qed.

Lemma insertion_sort_ok ss : sort_contract before ss (insertion_sort ss).
Proof.
  assert (K : forall todo l, Forall (fun y => y < length ss) todo ->
     Forall (fun y => y < length ss) l -> StronglySorted (ord_at ss) l ->
     Permutation (fold_left (fun l x => insert ss x l) todo l) (l ++ todo) /\
     StronglySorted (ord_at ss) (fold_left (fun l x => insert ss x l) todo l)).
  { induction todo as [|x t IH]; intros l F1 F2 S; simpl.
    - rewrite app_nil_r. auto.
    - inversion F1; subst. destruct (insert_ok ss x l) as (P & S'); auto.
      destruct (IH (insert ss x l)) as (P2 & S2); auto.
      { rewrite Forall_forall in *. intros z Hz. apply (Permutation_in _ P) in Hz.
        destruct Hz as [<-|]; auto. }
      split; auto. etransitivity; [exact P2|].
      etransitivity; [apply Permutation_app_tail, P|]. simpl. apply Permutation_middle. }
  destruct (K (seq 0 (length ss)) []) as (P & S); auto.
  - apply Forall_forall. intros x Hx. apply in_seq in Hx. lia.
  - constructor.
  - split; auto. intros i j oi oj a b Hij Hi Hj Ha Hb. apply before_false.
    apply (StronglySorted_at _ _ S i j oi oj Hij Hi Hj a b Ha Hb).
Qed.
