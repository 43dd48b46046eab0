From Coq Require Import List Arith ZArith Lia Bool Permutation.
From Verif Require Import Arrays Model_Cgns Model_Mapper Model_Shuffle Model_Shuffler
  Spec_Mesh Spec_Shuffle Proof_Shuffle Proof_Mapper.
Import ListNotations.

Lemma new_order_pair parts n2o o2n : GetNewOrder parts = (n2o, o2n) ->
  inv_pair (length parts) n2o o2n /\ is_new_order parts n2o o2n.
Proof.
  intros E. pose proof (GetNewOrder_correct parts) as H. rewrite E in H. cbn [fst snd] in H.
  split; auto. constructor.
  - rewrite (Permutation_length (no_perm _ _ _ H)). apply seq_length.
  - apply (no_len _ _ _ H).
  - intros i k. split; [apply (no_inv1 _ _ _ H)|apply (no_inv2 _ _ _ H)].
Qed.

Lemma inv_pair_in1 n a b : inv_pair n a b -> forall k, In k a -> k < n.
Proof.
  intros H k Hk. apply In_nth_error in Hk. destruct Hk as [i Hi].
  eapply inv_pair_lt1; eauto.
Qed.

Lemma inv_pair_sym n a b : inv_pair n a b -> inv_pair n b a.
Proof.
  intros [H1 H2 H3]. constructor; auto. intros i k. rewrite (H3 k i). reflexivity.
Qed.

(** ** [ShuffleData] on a segment *)
Lemma mapM_exists {A B} (g : A -> option B) (R : A -> B -> Prop) l :
  (forall x, In x l -> exists y, g x = Some y /\ R x y) ->
  exists l', mapM g l = Some l' /\ Forall2 R l l'.
Proof.
  induction l as [|x t IH]; intros H.
  - exists []. split; [reflexivity|constructor].
  - destruct (H x (or_introl eq_refl)) as (y & Ey & Ry).
    destruct IH as (l' & El & Rl); [intros; apply H; right; auto|].
    exists (y :: l'). simpl. rewrite Ey, El. split; auto.
Qed.

Lemma ShuffleData_at {T} n n2o o2n (l : list T) a :
  inv_pair n n2o o2n -> a + n <= length l ->
  exists l', ShuffleData n2o l a = Some l' /\ length l' = length l /\
    (forall k old, nth_error n2o k = Some old -> nth_error l' (a + k) = nth_error l (a + old)) /\
    (forall j, j < a \/ a + n <= j -> nth_error l' j = nth_error l j).
Proof.
  intros P L. unfold ShuffleData.
  destruct (mapM_exists (fun k => nth_error l (a + k)) (fun k y => nth_error l (a + k) = Some y) n2o)
    as (new & E & R).
  { intros k Hk. apply (inv_pair_in1 _ _ _ P) in Hk.
    destruct (nth_error_lt_some l (a + k)) as [y Hy]; [lia|]. eauto. }
  rewrite E. cbn [bind]. pose proof (mapM_length _ _ _ E) as Ln.
  rewrite (ip_len1 _ _ _ P) in Ln. unfold write_at.
  destruct (Nat.leb_spec (a + length new) (length l)); [|lia].
  eexists. split; [reflexivity|].
  assert (La : length (firstn a l) = a) by (rewrite firstn_length; lia).
  split; [|split].
  - rewrite !app_length, skipn_length, La. lia.
  - intros k old Hk. rewrite nth_error_app2 by lia. rewrite La.
    replace (a + k - a) with k by lia.
    destruct (mapM_nth _ _ _ _ _ E Hk) as (y & Hy & Hn).
    rewrite nth_error_app1 by (apply nth_error_some_lt in Hn; auto). congruence.
  - intros j Hj. destruct (Nat.lt_ge_cases j a) as [Lt|Ge].
    + rewrite nth_error_app1 by lia. apply nth_error_firstn_lt. auto.
    + rewrite nth_error_app2 by lia. rewrite La. rewrite nth_error_app2 by lia.
      assert (G : forall (l : list T) n i, nth_error (skipn n l) i = nth_error l (n + i)).
      { clear. induction l as [|x t IH]; intros [|n] i; simpl; auto.
        destruct i; auto. }
      rewrite G. f_equal. lia.
Qed.

(** ** [ShuffleConnectivity] *)
Lemma slice_concat {T} npe (rows : list (list T)) : forall k r,
  Forall (fun r => length r = npe) rows -> nth_error rows k = Some r ->
  slice (concat rows) (npe * k) npe = Some r.
Proof.
  intros k r F Hk. apply nth_error_split in Hk. destruct Hk as (l1 & l2 & -> & <-).
  rewrite concat_app. simpl. apply Forall_app in F. destruct F as [F1 F2].
  inversion F2 as [|? ? Hr _]; subst.
  replace (length r * length l1) with (length (concat l1)); [apply slice_app|].
  clear F2. induction F1 as [|x t Hx _ IH]; simpl; [lia|]. rewrite app_length, IH. lia.
Qed.

Lemma slice_length {T} (l r : list T) a n : slice l a n = Some r -> length r = n.
Proof.
  unfold slice. destruct (Nat.leb_spec (a + n) (length l)); [|discriminate].
  intros E; inversion E. rewrite firstn_length, skipn_length. lia.
Qed.

Lemma slice_map {A B} (f : A -> B) l a n : slice (map f l) a n = option_map (map f) (slice l a n).
Proof.
  unfold slice. rewrite map_length. destruct (a + n <=? length l); auto. simpl.
  f_equal. rewrite skipn_map, firstn_map. reflexivity.
Qed.

Definition ren (o2n : list nat) (id : nat) : nat := nth (id - 1) o2n 0 + 1.

Lemma ShuffleConnectivity_rows n n2on o2n_nodes count n2o o2n npe conn :
  inv_pair n n2on o2n_nodes -> inv_pair count n2o o2n ->
  length conn = npe * count -> Forall (fun id => 1 <= id <= n) conn ->
  exists conn', ShuffleConnectivity o2n_nodes n2o npe conn = Some conn' /\
    length conn' = length conn /\
    (forall k old, nth_error n2o k = Some old ->
       exists row, slice conn (npe * old) npe = Some row /\
         slice conn' (npe * k) npe = Some (map (ren o2n_nodes) row)).
Proof.
  intros Pn P L F. unfold ShuffleConnectivity. rewrite (ip_len1 _ _ _ P).
  rewrite slice_some by lia. cbn [bind]. simpl (skipn 0 conn).
  replace (count * npe) with (length conn) by lia. rewrite firstn_all.
  rewrite (mapM_map _ (ren o2n_nodes)).
  2:{ intros id Hid. rewrite Forall_forall in F. apply F in Hid.
      destruct id as [|id]; [lia|]. unfold ren. cbn [at1].
      replace (S id - 1) with id by lia.
      destruct (nth_error_lt_some o2n_nodes id) as [x Hx];
        [rewrite (ip_len2 _ _ _ Pn); lia|].
      rewrite Hx. cbn [bind]. rewrite (nth_error_nth _ _ 0 Hx). reflexivity. }
  cbn [bind].
  assert (Sl : forall old, old < count ->
     exists row, slice conn (npe * old) npe = Some row).
  { intros old Ho. rewrite slice_some by nia. eauto. }
  destruct (mapM_exists (fun old => slice (map (ren o2n_nodes) conn) (npe * old) npe)
     (fun _ r => length r = npe) n2o) as (rows & E & R).
  { intros old Ho. apply (inv_pair_in1 _ _ _ P) in Ho.
    rewrite slice_map. destruct (Sl old Ho) as [row Hr]. rewrite Hr. simpl.
    eexists. split; [reflexivity|]. rewrite map_length. eapply slice_length; eauto. }
  rewrite E. cbn [bind].
  assert (Fr : Forall (fun r => length r = npe) rows).
  { clear -R. induction R; constructor; auto. }
  pose proof (mapM_length _ _ _ E) as Lr. rewrite (ip_len1 _ _ _ P) in Lr.
  assert (Lc : length (concat rows) = length conn)
    by (rewrite (concat_length_const npe) by auto; lia).
  unfold write_at. rewrite Lc.
  destruct (Nat.leb_spec (0 + length conn) (length conn)); [|lia].
  simpl. rewrite skipn_all, app_nil_r. eexists. split; [reflexivity|]. split; auto.
  intros k old Hk. destruct (mapM_nth _ _ _ _ _ E Hk) as (r & Er & Hr).
  destruct (Sl old) as [row Hrow]; [eapply inv_pair_lt1; eauto|].
  exists row. split; auto. rewrite (slice_concat npe rows k r Fr Hr).
  rewrite slice_map, Hrow in Er. simpl in Er. congruence.
Qed.

(** ** relations between a zone and its shuffled image *)
Definition sec_rel (o2n_nodes : list nat) (s : Section) (o : sect_order) (s' : Section) : Prop :=
  same_section s s' /\
  (forall k old, nth_error (so_n2o o) k = Some old ->
     exists row, cell_row s (s_first s + old) = Some row /\
       cell_row s' (s_first s + k) = Some (map (ren o2n_nodes) row)).

Inductive secs_rel (o2n_nodes : list nat) :
    list Section -> list sect_order -> list Section -> Prop :=
| secs_nil : secs_rel o2n_nodes [] [] []
| secs_cons s o s' ss os ss' : sec_rel o2n_nodes s o s' -> secs_rel o2n_nodes ss os ss' ->
    secs_rel o2n_nodes (s :: ss) (o :: os) (s' :: ss').

Definition field_rel {A} (sos : list sect_order) (f f' : list A) : Prop :=
  length f' = length f /\
  forall o, In o sos -> so_cell o = true -> forall k old, nth_error (so_n2o o) k = Some old ->
    nth_error f' (so_first o - 1 + k) = nth_error f (so_first o - 1 + old).

(** part numbers sorted along the new order *)
Definition sorted_from (parts : list nat) (off : nat) (n2o : list nat) : Prop :=
  forall i j a b p q, i < j -> nth_error n2o i = Some a -> nth_error n2o j = Some b ->
    nth_error parts (off + a) = Some p -> nth_error parts (off + b) = Some q -> p <= q.

Fixpoint sorted_sos (parts : list nat) (off : nat) (sos : list sect_order) : Prop :=
  match sos with
  | [] => True
  | o :: t => (so_cell o = true -> sorted_from parts off (so_n2o o)) /\
      sorted_sos parts (off + so_size o) t
  end.

Lemma sorted_from_slice parts off n seg n2o o2n : slice parts off n = Some seg ->
  is_new_order seg n2o o2n -> sorted_from parts off n2o.
Proof.
  intros Es H i j a b p q Hij Ha Hb Hp Hq.
  destruct (no_sorted _ _ _ H i j a b Hij Ha Hb) as (p' & q' & Hp' & Hq' & Hle).
  assert (G : forall k x, nth_error seg k = Some x -> nth_error parts (off + k) = Some x).
  { intros k x Hk. unfold slice in Es.
    destruct (Nat.leb_spec (off + n) (length parts)); [|discriminate]. inversion Es; subst.
    pose proof (nth_error_some_lt _ _ _ Hk) as L.
    rewrite firstn_length, skipn_length in L.
    rewrite nth_error_firstn_lt in Hk by lia. rewrite <- Hk.
    clear. revert off. induction parts as [|x t IH]; intros [|o]; simpl; auto.
    destruct k; auto. }
  apply G in Hp'. apply G in Hq'. assert (p' = p) by congruence.
  assert (q' = q) by congruence. lia.
Qed.

Definition fps_ok (cell_dim : Z) (s : Section) (fp : option (list nat)) : Prop :=
  s_dim s <> cell_dim -> exists ps, fp = Some ps /\ length ps = s_count s.

(** the order of a boundary section is the one of its part numbers *)
Definition fp_order (cell_dim : Z) (s : Section) (fp : option (list nat)) (o : sect_order) : Prop :=
  s_dim s <> cell_dim -> exists ps, fp = Some ps /\ length ps = s_count s /\
    is_new_order ps (so_n2o o) (so_o2n o).

Definition fps_order (cell_dim : Z) (ss : list Section) (fps : list (option (list nat)))
    (sos : list sect_order) : Prop :=
  forall k s fp o, nth_error ss k = Some s -> nth_error fps k = Some fp ->
    nth_error sos k = Some o -> fp_order cell_dim s fp o.

Lemma cell_row_slice s conn' i : cell_row (with_conn s conn') i =
  if i <? s_first s then None else slice conn' (s_npe s * (i - s_first s)) (s_npe s).
Proof. reflexivity. Qed.

Lemma sec_rel_conn n o2n_nodes n2on b n2o o2n cell_dim s :
  wf_section n cell_dim s -> inv_pair n n2on o2n_nodes -> inv_pair (s_count s) n2o o2n ->
  exists conn', ShuffleConnectivity o2n_nodes n2o (s_npe s) (s_conn s) = Some conn' /\
    sec_rel o2n_nodes s (mkSO b (s_first s) n2o o2n) (with_conn s conn').
Proof.
  intros W Pn P.
  destruct (ShuffleConnectivity_rows n n2on o2n_nodes (s_count s) n2o o2n (s_npe s) (s_conn s)
              Pn P (ws_conn _ _ _ W) (ws_ids _ _ _ W)) as (conn' & E & L & R).
  exists conn'. split; auto. split.
  - repeat split; auto.
  - cbn [so_n2o]. intros k old Hk. destruct (R k old Hk) as (row & Er & Er').
    exists row. unfold cell_row at 1. rewrite cell_row_slice.
    destruct (Nat.ltb_spec (s_first s + old) (s_first s)); [lia|].
    destruct (Nat.ltb_spec (s_first s + k) (s_first s)); [lia|].
    replace (s_first s + old - s_first s) with old by lia.
    replace (s_first s + k - s_first s) with k by lia. auto.
Qed.

Lemma shuffle_sections_closed {A} cell_dim cell_parts n n2on o2n_nodes z ss :
  inv_pair n n2on o2n_nodes -> Forall (wf_section n cell_dim) ss ->
  forall first s0 off fps pre post (fields : list (list A)),
  1 <= first -> consecutive first ss ->
  Forall2 (fps_ok cell_dim) ss fps -> length pre = off ->
  off + sos_size (map (so_id cell_dim) ss) <= length cell_parts ->
  Forall (fun f => forall s, In s ss -> s_dim s = cell_dim ->
             s_first s - 1 + s_count s <= length f) fields ->
  exists sos ss' fields',
    shuffle_sections cell_dim cell_parts o2n_nodes ss
      (cs_c2m' off (map (so_id cell_dim) ss)) fps
      (pre ++ cs_m2c' z s0 (map (so_id cell_dim) ss) ++ post) fields
    = Some (ss', cs_c2m' off sos, pre ++ cs_m2c' z s0 sos ++ post, fields') /\
    Forall ok_so sos /\ Forall2 (fits_so cell_dim) ss sos /\
    secs_rel o2n_nodes ss sos ss' /\ sorted_sos cell_parts off sos /\
    Forall2 (fun f f' => field_rel sos f f' /\
               forall j, j < first - 1 -> nth_error f' j = nth_error f j) fields fields' /\
    fps_order cell_dim ss fps sos.
Proof.
  intros Pn. induction 1 as [|s t Hs _ IH]; intros first s0 off fps pre post fields H1 Hc Hfp Lp Lc Hf.
  - inversion Hfp; subst. exists [], [], fields. simpl.
    split; [reflexivity|]. split; [constructor|]. split; [constructor|]. split; [constructor|].
    split; [exact I|]. split; [|intros [|k]; discriminate].
    clear. induction fields; constructor; auto. split; [|auto]. split; auto. intros o [].
  - inversion Hfp as [|? fp ? fps' Hfp1 Hfp2]; subst fps. subst.
    destruct Hc as [<- Hc].
    assert (Hf' : Forall (fun f => forall s, In s t -> s_dim s = cell_dim ->
             s_first s - 1 + s_count s <= length f) fields).
    { eapply Forall_impl; [|exact Hf]. simpl. intros f G s' Hin. apply G. auto. }
    cbn [map cs_c2m' cs_m2c' shuffle_sections sos_size fold_right so_cell so_first so_n2o so_o2n] in *.
    fold (sos_size (map (so_id cell_dim) t)) in Lc.
    rewrite so_size_id in *.
    change (so_cell (so_id cell_dim s)) with (is_cell cell_dim s).
    change (so_first (so_id cell_dim s)) with (s_first s).
    change (so_n2o (so_id cell_dim s)) with (seq 0 (s_count s)).
    change (so_o2n (so_id cell_dim s)) with (seq 0 (s_count s)).
    unfold is_cell in *. destruct (Z.eqb_spec (s_dim s) cell_dim) as [Ed|Ed]; cbn [negb].
    + (* cells *)
      pose proof (ws_count _ _ _ Hs Ed) as Hcnt.
      destruct (Nat.ltb_spec (s_first s) (s_first s)) as [?|_]; [lia|].
      rewrite Nat.sub_diag. rewrite nth_error_map, nth_error_seq by lia.
      simpl (option_map _ _). cbn [bind]. rewrite !Nat.add_0_r.
      destruct (slice cell_parts (length pre) (s_count s)) as [parts|] eqn:Ep;
        [|rewrite slice_some in Ep by lia; discriminate].
      cbn [bind]. destruct (GetNewOrder parts) as [n2o o2n] eqn:Eo.
      destruct (new_order_pair _ _ _ Eo) as [P Ho].
      rewrite (slice_length _ _ _ _ Ep) in P.
      assert (Em : ShuffleData o2n
        (pre ++ (map (fun k => (z, s0, s_first s + k)) (seq 0 (s_count s)) ++
           cs_m2c' z (S s0) (map (so_id cell_dim) t)) ++ post) (length pre)
        = Some (pre ++ map (fun k => (z, s0, s_first s + k)) o2n ++
           cs_m2c' z (S s0) (map (so_id cell_dim) t) ++ post)).
      { rewrite <- app_assoc. rewrite (ShuffleData_segment (0, 0, 0)).
        - do 3 f_equal. apply map_ext_in. intros k Hk.
          apply (inv_pair_in1 _ _ _ (inv_pair_sym _ _ _ P)) in Hk.
          apply nth_error_nth. rewrite nth_error_map, nth_error_seq by auto. reflexivity.
        - rewrite map_length, seq_length. apply (ip_len2 _ _ _ P).
        - intros k Hk. rewrite map_length, seq_length.
          apply (inv_pair_in1 _ _ _ (inv_pair_sym _ _ _ P)) in Hk. auto. }
      rewrite Em. cbn [bind].
      assert (Edat : ShuffleData n2o (map (Nat.add (length pre)) (seq 0 (s_count s))) 0
        = Some (map (Nat.add (length pre)) n2o)).
      { pose proof (ShuffleData_segment 0 n2o [] (map (Nat.add (length pre)) (seq 0 (s_count s))) []) as G.
        simpl in G. rewrite !app_nil_r in G. rewrite G.
        - f_equal. apply map_ext_in. intros k Hk. apply (inv_pair_in1 _ _ _ P) in Hk.
          apply nth_error_nth. rewrite nth_error_map, nth_error_seq by auto. reflexivity.
        - rewrite map_length, seq_length. apply (ip_len1 _ _ _ P).
        - intros k Hk. rewrite map_length, seq_length. apply (inv_pair_in1 _ _ _ P) in Hk. auto. }
      rewrite Edat. cbn [bind].
      destruct (sec_rel_conn n o2n_nodes n2on true n2o o2n cell_dim s Hs Pn P) as (conn' & Ec & Rc).
      rewrite Ec. cbn [bind].
      destruct (mapM_exists (fun f => ShuffleData n2o f (s_first s - 1))
         (fun f f1 => length f1 = length f /\
            (forall k old, nth_error n2o k = Some old ->
               nth_error f1 (s_first s - 1 + k) = nth_error f (s_first s - 1 + old)) /\
            (forall j, j < s_first s - 1 \/ s_first s - 1 + s_count s <= j ->
               nth_error f1 j = nth_error f j)) fields) as (fields1 & Ef & Rf).
      { intros f Hin. rewrite Forall_forall in Hf.
        destruct (ShuffleData_at (s_count s) n2o o2n f (s_first s - 1) P) as (f1 & G1 & G2 & G3 & G4).
        - apply (Hf f Hin s); auto. left; auto.
        - exists f1. auto. }
      rewrite Ef. cbn [bind].
      set (pre1 := pre ++ map (fun k => (z, s0, s_first s + k)) o2n).
      assert (Lp1 : length pre1 = length pre + s_count s).
      { unfold pre1. rewrite app_length, map_length, (ip_len2 _ _ _ P). reflexivity. }
      destruct (IH (s_first s + s_count s) (S s0) (length pre + s_count s) fps' pre1 post fields1)
        as (sos & ss' & fields' & E & Hok & Hfit & Hrel & Hsort & Hfld & Hord); auto; try lia.
      { rewrite Forall_forall in *. intros f1 Hin1 s' Hs' Hd'.
        clear -Rf Hin1 Hf' Hs' Hd'.
        induction Rf as [|f g fs gs (L & _) _ IHf]; [contradiction|].
        destruct Hin1 as [->|Hin1].
        - rewrite L. apply (Hf' f); auto. left; auto.
        - apply IHf; auto. intros x Hx. apply Hf'. right; auto. }
      exists (mkSO true (s_first s) n2o o2n :: sos), (with_conn s conn' :: ss'), fields'.
      cbn [cs_c2m' cs_m2c' so_cell so_first so_n2o so_o2n].
      assert (Esz : so_size (mkSO true (s_first s) n2o o2n) = s_count s).
      { unfold so_size. simpl. apply (ip_len1 _ _ _ P). }
      rewrite Esz.
      split; [|split; [|split; [|split; [|split; [|split]]]]].
      * unfold pre1 in E. rewrite <- !app_assoc in E.
        rewrite E. cbn [bind]. rewrite <- ?app_assoc. reflexivity.
      * constructor; auto. unfold ok_so. simpl. rewrite (ip_len1 _ _ _ P). auto.
      * constructor; auto. repeat split; simpl.
        -- unfold is_cell. rewrite Ed, Z.eqb_refl. reflexivity.
        -- apply (ip_len1 _ _ _ P).
      * constructor; auto.
      * simpl. rewrite Esz. split; auto. intros _. eapply sorted_from_slice; eauto.
      * clear -Rf Hfld Hfit Hc H1 P Hcnt.
        revert fields' Hfld. induction Rf as [|f f1 fs f1s (L & G1 & G2) _ IHf];
          intros fields' Hfld; inversion Hfld as [|? f' ? fs' [[L' HR] Hlow] Hrest]; subst.
        -- constructor.
        -- constructor; [|apply IHf; auto]. split.
           ++ split; [congruence|]. intros o [<-|Ho] Hcell k old Hk.
              ** cbn [so_n2o so_first] in *. rewrite Hlow.
                 --- apply G1; auto.
                 --- apply nth_error_some_lt in Hk. rewrite (ip_len1 _ _ _ P) in Hk. lia.
              ** rewrite (HR o Ho Hcell k old Hk). apply G2. right.
                 assert (s_first s + s_count s <= so_first o); [|lia].
                 clear -Hfit Hc Ho.
                 revert Hc. generalize (s_first s + s_count s). intros m Hc.
                 revert m Hc. induction Hfit as [|s1 o1 ss os (_ & E & _) _ IHq]; [contradiction|].
                 intros m [E1 Hc]. destruct Ho as [->|Ho]; [lia|].
                 specialize (IHq Ho _ Hc). lia.
           ++ intros j Hj. rewrite Hlow by lia. apply G2. auto.
      * intros [|k] s1 fp1 o1 H2 H3 H4; [|eapply Hord; eauto].
        simpl in H2. inversion H2; subst. intros Hd'. exfalso. congruence.
    + (* faces *)
      destruct (Hfp1 Ed) as (ps & -> & Lps). cbn [bind].
      destruct (slice ps 0 (s_count s)) as [parts|] eqn:Ep;
        [|rewrite slice_some in Ep by lia; discriminate].
      cbn [bind]. destruct (GetNewOrder parts) as [n2o o2n] eqn:Eo.
      destruct (new_order_pair _ _ _ Eo) as [P Ho].
      rewrite (slice_length _ _ _ _ Ep) in P. cbn [fst].
      destruct (sec_rel_conn n o2n_nodes n2on false n2o o2n cell_dim s Hs Pn P) as (conn' & Ec & Rc).
      rewrite Ec. cbn [bind app]. rewrite Nat.add_0_r.
      destruct (IH (s_first s + s_count s) (S s0) (length pre) fps' pre post fields)
        as (sos & ss' & fields' & E & Hok & Hfit & Hrel & Hsort & Hfld & Hord); auto; try lia.
      exists (mkSO false (s_first s) n2o o2n :: sos), (with_conn s conn' :: ss'), fields'.
      cbn [cs_c2m' cs_m2c' so_cell so_first so_n2o so_o2n].
      assert (Esz : so_size (mkSO false (s_first s) n2o o2n) = 0) by reflexivity.
      rewrite Esz, Nat.add_0_r. cbn [app].
      split; [|split; [|split; [|split; [|split; [|split]]]]].
      * rewrite E. reflexivity.
      * constructor; auto. unfold ok_so. simpl. rewrite (ip_len1 _ _ _ P). auto.
      * constructor; auto. repeat split; simpl.
        -- unfold is_cell. destruct (Z.eqb_spec (s_dim s) cell_dim); [contradiction|auto].
        -- apply (ip_len1 _ _ _ P).
      * constructor; auto.
      * cbn [sorted_sos]. rewrite Esz, Nat.add_0_r. split; auto. discriminate.
      * eapply Forall2_impl; [|exact Hfld]. intros f f' [[L' HR] Hlow]. split.
        -- split; auto. intros o [<-|Hin] Hcell; [discriminate|auto].
        -- intros j Hj. apply Hlow. lia.
      * intros [|k] s1 fp1 o1 H2 H3 H4; [|eapply Hord; eauto].
        simpl in H2, H3, H4. inversion H2; inversion H3; inversion H4; subst.
        intros _. exists ps. split; auto. split; auto. cbn [so_n2o so_o2n].
        replace ps with parts; auto.
        rewrite slice_some in Ep by lia. inversion Ep. simpl. rewrite <- Lps. apply firstn_all.
Qed.

(** ** zones *)
Definition nodes_rel {A} (n2o : list nat) (l l' : list A) : Prop :=
  length l' = length l /\
  forall k old, nth_error n2o k = Some old -> nth_error l' k = nth_error l old.

Record zone_rel {A} (zn : Zone A) (o : list nat * list nat) (sos : list sect_order)
    (zn' : Zone A) : Prop := {
  zr_x : nodes_rel (fst o) (z_x zn) (z_x zn');
  zr_y : nodes_rel (fst o) (z_y zn) (z_y zn');
  zr_z : nodes_rel (fst o) (z_z zn) (z_z zn');
  zr_nf : Forall2 (nodes_rel (fst o)) (z_node_fields zn) (z_node_fields zn');
  zr_cf : Forall2 (field_rel sos) (z_cell_fields zn) (z_cell_fields zn');
  zr_secs : secs_rel (snd o) (z_sections zn) sos (z_sections zn')
}.

Inductive zones_rel {A} : list (Zone A) -> list (list nat * list nat) ->
    list (list sect_order) -> list (Zone A) -> Prop :=
| zrel_nil : zones_rel [] [] [] []
| zrel_cons zn o sos zn' zs os zos zs' : zone_rel zn o sos zn' -> zones_rel zs os zos zs' ->
    zones_rel (zn :: zs) (o :: os) (sos :: zos) (zn' :: zs').

Fixpoint sorted_os (parts : list nat) (off : nat) (os : list (list nat * list nat)) : Prop :=
  match os with
  | [] => True
  | o :: t => sorted_from parts off (fst o) /\ sorted_os parts (off + length (fst o)) t
  end.

Fixpoint sorted_zos (parts : list nat) (off : nat) (zos : list (list sect_order)) : Prop :=
  match zos with
  | [] => True
  | sos :: t => sorted_sos parts off sos /\ sorted_zos parts (off + sos_size sos) t
  end.

Lemma ShuffleData_whole {T} n n2o o2n (l : list T) :
  inv_pair n n2o o2n -> length l = n ->
  exists l', ShuffleData n2o l 0 = Some l' /\ nodes_rel n2o l l'.
Proof.
  intros P L. destruct (ShuffleData_at n n2o o2n l 0 P) as (l' & E & L' & G & _); [lia|].
  exists l'. split; auto. split; auto.
Qed.

Lemma fits_size cell_dim ss sos : Forall2 (fits_so cell_dim) ss sos ->
  sos_size sos = sos_size (map (so_id cell_dim) ss).
Proof.
  induction 1 as [|s o t u (Hc & _ & Hl) _ IH]; simpl; auto.
  fold (sos_size u) (sos_size (map (so_id cell_dim) t)). rewrite IH.
  fold (so_id cell_dim s). rewrite so_size_id. unfold so_size. rewrite Hc, Hl. reflexivity.
Qed.

Definition zos_size (zos : list (list sect_order)) : nat :=
  fold_right (fun sos a => sos_size sos + a) 0 zos.

Definition nodes_size {A} (zs : list (Zone A)) : nat :=
  fold_right (fun zn a => CountNodes zn + a) 0 zs.

Lemma shuffle_zones_closed {A} cell_dim cell_parts node_parts (zs : list (Zone A)) :
  Forall (wf_zone cell_dim) zs ->
  forall z0 offn offc fps pren prec,
  Forall2 (fun zn fp => Forall2 (fps_ok cell_dim) (z_sections zn) fp) zs fps ->
  length pren = offn -> length prec = offc ->
  offn + nodes_size zs <= length node_parts ->
  offc + zos_size (map (zo_id cell_dim) zs) <= length cell_parts ->
  exists os zos zs',
    shuffle_zones cell_dim cell_parts node_parts zs
      (cn_c2m offn (map no_id zs)) (cz_c2m offc (map (zo_id cell_dim) zs)) fps
      (pren ++ cn_m2c z0 (map no_id zs)) (prec ++ cz_m2c z0 (map (zo_id cell_dim) zs))
    = Some (zs', mkMapper (pren ++ cn_m2c z0 os) (prec ++ cz_m2c z0 zos)
                   (cn_c2m offn os) (cz_c2m offc zos)) /\
    Forall ok_order os /\ Forall (Forall ok_so) zos /\
    Forall2 (fun zn o => length (fst o) = CountNodes zn) zs os /\
    Forall2 (fun zn sos => Forall2 (fits_so cell_dim) (z_sections zn) sos) zs zos /\
    zones_rel zs os zos zs' /\ sorted_os node_parts offn os /\ sorted_zos cell_parts offc zos /\
    (forall k zn fp sos, nth_error zs k = Some zn -> nth_error fps k = Some fp ->
       nth_error zos k = Some sos -> fps_order cell_dim (z_sections zn) fp sos).
Proof.
  induction 1 as [|zn t Hz _ IH]; intros z0 offn offc fps pren prec Hfp Ln Lc Bn Bc.
  - inversion Hfp; subst. exists [], [], []. simpl. rewrite !app_nil_r.
    repeat (split; [try reflexivity; try constructor|]). intros [|k]; discriminate.
  - inversion Hfp as [|? fp ? fps' Hfp1 Hfp2]; subst fps. subst.
    cbn [map]. change (no_id zn) with (seq 0 (CountNodes zn), seq 0 (CountNodes zn)).
    cbn [cn_c2m cz_c2m cn_m2c cz_m2c shuffle_zones nodes_size zos_size fold_right map] in *.
    fold (nodes_size t) in Bn. fold (zos_size (map (zo_id cell_dim) t)) in Bc.
    pose proof (wz_nodes _ _ Hz) as Hn1.
    rewrite nth_error_map, nth_error_seq by lia. simpl (option_map _ _). cbn [bind].
    rewrite Nat.add_0_r.
    destruct (slice node_parts (length pren) (CountNodes zn)) as [parts|] eqn:Ep;
      [|rewrite slice_some in Ep by lia; discriminate].
    cbn [bind]. destruct (GetNewOrder parts) as [n2o o2n] eqn:Eo.
    destruct (new_order_pair _ _ _ Eo) as [P Ho].
    rewrite (slice_length _ _ _ _ Ep) in P.
    destruct (ShuffleData_whole _ n2o o2n (z_x zn) P eq_refl) as (x' & Ex & Rx).
    destruct (ShuffleData_whole _ n2o o2n (z_y zn) P (wz_y _ _ Hz)) as (y' & Ey & Ry).
    destruct (ShuffleData_whole _ n2o o2n (z_z zn) P (wz_z _ _ Hz)) as (w' & Ew & Rw).
    rewrite Ex, Ey, Ew. cbn [bind].
    assert (Edat : ShuffleData n2o (map (Nat.add (length pren)) (seq 0 (CountNodes zn))) 0
        = Some (map (Nat.add (length pren)) n2o)).
    { pose proof (ShuffleData_segment 0 n2o []
        (map (Nat.add (length pren)) (seq 0 (CountNodes zn))) []) as G.
      simpl in G. rewrite !app_nil_r in G. rewrite G.
      - f_equal. apply map_ext_in. intros k Hk. apply (inv_pair_in1 _ _ _ P) in Hk.
        apply nth_error_nth. rewrite nth_error_map, nth_error_seq by auto. reflexivity.
      - rewrite map_length, seq_length. apply (ip_len1 _ _ _ P).
      - intros k Hk. rewrite map_length, seq_length. apply (inv_pair_in1 _ _ _ P) in Hk. auto. }
    rewrite Edat. cbn [bind].
    assert (Em : ShuffleData o2n
        (pren ++ map (fun k => (z0, S k)) (seq 0 (CountNodes zn)) ++ cn_m2c (S z0) (map no_id t))
        (length pren)
        = Some (pren ++ map (fun k => (z0, S k)) o2n ++ cn_m2c (S z0) (map no_id t))).
    { rewrite (ShuffleData_segment (0, 0)).
      - do 3 f_equal. apply map_ext_in. intros k Hk.
        apply (inv_pair_in1 _ _ _ (inv_pair_sym _ _ _ P)) in Hk.
        apply nth_error_nth. rewrite nth_error_map, nth_error_seq by auto. reflexivity.
      - rewrite map_length, seq_length. apply (ip_len2 _ _ _ P).
      - intros k Hk. rewrite map_length, seq_length.
        apply (inv_pair_in1 _ _ _ (inv_pair_sym _ _ _ P)) in Hk. auto. }
    rewrite Em. cbn [bind].
    destruct (mapM_exists (fun f => ShuffleData n2o f 0) (nodes_rel n2o) (z_node_fields zn))
      as (nf' & Enf & Rnf).
    { intros f Hf. apply (ShuffleData_whole _ n2o o2n f P).
      pose proof (wz_nf _ _ Hz) as G. rewrite Forall_forall in G. auto. }
    rewrite Enf. cbn [bind].
    destruct (shuffle_sections_closed cell_dim cell_parts (CountNodes zn) n2o o2n z0
                (z_sections zn) P (wz_sections _ _ Hz) 1 1 (length prec) fp prec
                (cz_m2c (S z0) (map (zo_id cell_dim) t)) (z_cell_fields zn)
                ltac:(lia) (wz_consecutive _ _ Hz) Hfp1 eq_refl)
      as (sos & ss' & cf' & Es & Hok & Hfit & Hrel & Hsort & Hfld & Hord).
    { unfold zo_id in Bc. lia. }
    { apply (wz_cf _ _ Hz). }
    fold (zo_id cell_dim zn) in Es. rewrite Es. cbn [bind].
    assert (Esz : sos_size sos = sos_size (zo_id cell_dim zn)) by (apply fits_size; auto).
    destruct (IH (S z0) (length pren + length (seq 0 (CountNodes zn)))
                (length prec + sos_size (zo_id cell_dim zn)) fps'
                (pren ++ map (fun k => (z0, S k)) o2n) (prec ++ cs_m2c' z0 1 sos))
      as (os & zos & zs' & E & H1 & H2 & H3 & H4 & H5 & H6 & H7 & H8); auto.
    { rewrite app_length, map_length, seq_length, (ip_len2 _ _ _ P). reflexivity. }
    { rewrite app_length, cs_m2c'_length by auto. lia. }
    { rewrite seq_length. lia. }
    { lia. }
    rewrite <- !app_assoc in E. rewrite E. cbn [bind m2c_nodes m2c_cells c2m_nodes c2m_cells].
    exists ((n2o, o2n) :: os), (sos :: zos), (mkZone x' y' w' ss' nf' cf' :: zs').
    cbn [cn_c2m cn_m2c cz_c2m cz_m2c].
    assert (Ln2o : length n2o = CountNodes zn) by apply (ip_len1 _ _ _ P).
    split; [|split; [|split; [|split; [|split; [|split; [|split; [|split]]]]]]].
    + rewrite Ln2o, seq_length, <- ?app_assoc, ?Esz.
      reflexivity.
    + constructor; auto. unfold ok_order. simpl. rewrite Ln2o. auto.
    + constructor; auto.
    + constructor; auto.
    + constructor; auto.
    + constructor; auto. constructor; simpl; auto.
      eapply Forall2_impl; [|exact Hfld]. simpl. tauto.
    + simpl. rewrite Ln2o. rewrite seq_length in H6. split; auto.
      eapply sorted_from_slice; eauto.
    + simpl. rewrite Esz. auto.
    + intros [|k] zn1 fp1 sos1 G1 G2 G3; [|eapply H8; eauto].
      simpl in G1, G2, G3. inversion G1; inversion G2; inversion G3; subst. auto.
Qed.

(** ** from [FillFaceParts] to [fps_ok] *)
Lemma sections_face_parts_ok cell_dim cp uses mp z ss : forall fps,
  Forall (fun s => s_dim s = cell_dim \/ s_dim s + 1 = cell_dim)%Z ss ->
  sections_face_parts cell_dim cp uses mp z ss = Some fps ->
  Forall2 (fps_ok cell_dim) ss fps.
Proof.
  induction ss as [|s t IH]; intros fps F E; simpl in E.
  - inversion E; constructor.
  - inversion F as [|? ? Hs Ht]; subst.
    destruct (Z.eqb_spec (s_dim s + 1) cell_dim) as [Ed|Ed].
    + destruct (section_face_parts cp uses mp z s) as [ps|] eqn:Eps; [|discriminate].
      cbn [bind] in E.
      destruct (sections_face_parts cell_dim cp uses mp z t) as [es|]; [|discriminate].
      cbn [bind] in E. inversion E; subst. constructor; auto.
      intros _. exists ps. split; auto. apply mapM_length in Eps. rewrite Eps, seq_length. reflexivity.
    + cbn [bind] in E.
      destruct (sections_face_parts cell_dim cp uses mp z t) as [es|]; [|discriminate].
      cbn [bind] in E. inversion E; subst. constructor; auto.
      intros Hne. destruct Hs; contradiction.
Qed.

Lemma zones_face_parts_ok {A} cell_dim cp uses mp (zs : list (Zone A)) : forall z fps,
  Forall (fun zn => Forall (fun s => s_dim s = cell_dim \/ s_dim s + 1 = cell_dim)%Z
                      (z_sections zn)) zs ->
  zones_face_parts cell_dim cp uses mp z zs = Some fps ->
  Forall2 (fun zn fp => Forall2 (fps_ok cell_dim) (z_sections zn) fp) zs fps.
Proof.
  induction zs as [|zn t IH]; intros z fps F E; simpl in E.
  - inversion E; constructor.
  - inversion F as [|? ? Hs Ht]; subst.
    destruct (sections_face_parts cell_dim cp uses mp z (z_sections zn)) as [e|] eqn:Ee; [|discriminate].
    cbn [bind] in E.
    destruct (zones_face_parts cell_dim cp uses mp (S z) t) as [es|] eqn:Ees; [|discriminate].
    cbn [bind] in E. inversion E; subst. constructor.
    + eapply sections_face_parts_ok; eauto.
    + eapply IH; eauto.
Qed.

(** ** reading the closed forms *)
Lemma zones_rel_nth {A} (zs zs' : list (Zone A)) os zos : zones_rel zs os zos zs' ->
  forall k zn, nth_error zs k = Some zn ->
  exists o sos zn', nth_error os k = Some o /\ nth_error zos k = Some sos /\
    nth_error zs' k = Some zn' /\ zone_rel zn o sos zn'.
Proof.
  induction 1 as [|zn o sos zn' zs os zos zs' Hr _ IH]; intros [|k] zn0 Hk; try discriminate.
  - simpl in Hk. inversion Hk; subst. exists o, sos, zn'. auto.
  - simpl in Hk. apply IH in Hk. exact Hk.
Qed.

Lemma zones_rel_length {A} (zs zs' : list (Zone A)) os zos : zones_rel zs os zos zs' ->
  length zs' = length zs.
Proof. induction 1; simpl; auto. Qed.

Lemma secs_rel_nth o2n ss os ss' : secs_rel o2n ss os ss' ->
  forall k s, nth_error ss k = Some s ->
  exists o s', nth_error os k = Some o /\ nth_error ss' k = Some s' /\ sec_rel o2n s o s'.
Proof.
  induction 1 as [|s o s' ss os ss' Hr _ IH]; intros [|k] s0 Hk; try discriminate.
  - simpl in Hk. inversion Hk; subst. exists o, s'. auto.
  - simpl in Hk. apply IH in Hk. exact Hk.
Qed.

Fixpoint os_off (off : nat) (os : list (list nat * list nat)) (k : nat) : nat :=
  match k, os with
  | S k', o :: t => os_off (off + length (fst o)) t k'
  | _, _ => off
  end.

Lemma cn_c2m_nth_off os : forall off k o, nth_error os k = Some o ->
  nth_error (cn_c2m off os) k = Some (map (Nat.add (os_off off os k)) (fst o)).
Proof.
  induction os as [|[a b] t IH]; intros off [|k] o H; try discriminate; simpl in *.
  - inversion H; subst. reflexivity.
  - apply IH; auto.
Qed.

Lemma os_off_ext {A} (zs : list (Zone A)) os os' :
  Forall2 (fun zn o => length (fst o) = CountNodes zn) zs os ->
  Forall2 (fun zn o => length (fst o) = CountNodes zn) zs os' ->
  forall off k, os_off off os k = os_off off os' k.
Proof.
  intros H. revert os'. induction H as [|zn o zs os E _ IH]; intros os' H' off k.
  - inversion H'; subst. reflexivity.
  - inversion H' as [|? o' ? os2 E' H2]; subst. destruct k; simpl; auto.
    rewrite E, E'. apply IH; auto.
Qed.

Lemma node_of_new {A} (zs zs' : list (Zone A)) os zos zos0 :
  zones_rel zs os zos zs' -> Forall ok_order os ->
  Forall2 (fun zn o => length (fst o) = CountNodes zn) zs os ->
  forall z o id, nth_error os z = Some o -> 1 <= id <= length (fst o) ->
  node_of (closed_mapper os zos) (S z) (ren (snd o) id)
    = node_of (closed_mapper (map no_id zs) zos0) (S z) id.
Proof.
  intros Hr Hok Hfit z o id Ho Hid.
  rewrite !closed_node_of, (cn_c2m_nth_off os 0 z o Ho). cbn [bind].
  pose proof (Forall2_nth _ _ _ z Hfit) as Hf. rewrite Ho in Hf.
  destruct (nth_error zs z) as [zn|] eqn:Ez; [|contradiction].
  assert (Hn : nth_error (map no_id zs) z = Some (no_id zn))
    by (rewrite nth_error_map, Ez; reflexivity).
  rewrite (cn_c2m_nth_off _ 0 z _ Hn). cbn [bind].
  rewrite (os_off_ext zs os (map no_id zs) Hfit (fits_id zs)).
  destruct id as [|id]; [lia|]. unfold ren. replace (S id - 1) with id by lia.
  rewrite Nat.add_1_r. cbn [at1]. rewrite !nth_error_map.
  rewrite Forall_forall in Hok. pose proof (Hok o (nth_error_In _ _ Ho)) as P.
  destruct (nth_error_lt_some (snd o) id) as [x Hx]; [rewrite (ip_len2 _ _ _ P); lia|].
  rewrite (nth_error_nth _ _ 0 Hx).
  apply (ip_inv _ _ _ P) in Hx. rewrite Hx. simpl fst. rewrite nth_error_seq by lia. reflexivity.
Qed.

Lemma mapM_ext_in {A B} (f g : A -> option B) l :
  (forall x, In x l -> f x = g x) -> mapM f l = mapM g l.
Proof.
  induction l as [|x t IH]; intros H; simpl; auto.
  rewrite (H x) by (left; auto). rewrite IH; auto. intros; apply H; right; auto.
Qed.

Lemma mapM_of_map {A B C} (f : B -> option C) (g : A -> B) l :
  mapM f (map g l) = mapM (fun x => f (g x)) l.
Proof. induction l as [|x t IH]; simpl; auto. rewrite IH. reflexivity. Qed.

Lemma cell_row_ids n cell_dim s c row : wf_section n cell_dim s -> cell_row s c = Some row ->
  Forall (fun id => 1 <= id <= n) row.
Proof.
  intros W E. unfold cell_row in E. destruct (c <? s_first s); [discriminate|].
  unfold slice in E. destruct (_ <=? _); [|discriminate]. inversion E; subst.
  pose proof (ws_ids _ _ _ W) as G. rewrite Forall_forall in *. intros id Hid. apply G.
  match type of Hid with In _ (firstn ?a (skipn ?b ?l)) =>
    rewrite <- (firstn_skipn b l); apply in_or_app; right;
    rewrite <- (firstn_skipn a (skipn b l)); apply in_or_app; left; exact Hid end.
Qed.

(** METIS row after = METIS row before *)
Lemma metis_row_new {A} cell_dim (zs zs' : list (Zone A)) os zos zos0 :
  Forall (wf_zone cell_dim) zs -> zones_rel zs os zos zs' -> Forall ok_order os ->
  Forall2 (fun zn o => length (fst o) = CountNodes zn) zs os ->
  Forall2 (fun zn sos => Forall2 (fits_so cell_dim) (z_sections zn) sos) zs zos ->
  forall z s zn sec sos o k old,
  nth_error zs z = Some zn -> nth_error (z_sections zn) s = Some sec ->
  nth_error zos z = Some sos -> nth_error sos s = Some o -> nth_error (so_n2o o) k = Some old ->
  metis_row zs' (closed_mapper os zos) (S z) (S s) (s_first sec + k)
   = metis_row zs (closed_mapper (map no_id zs) zos0) (S z) (S s) (s_first sec + old) /\
  metis_row zs (closed_mapper (map no_id zs) zos0) (S z) (S s) (s_first sec + old) <> None.
Proof.
  intros W Hr Hok Hfn Hfc z s zn sec sos o k old Ez Es Ezo Eo Ek.
  destruct (zones_rel_nth _ _ _ _ Hr z zn Ez) as (on & sos' & zn' & Eon & Ezo' & Ez' & Rz).
  assert (sos' = sos) by congruence. subst sos'.
  destruct (secs_rel_nth _ _ _ _ (zr_secs _ _ _ _ Rz) s sec Es) as (o' & sec' & Eo' & Es' & Rs).
  assert (o' = o) by congruence. subst o'.
  destruct Rs as [Hsame Hrows]. destruct (Hrows k old Ek) as (row & Erow & Erow').
  unfold metis_row. cbn [at1]. rewrite Ez, Ez'. cbn [bind at1]. rewrite Es, Es'. cbn [bind].
  rewrite Erow, Erow'. cbn [bind]. rewrite mapM_of_map.
  rewrite Forall_forall in W. pose proof (W zn (nth_error_In _ _ Ez)) as Wz.
  pose proof (wz_sections _ _ Wz) as Ws. rewrite Forall_forall in Ws.
  pose proof (cell_row_ids _ _ _ _ _ (Ws sec (nth_error_In _ _ Es)) Erow) as Hids.
  rewrite Forall_forall in Hids.
  pose proof (Forall2_nth _ _ _ z Hfn) as Hl. rewrite Ez, Eon in Hl.
  split.
  - apply mapM_ext_in. intros id Hid. eapply node_of_new; eauto.
    rewrite Hl. apply Hids; auto.
  - destruct (mapM_exists (node_of (closed_mapper (map no_id zs) zos0) (S z)) (fun _ _ => True) row)
      as (l' & El & _).
    + intros id Hid. rewrite (node_of_id zs zos0 z zn id Ez) by (apply Hids; auto). eauto.
    + rewrite El. discriminate.
Qed.

(** lookups in the closed cell table with the identity order and with a new one *)
Fixpoint sos_off (off : nat) (sos : list sect_order) (k : nat) : nat :=
  match k, sos with
  | S k', o :: t => sos_off (off + so_size o) t k'
  | _, _ => off
  end.

Fixpoint zos_off (off : nat) (zos : list (list sect_order)) (k : nat) : nat :=
  match k, zos with
  | S k', sos :: t => zos_off (off + sos_size sos) t k'
  | _, _ => off
  end.

Lemma cs_c2m'_nth_off sos : forall off k o, nth_error sos k = Some o ->
  nth_error (cs_c2m' off sos) k
    = Some (if so_cell o then (so_first o, map (Nat.add (sos_off off sos k)) (so_n2o o)) else (0, [])).
Proof.
  induction sos as [|a t IH]; intros off [|k] o H; try discriminate; simpl in *.
  - inversion H; subst. reflexivity.
  - apply IH; auto.
Qed.

Lemma cz_c2m_nth_off zos : forall off k sos, nth_error zos k = Some sos ->
  nth_error (cz_c2m off zos) k = Some (cs_c2m' (zos_off off zos k) sos).
Proof.
  induction zos as [|a t IH]; intros off [|k] o H; try discriminate; simpl in *.
  - inversion H; subst. reflexivity.
  - apply IH; auto.
Qed.

Lemma sos_off_ext cell_dim ss sos sos' : Forall2 (fits_so cell_dim) ss sos ->
  Forall2 (fits_so cell_dim) ss sos' -> forall off k, sos_off off sos k = sos_off off sos' k.
Proof.
  intros H. revert sos'. induction H as [|s o ss os (Hc & _ & Hl) _ IH]; intros sos' H' off k.
  - inversion H'; subst. reflexivity.
  - inversion H' as [|? o' ? os2 (Hc' & _ & Hl') H2]; subst. destruct k; simpl; auto.
    unfold so_size. rewrite Hc, Hc', Hl, Hl'. apply IH; auto.
Qed.

Lemma zos_off_ext {A} cell_dim (zs : list (Zone A)) zos zos' :
  Forall2 (fun zn sos => Forall2 (fits_so cell_dim) (z_sections zn) sos) zs zos ->
  Forall2 (fun zn sos => Forall2 (fits_so cell_dim) (z_sections zn) sos) zs zos' ->
  forall off k, zos_off off zos k = zos_off off zos' k.
Proof.
  intros H. revert zos'. induction H as [|zn sos zs zos E _ IH]; intros zos' H' off k.
  - inversion H'; subst. reflexivity.
  - inversion H' as [|? o' ? os2 E' H2]; subst. destruct k; simpl; auto.
    rewrite (fits_size _ _ _ E), (fits_size _ _ _ E'). apply IH; auto.
Qed.

Lemma sorted_sos_nth parts sos : forall off k o, sorted_sos parts off sos ->
  nth_error sos k = Some o -> so_cell o = true -> sorted_from parts (sos_off off sos k) (so_n2o o).
Proof.
  induction sos as [|a t IH]; intros off [|k] o H Ho Hc; try discriminate; simpl in *; destruct H as [H1 H2].
  - inversion Ho; subst. auto.
  - eapply IH; eauto.
Qed.

Lemma sorted_zos_nth parts zos : forall off k sos, sorted_zos parts off zos ->
  nth_error zos k = Some sos -> sorted_sos parts (zos_off off zos k) sos.
Proof.
  induction zos as [|a t IH]; intros off [|k] o H Ho; try discriminate; simpl in *; destruct H as [H1 H2].
  - inversion Ho; subst. auto.
  - eapply IH; eauto.
Qed.

Lemma sorted_os_nth parts os : forall off k o, sorted_os parts off os ->
  nth_error os k = Some o -> sorted_from parts (os_off off os k) (fst o).
Proof.
  induction os as [|a t IH]; intros off [|k] o H Ho; try discriminate; simpl in *; destruct H as [H1 H2].
  - inversion Ho; subst. auto.
  - eapply IH; eauto.
Qed.

Lemma perm_rows {T} n n2o o2n (rows rows' : list T) : inv_pair n n2o o2n ->
  length rows = n -> length rows' = n ->
  (forall k old, nth_error n2o k = Some old -> nth_error rows' k = nth_error rows old) ->
  Permutation rows rows'.
Proof.
  intros P L L' H. apply Permutation_nth_error.
  split; [congruence|].
  exists (fun i => if i <? n then nth i n2o 0 else i). split.
  - intros i j E. destruct (Nat.ltb_spec i n) as [Li|Li], (Nat.ltb_spec j n) as [Lj|Lj]; auto.
    + destruct (nth_error_lt_some n2o i) as [x Hx]; [rewrite (ip_len1 _ _ _ P); auto|].
      destruct (nth_error_lt_some n2o j) as [y Hy]; [rewrite (ip_len1 _ _ _ P); auto|].
      rewrite (nth_error_nth _ _ 0 Hx), (nth_error_nth _ _ 0 Hy) in E. subst y.
      apply (ip_inv _ _ _ P) in Hx. apply (ip_inv _ _ _ P) in Hy. congruence.
    + destruct (nth_error_lt_some n2o i) as [x Hx]; [rewrite (ip_len1 _ _ _ P); auto|].
      rewrite (nth_error_nth _ _ 0 Hx) in E. apply (inv_pair_lt1 _ _ _ P) in Hx. lia.
    + destruct (nth_error_lt_some n2o j) as [y Hy]; [rewrite (ip_len1 _ _ _ P); auto|].
      rewrite (nth_error_nth _ _ 0 Hy) in E. apply (inv_pair_lt1 _ _ _ P) in Hy. lia.
  - intros i. destruct (Nat.ltb_spec i n) as [Li|Li].
    + destruct (nth_error_lt_some n2o i) as [x Hx]; [rewrite (ip_len1 _ _ _ P); auto|].
      rewrite (nth_error_nth _ _ 0 Hx). apply H; auto.
    + transitivity (@None T); [|symmetry]; apply nth_error_None; lia.
Qed.

(** C03 and C04 after [Shuffle] *)
Theorem Shuffle_correct {A} cell_dim cell_parts node_parts (zs : list (Zone A)) mp mesh fps :
  (cell_dim = 2 \/ cell_dim = 3)%Z -> Forall (wf_zone cell_dim) zs ->
  Forall (fun zn => Forall (fun s => s_dim s = cell_dim \/ s_dim s + 1 = cell_dim)%Z
                      (z_sections zn)) zs ->
  Map cell_dim zs = Some (mp, mesh) ->
  length node_parts = length (m2c_nodes mp) -> length cell_parts = length (m2c_cells mp) ->
  FillFaceParts cell_dim cell_parts mp zs = Some fps ->
  exists zs' mp', Shuffle cell_dim cell_parts node_parts zs mp = Some (zs', mp') /\
    same_mesh cell_dim zs zs' mp mp' /\ valid_mapper cell_dim zs' mp' /\
    IsValid mp' = Some true /\ parts_sorted cell_parts node_parts mp' /\
    faces_follow cell_dim zs zs' mp mp' fps.
Proof.
  intros Hd W Hdims HM Ln Lc HF.
  destruct (Map_closed cell_dim zs Hd W) as (mesh' & E & _). rewrite E in HM.
  inversion HM; subst mp mesh'. clear HM E.
  cbn [m2c_nodes m2c_cells] in Ln, Lc.
  assert (Hfps : Forall2 (fun zn fp => Forall2 (fps_ok cell_dim) (z_sections zn) fp) zs fps).
  { unfold FillFaceParts in HF.
    destruct (zones_uses cell_dim _ 1 zs) as [uses|]; [|discriminate]. cbn [bind] in HF.
    eapply zones_face_parts_ok; eauto. }
  assert (Nn : length (cn_m2c 1 (map no_id zs)) = nodes_size zs).
  { clear. generalize 1. induction zs as [|zn t IH]; intros k; simpl; auto.
    rewrite app_length, map_length, seq_length, IH. reflexivity. }
  assert (Nc : length (cz_m2c 1 (map (zo_id cell_dim) zs)) = zos_size (map (zo_id cell_dim) zs)).
  { clear. generalize 1. induction zs as [|zn t IH]; intros k; simpl; auto.
    rewrite app_length, cs_m2c'_length, IH by apply ok_so_id. reflexivity. }
  destruct (shuffle_zones_closed cell_dim cell_parts node_parts zs W 1 0 0 fps [] [] Hfps eq_refl eq_refl)
    as (os & zos & zs' & ES & Hok & Hoks & Hfn & Hfc & Hr & Hsn & Hsc & Hord); try lia.
  cbn [app] in ES.
  exists zs', (closed_mapper os zos). unfold Shuffle. rewrite HF.
  cbn [bind c2m_nodes c2m_cells m2c_nodes m2c_cells].
  split; [exact ES|]. clear ES.
  change (mkMapper (cn_m2c 1 (map no_id zs)) (cz_m2c 1 (map (zo_id cell_dim) zs))
            (cn_c2m 0 (map no_id zs)) (cz_c2m 0 (map (zo_id cell_dim) zs)))
    with (closed_mapper (map no_id zs) (map (zo_id cell_dim) zs)).
  set (mp := closed_mapper (map no_id zs) (map (zo_id cell_dim) zs)).
  set (mp' := closed_mapper os zos).
  assert (V : valid_mapper cell_dim zs mp).
  { apply closed_valid; [apply ok_order_id|apply ok_zo_id|apply fits_id|apply fits_zo_id]. }
  assert (Hfn' : Forall2 (fun zn o => length (fst o) = CountNodes zn) zs' os).
  { clear -Hr Hfn. revert Hfn. induction Hr as [|zn o sos zn' zs os zos zs' R _ IH]; intros Hfn.
    - constructor.
    - inversion Hfn; subst. constructor; auto. unfold CountNodes in *.
      rewrite (proj1 (zr_x _ _ _ _ R)). auto. }
  assert (Hfc' : Forall2 (fun zn sos => Forall2 (fits_so cell_dim) (z_sections zn) sos) zs' zos).
  { clear -Hr Hfc. revert Hfc. induction Hr as [|zn o sos zn' zs os zos zs' R _ IH]; intros Hfc.
    - constructor.
    - inversion Hfc as [|? ? ? ? H1 H2]; subst. constructor; auto.
      pose proof (zr_secs _ _ _ _ R) as Rs. clear -Rs H1.
      revert H1. induction Rs as [|s o' s' ss os ss' [Rs _] _ IH]; intros H1; constructor.
      + inversion H1 as [|? ? ? ? (Hc & Hf & Hl) _]; subst.
        destruct Rs as (_ & _ & E1 & E2 & E3 & _). repeat split.
        * unfold is_cell in *. rewrite E3. auto.
        * congruence.
        * congruence.
      + inversion H1; subst. apply IH; auto. }
  assert (V' : valid_mapper cell_dim zs' mp').
  { apply closed_valid; auto. }
  split; [|split; [exact V'|split; [eapply valid_IsValid; eauto|split]]].
  - (* same mesh *)
    assert (Node : forall z zn i o, nth_error zs z = Some zn -> nth_error os z = Some o ->
       1 <= i <= CountNodes zn ->
       nth_error (fst o) (nth (i - 1) (snd o) 0) = Some (i - 1)).
    { intros z zn i o Ez Eo Hi. rewrite Forall_forall in Hok.
      pose proof (Hok o (nth_error_In _ _ Eo)) as P.
      pose proof (Forall2_nth _ _ _ z Hfn) as Hl. rewrite Ez, Eo in Hl.
      apply (ip_inv _ _ _ P).
      destruct (nth_error_lt_some (snd o) (i - 1)) as [x Hx]; [rewrite (ip_len2 _ _ _ P); lia|].
      rewrite (nth_error_nth _ _ 0 Hx). auto. }
    constructor.
    + eapply zones_rel_length; eauto.
    + intros [|z] zn Ez; [discriminate|]. cbn [at1] in *.
      destruct (zones_rel_nth _ _ _ _ Hr z zn Ez) as (o & sos & zn' & Eo & Ezo & Ez' & R).
      exists zn'. split; auto. split; [exact (proj1 (zr_x _ _ _ _ R))|].
      split; [|split].
      * pose proof (zr_secs _ _ _ _ R) as Rs. clear -Rs.
        induction Rs; simpl; auto.
      * pose proof (zr_nf _ _ _ _ R) as Rs. clear -Rs. induction Rs; simpl; auto.
      * pose proof (zr_cf _ _ _ _ R) as Rs. clear -Rs. induction Rs; simpl; auto.
    + cbn [mp mp' closed_mapper m2c_nodes]. rewrite Nn. clear -Hfn Hok.
      revert Hok. generalize 1. induction Hfn as [|zn o zs os E _ IH]; intros k Hok; simpl; auto.
      inversion Hok as [|? ? P Ps]; subst. destruct o as [a b]. simpl in *.
      pose proof (ip_len2 _ _ _ P) as Lb. simpl in Lb.
      rewrite app_length, map_length, IH by auto. lia.
    + cbn [mp mp' closed_mapper m2c_cells]. rewrite Nc. clear -Hfc Hoks.
      revert Hoks. generalize 1. induction Hfc as [|zn sos zs zos E _ IH]; intros k Hok; simpl; auto.
      inversion Hok as [|? ? P Ps]; subst.
      rewrite app_length, cs_m2c'_length, IH by auto. rewrite (fits_size _ _ _ E). reflexivity.
    + intros m z i Hm. apply (vm_nodes _ _ _ V) in Hm.
      assert (Hdom : exists zn, at1 zs z = Some zn /\ 1 <= i <= CountNodes zn)
        by (apply (vm_nodes_dom _ _ _ V); eauto).
      destruct Hdom as (zn & Ez & Hi). destruct z as [|z]; [discriminate|]. cbn [at1] in Ez.
      destruct (zones_rel_nth _ _ _ _ Hr z zn Ez) as (o & sos & zn' & Eo & Ezo & Ez' & R).
      pose proof (Node z zn i o Ez Eo Hi) as Hinv.
      pose proof (Forall2_nth _ _ _ z Hfn) as Hl. rewrite Ez, Eo in Hl.
      exists (ren (snd o) i). split; [|split].
      * apply (vm_nodes _ _ _ V'). unfold mp'.
        rewrite (node_of_new zs zs' os zos (map (zo_id cell_dim) zs) Hr Hok Hfn z o i Eo) by lia.
        exact Hm.
      * unfold node_coords. cbn [at1]. rewrite Ez, Ez'. cbn [bind]. unfold ren.
        rewrite Nat.add_1_r. destruct i as [|i]; [lia|]. cbn [at1].
        replace (S i - 1) with i in * by lia.
        rewrite Forall_forall in W. pose proof (W zn (nth_error_In _ _ Ez)) as Wz.
        rewrite (proj2 (zr_x _ _ _ _ R) _ _ Hinv), (proj2 (zr_y _ _ _ _ R) _ _ Hinv),
          (proj2 (zr_z _ _ _ _ R) _ _ Hinv).
        destruct (nth_error_lt_some (z_x zn) i) as [x Hx]; [unfold CountNodes in Hi; lia|].
        destruct (nth_error_lt_some (z_y zn) i) as [y Hy]; [rewrite (wz_y _ _ Wz); lia|].
        destruct (nth_error_lt_some (z_z zn) i) as [w Hw]; [rewrite (wz_z _ _ Wz); lia|].
        rewrite Hx, Hy, Hw. cbn [bind]. eauto.
      * unfold node_data. cbn [at1]. rewrite Ez, Ez'. cbn [bind]. unfold ren.
        rewrite Nat.add_1_r. destruct i as [|i]; [lia|]. cbn [at1].
        replace (S i - 1) with i in * by lia.
        rewrite Forall_forall in W. pose proof (W zn (nth_error_In _ _ Ez)) as Wz.
        pose proof (wz_nf _ _ Wz) as Wf. pose proof (zr_nf _ _ _ _ R) as Rf.
        clear -Wf Rf Hinv Hi. induction Rf as [|f f' fs fs' [_ Hf] _ IH].
        -- exists []. auto.
        -- inversion Wf as [|? ? Lf Wf']; subst. destruct (IH Wf') as (d & E1 & E2).
           simpl. rewrite (Hf _ _ Hinv).
           destruct (nth_error_lt_some f i) as [x Hx]; [lia|]. rewrite Hx, E1, E2. eauto.
    + intros m z s c Hm. apply (vm_cells _ _ _ V) in Hm.
      assert (Hdom : exists zn sec, at1 zs z = Some zn /\ at1 (z_sections zn) s = Some sec /\
         s_dim sec = cell_dim /\ s_first sec <= c < s_first sec + s_count sec)
        by (apply (vm_cells_dom _ _ _ V); eauto).
      destruct Hdom as (zn & sec & Ez & Es & Ed & Hc).
      destruct z as [|z]; [discriminate|]. destruct s as [|s]; [discriminate|]. cbn [at1] in Ez, Es.
      destruct (zones_rel_nth _ _ _ _ Hr z zn Ez) as (on & sos & zn' & Eon & Ezo & Ez' & R).
      destruct (secs_rel_nth _ _ _ _ (zr_secs _ _ _ _ R) s sec Es) as (o & sec' & Eo & Es' & Rs).
      pose proof (Forall2_nth _ _ _ z Hfc) as HFz. rewrite Ez, Ezo in HFz.
      pose proof (Forall2_nth _ _ _ s HFz) as Hfo. rewrite Es, Eo in Hfo.
      destruct Hfo as (Hfc1 & Hff & Hfl).
      assert (P : ok_so o).
      { rewrite Forall_forall in Hoks. pose proof (Hoks sos (nth_error_In _ _ Ezo)) as G.
        rewrite Forall_forall in G. apply G. eapply nth_error_In; eauto. }
      assert (Hcell : so_cell o = true).
      { rewrite Hfc1. unfold is_cell. rewrite Ed. apply Z.eqb_refl. }
      set (old := c - s_first sec).
      assert (Hold : old < s_count sec) by (unfold old; lia).
      destruct (nth_error_lt_some (so_o2n o) old) as [k Hk]; [rewrite (ip_len2 _ _ _ P); lia|].
      pose proof Hk as Hk'. apply (ip_inv _ _ _ P) in Hk'.
      assert (Ec : c = s_first sec + old) by (unfold old; lia).
      exists (s_first sec + k). split; [|split].
      * apply (vm_cells _ _ _ V'). unfold mp'. rewrite closed_cell_of.
        rewrite (cz_c2m_nth_off zos 0 z sos Ezo). cbn [bind at1].
        rewrite (cs_c2m'_nth_off sos _ s o Eo), Hcell. cbn [bind shifted_at].
        rewrite Hff. destruct (Nat.ltb_spec (s_first sec + k) (s_first sec)); [lia|].
        replace (s_first sec + k - s_first sec) with k by lia.
        rewrite nth_error_map, Hk'. simpl.
        unfold mp in Hm. rewrite closed_cell_of in Hm.
        assert (Hid : nth_error (map (zo_id cell_dim) zs) z = Some (zo_id cell_dim zn))
          by (rewrite nth_error_map, Ez; reflexivity).
        rewrite (cz_c2m_nth_off _ 0 z _ Hid) in Hm. cbn [bind at1] in Hm.
        assert (Hid2 : nth_error (zo_id cell_dim zn) s = Some (so_id cell_dim sec))
          by (unfold zo_id; rewrite nth_error_map, Es; reflexivity).
        rewrite (cs_c2m'_nth_off _ _ s _ Hid2) in Hm.
        change (so_cell (so_id cell_dim sec)) with (is_cell cell_dim sec) in Hm.
        rewrite <- Hfc1, Hcell in Hm. cbn [bind shifted_at so_first so_n2o so_id] in Hm.
        destruct (Nat.ltb_spec c (s_first sec)); [lia|]. fold old in Hm.
        rewrite nth_error_map, nth_error_seq in Hm by auto. simpl in Hm.
        rewrite <- Hm. do 2 f_equal.
        rewrite (sos_off_ext cell_dim (z_sections zn) sos (zo_id cell_dim zn) HFz
                   (fits_so_id cell_dim (z_sections zn))).
        rewrite (zos_off_ext cell_dim zs zos (map (zo_id cell_dim) zs) Hfc (fits_zo_id cell_dim zs)).
        reflexivity.
      * destruct (metis_row_new cell_dim zs zs' os zos (map (zo_id cell_dim) zs) W Hr Hok Hfn Hfc
                    z s zn sec sos o k old Ez Es Ezo Eo Hk') as [E1 E2].
        fold mp mp' in E1, E2. rewrite <- Ec in E1, E2.
        destruct (metis_row zs mp (S z) (S s) c) as [row|]; [|congruence].
        exists row. auto.
      * unfold cell_data. cbn [at1]. rewrite Ez, Ez'. cbn [bind].
        rewrite Forall_forall in W. pose proof (W zn (nth_error_In _ _ Ez)) as Wz.
        pose proof (wz_cf _ _ Wz) as Wf. pose proof (zr_cf _ _ _ _ R) as Rf.
        assert (Hf1 : 1 <= s_first sec).
        { pose proof (wz_consecutive _ _ Wz) as Hcons. clear -Hcons Es.
          assert (G : forall ss f k x, consecutive f ss -> nth_error ss k = Some x -> f <= s_first x).
          { induction ss as [|a t IH]; intros f [|k] x H Hx; try discriminate; destruct H as [H1 H2].
            - simpl in Hx. inversion Hx; subst. auto.
            - apply (IH _ _ _ H2) in Hx. lia. }
          apply (G _ 1 _ _ Hcons Es). }
        pose proof (nth_error_In _ _ Es) as Hin. pose proof (nth_error_In _ _ Eo) as Hino.
        destruct c as [|c]; [lia|].
        replace (s_first sec + k) with (S (s_first sec - 1 + k)) by lia.
        assert (Ec' : c = s_first sec - 1 + old) by lia.
        clearbody old. clear -Wf Rf Hin Hino Ed Hcell Hk' Hff Ec' Hold. subst c.
        induction Rf as [|f f' fs fs' [_ Hf] _ IH].
        -- exists []. auto.
        -- inversion Wf as [|fq fsq Lf Wf' Eq]. clear Eq. destruct (IH Wf') as (d & E1 & E2).
           cbn [mapM]. cbn [at1] in *. specialize (Hf o Hino Hcell k old Hk').
           rewrite Hff in Hf. rewrite Hf.
           destruct (nth_error_lt_some f (s_first sec - 1 + old)) as [x0 Hx].
           { specialize (Lf sec Hin Ed). lia. }
           rewrite Hx, E1, E2. eauto.
    + intros z s sec Hsec. destruct z as [|z]; [discriminate|]. destruct s as [|s];
        [destruct (at1 zs (S z)); discriminate|]. cbn [at1] in *.
      destruct (nth_error zs z) as [zn|] eqn:Ez; [|discriminate]. cbn [bind] in Hsec.
      destruct (zones_rel_nth _ _ _ _ Hr z zn Ez) as (on & sos & zn' & Eon & Ezo & Ez' & R).
      destruct (secs_rel_nth _ _ _ _ (zr_secs _ _ _ _ R) s sec Hsec) as (o & sec' & Eo & Es' & [Rs _]).
      exists sec'. rewrite Ez'. auto.
    + intros z s sec Hsec. destruct z as [|z]; [discriminate|]. destruct s as [|s];
        [destruct (at1 zs (S z)); discriminate|]. cbn [at1] in Hsec.
      destruct (nth_error zs z) as [zn|] eqn:Ez; [|discriminate]. cbn [bind] in Hsec.
      destruct (zones_rel_nth _ _ _ _ Hr z zn Ez) as (on & sos & zn' & Eon & Ezo & Ez' & R).
      destruct (secs_rel_nth _ _ _ _ (zr_secs _ _ _ _ R) s sec Hsec) as (o & sec' & Eo & Es' & [Rs _]).
      destruct Rs as (_ & _ & Ef & Ecnt & _).
      pose proof (Forall2_nth _ _ _ z Hfc) as HFz. rewrite Ez, Ezo in HFz.
      pose proof (Forall2_nth _ _ _ s HFz) as Hfo. rewrite Hsec, Eo in Hfo.
      destruct Hfo as (_ & _ & Hfl).
      assert (P : ok_so o).
      { rewrite Forall_forall in Hoks. pose proof (Hoks sos (nth_error_In _ _ Ezo)) as G.
        rewrite Forall_forall in G. apply G. eapply nth_error_In; eauto. }
      unfold ok_so in P. rewrite Hfl in P.
      unfold section_rows. cbn [at1]. rewrite Ez, Ez'. cbn [bind at1].
      rewrite Hsec, Es'. cbn [bind]. rewrite Ef, Ecnt.
      pose proof (fun k old H => metis_row_new cell_dim zs zs' os zos (map (zo_id cell_dim) zs)
                    W Hr Hok Hfn Hfc z s zn sec sos o k old Ez Hsec Ezo Eo H) as G.
      fold mp mp' in G.
      destruct (mapM_exists (metis_row zs mp (S z) (S s)) (fun _ _ => True)
                  (seq (s_first sec) (s_count sec))) as (rows & Er & _).
      { intros c Hc. apply in_seq in Hc.
        destruct (nth_error_lt_some (so_o2n o) (c - s_first sec)) as [k Hk];
          [rewrite (ip_len2 _ _ _ P); lia|].
        apply (ip_inv _ _ _ P) in Hk. destruct (G _ _ Hk) as [_ E2].
        replace (s_first sec + (c - s_first sec)) with c in E2 by lia.
        destruct (metis_row zs mp (S z) (S s) c); [eauto|congruence]. }
      destruct (mapM_exists (metis_row zs' mp' (S z) (S s)) (fun _ _ => True)
                  (seq (s_first sec) (s_count sec))) as (rows' & Er' & _).
      { intros c Hc. apply in_seq in Hc.
        destruct (nth_error_lt_some (so_n2o o) (c - s_first sec)) as [k Hk];
          [rewrite (ip_len1 _ _ _ P); lia|].
        destruct (G _ _ Hk) as [E1 E2].
        replace (s_first sec + (c - s_first sec)) with c in E1 by lia.
        rewrite E1. destruct (metis_row zs mp (S z) (S s) (s_first sec + k)); [eauto|congruence]. }
      exists rows, rows'. split; [auto|]. split; [auto|].
      pose proof (mapM_length _ _ _ Er) as L. pose proof (mapM_length _ _ _ Er') as L'.
      rewrite seq_length in L, L'.
      apply (perm_rows (s_count sec) (so_n2o o) (so_o2n o)); auto.
      intros k old Hk. pose proof (nth_error_some_lt _ _ _ Hk) as Lk. rewrite Hfl in Lk.
      pose proof (inv_pair_lt1 _ _ _ P _ _ Hk) as Lo.
      destruct (mapM_nth _ _ _ k (s_first sec + k) Er') as (r' & E1 & E2);
        [apply nth_error_seq; auto|].
      destruct (mapM_nth _ _ _ old (s_first sec + old) Er) as (r & E3 & E4);
        [apply nth_error_seq; auto|].
      destruct (G k old Hk) as [E5 _]. congruence.
  - (* sorted *)
    constructor.
    + intros z i j m n p q Hij Hm Hn Hp Hq. unfold mp' in Hm, Hn.
      rewrite closed_node_of in Hm, Hn. destruct z as [|z]; [discriminate|].
      destruct (nth_error os z) as [o|] eqn:Eo.
      * rewrite (cn_c2m_nth_off os 0 z o Eo) in Hm, Hn. cbn [bind] in Hm, Hn.
        destruct i as [|i]; [discriminate|]. destruct j as [|j]; [discriminate|].
        cbn [at1] in Hm, Hn. apply nth_error_map_inv in Hm. apply nth_error_map_inv in Hn.
        destruct Hm as (a & Ha & ->). destruct Hn as (b & Hb & ->).
        eapply (sorted_os_nth node_parts os 0 z o Hsn Eo i j); eauto. lia.
      * assert (En : nth_error (cn_c2m 0 os) z = None)
          by (apply nth_error_None; rewrite cn_c2m_length; apply nth_error_None; auto).
        rewrite En in Hm. discriminate.
    + intros z s i j m n p q Hij Hm Hn Hp Hq. unfold mp' in Hm, Hn.
      rewrite closed_cell_of in Hm, Hn. destruct z as [|z]; [discriminate|].
      destruct (nth_error zos z) as [sos|] eqn:Ezo.
      2:{ assert (En : nth_error (cz_c2m 0 zos) z = None)
            by (apply nth_error_None; rewrite cz_c2m_length; apply nth_error_None; auto).
          rewrite En in Hm. discriminate. }
      rewrite (cz_c2m_nth_off zos 0 z sos Ezo) in Hm, Hn. cbn [bind] in Hm, Hn.
      destruct s as [|s]; [discriminate|]. cbn [at1] in Hm, Hn.
      destruct (nth_error sos s) as [o|] eqn:Eo.
      2:{ assert (En : nth_error (cs_c2m' (zos_off 0 zos z) sos) s = None)
            by (apply nth_error_None; rewrite cs_c2m'_length; apply nth_error_None; auto).
          rewrite En in Hm. discriminate. }
      rewrite (cs_c2m'_nth_off sos _ s o Eo) in Hm, Hn. cbn [bind] in Hm, Hn.
      destruct (so_cell o) eqn:Hcell; simpl in Hm, Hn.
      2:{ destruct (i - 0); discriminate. }
      destruct (Nat.ltb_spec i (so_first o)); [discriminate|].
      destruct (Nat.ltb_spec j (so_first o)); [discriminate|].
      apply nth_error_map_inv in Hm. apply nth_error_map_inv in Hn.
      destruct Hm as (a & Ha & ->). destruct Hn as (b & Hb & ->).
      pose proof (sorted_zos_nth cell_parts zos 0 z sos Hsc Ezo) as Hso.
      eapply (sorted_sos_nth cell_parts sos _ s o Hso Eo Hcell
                (i - so_first o) (j - so_first o)); eauto. lia.
  - (* faces *)
    intros z s sec Hsec Hnd. destruct z as [|z]; [discriminate|]. destruct s as [|s];
        [destruct (at1 zs (S z)); discriminate|]. cbn [at1] in Hsec.
      destruct (nth_error zs z) as [zn|] eqn:Ez; [|discriminate]. cbn [bind] in Hsec.
      destruct (zones_rel_nth _ _ _ _ Hr z zn Ez) as (on & sos & zn' & Eon & Ezo & Ez' & R).
      destruct (secs_rel_nth _ _ _ _ (zr_secs _ _ _ _ R) s sec Hsec) as (o & sec' & Eo & Es' & [Rs _]).
      destruct Rs as (_ & _ & Ef & Ecnt & _).
      pose proof (Forall2_nth _ _ _ z Hfc) as HFz. rewrite Ez, Ezo in HFz.
      pose proof (Forall2_nth _ _ _ s HFz) as Hfo. rewrite Hsec, Eo in Hfo.
      destruct Hfo as (_ & _ & Hfl).
      assert (P : ok_so o).
      { rewrite Forall_forall in Hoks. pose proof (Hoks sos (nth_error_In _ _ Ezo)) as G.
        rewrite Forall_forall in G. apply G. eapply nth_error_In; eauto. }
      unfold ok_so in P. rewrite Hfl in P.
      unfold section_rows. cbn [at1]. rewrite Ez, Ez'. cbn [bind at1].
      rewrite Hsec, Es'. cbn [bind]. rewrite Ef, Ecnt.
      pose proof (fun k old H => metis_row_new cell_dim zs zs' os zos (map (zo_id cell_dim) zs)
                    W Hr Hok Hfn Hfc z s zn sec sos o k old Ez Hsec Ezo Eo H) as G.
      fold mp mp' in G.
      destruct (mapM_exists (metis_row zs mp (S z) (S s)) (fun _ _ => True)
                  (seq (s_first sec) (s_count sec))) as (rows & Er & _).
      { intros c Hc. apply in_seq in Hc.
        destruct (nth_error_lt_some (so_o2n o) (c - s_first sec)) as [k Hk];
          [rewrite (ip_len2 _ _ _ P); lia|].
        apply (ip_inv _ _ _ P) in Hk. destruct (G _ _ Hk) as [_ E2].
        replace (s_first sec + (c - s_first sec)) with c in E2 by lia.
        destruct (metis_row zs mp (S z) (S s) c); [eauto|congruence]. }
      destruct (mapM_exists (metis_row zs' mp' (S z) (S s)) (fun _ _ => True)
                  (seq (s_first sec) (s_count sec))) as (rows' & Er' & _).
      { intros c Hc. apply in_seq in Hc.
        destruct (nth_error_lt_some (so_n2o o) (c - s_first sec)) as [k Hk];
          [rewrite (ip_len1 _ _ _ P); lia|].
        destruct (G _ _ Hk) as [E1 E2].
        replace (s_first sec + (c - s_first sec)) with c in E1 by lia.
        rewrite E1. destruct (metis_row zs mp (S z) (S s) (s_first sec + k)); [eauto|congruence]. }
            pose proof (mapM_length _ _ _ Er) as L. pose proof (mapM_length _ _ _ Er') as L'.
      rewrite seq_length in L, L'.
      pose proof (Forall2_nth _ _ _ z Hfps) as Hfz. rewrite Ez in Hfz.
      destruct (nth_error fps z) as [fp|] eqn:Efp; [|contradiction].
      pose proof (Forall2_nth _ _ _ s Hfz) as Hfs. rewrite Hsec in Hfs.
      destruct (nth_error fp s) as [e|] eqn:Ee; [|contradiction].
      destruct (Hord z zn fp sos Ez Efp Ezo s sec e o Hsec Ee Eo Hnd) as (ps & -> & Lps & Hno).
      exists ps, rows, rows', (so_n2o o), (so_o2n o). cbn [bind at1].
      repeat (split; [auto|]).
      intros k old Hk. pose proof (nth_error_some_lt _ _ _ Hk) as Lk. rewrite Hfl in Lk.
      pose proof (inv_pair_lt1 _ _ _ P _ _ Hk) as Lo.
      destruct (mapM_nth _ _ _ k (s_first sec + k) Er') as (r' & E1 & E2);
        [apply nth_error_seq; auto|].
      destruct (mapM_nth _ _ _ old (s_first sec + old) Er) as (r & E3 & E4);
        [apply nth_error_seq; auto|].
      destruct (G k old Hk) as [E5 _]. congruence.
Qed.
