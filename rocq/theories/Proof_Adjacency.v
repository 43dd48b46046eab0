From Coq Require Import List Arith Lia Sorted.
From Verif Require Import Arrays Model_Mapper Model_Metis Model_Partition
  Spec_Mesh Spec_Metis Spec_Partition Proof_Mapper Proof_Metis.
Import ListNotations.

(** ** Checked folds that only add entries *)
Lemma foldM_content {S X K} (f : S -> X -> option S) (I : S -> Prop) (C : S -> K -> Prop)
    (add : X -> K -> Prop) (ok : X -> Prop) :
  (forall s x, I s -> ok x -> exists s', f s x = Some s' /\ I s' /\
     forall k, C s' k <-> C s k \/ add x k) ->
  forall l s, I s -> (forall x, In x l -> ok x) ->
  exists s', foldM f l s = Some s' /\ I s' /\
    forall k, C s' k <-> C s k \/ exists x, In x l /\ add x k.
Proof.
  intros Hf. induction l as [|x t IH]; intros s Hs Hok.
  - exists s. simpl. split; auto. split; auto. intros k. split; auto.
    intros [H|(x & [] & _)]; auto.
  - destruct (Hf s x Hs (Hok x (or_introl eq_refl))) as (s1 & E1 & I1 & C1).
    destruct (IH s1 I1) as (s2 & E2 & I2 & C2).
    { intros; apply Hok; right; auto. }
    exists s2. simpl. rewrite E1. cbn [bind]. split; auto. split; auto.
    intros k. rewrite C2, C1. split.
    + intros [[H|H]|(y & Hy & H)]; [auto| |]; right; [exists x|exists y]; simpl; auto.
    + intros [H|(y & [->|Hy] & H)]; auto. right. exists y. auto.
Qed.

(** ** Containers *)
Lemma pair_ltb_iff x y : pair_ltb x y = true <-> pair_lt x y.
Proof.
  unfold pair_ltb, pair_lt. destruct (Nat.ltb_spec (fst x) (fst y)).
  - intuition.
  - destruct (Nat.eqb_spec (fst x) (fst y)).
    + rewrite Nat.ltb_lt. lia.
    + split; [discriminate|lia].
Qed.

Lemma pair_ltb_spec x y : Bool.reflect (pair_lt x y) (pair_ltb x y).
Proof.
  destruct (pair_ltb x y) eqn:E; constructor.
  - apply pair_ltb_iff; auto.
  - intros H. apply pair_ltb_iff in H. congruence.
Qed.

Lemma pair_lt_trans x y z : pair_lt x y -> pair_lt y z -> pair_lt x z.
Proof. unfold pair_lt. lia. Qed.

Lemma pair_lt_total x y : ~ pair_lt x y -> ~ pair_lt y x -> x = y.
Proof.
  unfold pair_lt. destruct x as [a b], y as [c d]. simpl. intros. f_equal; lia.
Qed.

Lemma set_add_In x l y : In y (set_add x l) <-> In y l \/ y = x.
Proof.
  induction l as [|z t IH]; simpl.
  - intuition.
  - destruct (pair_ltb_spec x z) as [H1|H1].
    + simpl. intuition.
    + destruct (pair_ltb_spec z x) as [H2|H2].
      * simpl. rewrite IH. intuition.
      * pose proof (pair_lt_total x z H1 H2); subst. simpl. intuition.
Qed.

Lemma set_add_sorted x l : StronglySorted pair_lt l -> StronglySorted pair_lt (set_add x l).
Proof.
  induction l as [|z t IH]; intros Hs; simpl.
  - repeat constructor.
  - apply StronglySorted_inv in Hs as [Hs Ha].
    destruct (pair_ltb_spec x z) as [H1|H1].
    + constructor; [constructor; auto|]. constructor; auto.
      eapply Forall_impl; [|exact Ha]. intros; eapply pair_lt_trans; eauto.
    + destruct (pair_ltb_spec z x) as [H2|H2].
      * constructor; auto. rewrite Forall_forall in *. intros y Hy.
        apply set_add_In in Hy as [Hy| ->]; auto.
      * constructor; auto.
Qed.

Lemma vec_add_In {V} (x : nat * V) l y : In y (vec_add x l) <-> In y l \/ y = x.
Proof.
  induction l as [|z t IH]; simpl.
  - intuition.
  - destruct (fst x <? fst z); simpl; [intuition|]. rewrite IH. intuition.
Qed.

Lemma modify_spec {X} (l : list X) p f : p < length l ->
  exists l', modify l p f = Some l' /\ length l' = length l /\
    forall q, nth_error l' q =
      if q =? p then option_map f (nth_error l q) else nth_error l q.
Proof.
  intros H. unfold modify. destruct (nth_error_lt_some l p H) as [x Hx]. rewrite Hx.
  cbn [bind]. eexists; split; [reflexivity|]. split; [apply upd_length|].
  intros q. destruct (Nat.eqb_spec q p) as [->|Ne].
  - rewrite nth_error_upd_same by auto. rewrite Hx. reflexivity.
  - apply nth_error_upd_other. auto.
Qed.

Lemma modify_listed {X} (l : list (list X)) p f e :
  (forall s y, In y (f s) <-> In y s \/ y = e) -> p < length l ->
  exists l', modify l p f = Some l' /\ length l' = length l /\
    (forall q y, listed l' q y <-> listed l q y \/ (q = p /\ y = e)) /\
    (forall (P : list X -> Prop), (forall s, P s -> P (f s)) -> Forall P l -> Forall P l').
Proof.
  intros Hf Hp. destruct (modify_spec l p f Hp) as (l' & E & L & G).
  exists l'. split; auto. split; auto. split.
  - intros q y. unfold listed. rewrite G. destruct (Nat.eqb_spec q p) as [->|Ne].
    + destruct (nth_error_lt_some l p Hp) as [s Hs]. rewrite Hs. simpl. split.
      * intros (s' & Es & Hin). inversion Es; subst. apply Hf in Hin as [Hin|Hin]; eauto.
      * intros [(s' & Es & Hin)|[_ ->]].
        -- inversion Es; subst. exists (f s'). split; auto. apply Hf; auto.
        -- exists (f s). split; auto. apply Hf; auto.
    + split; auto. intros [H|[-> _]]; auto. congruence.
  - intros P HP HF. rewrite Forall_forall in *. intros s Hin.
    apply In_nth_error in Hin as [q Hq]. rewrite G in Hq.
    destruct (q =? p).
    + destruct (nth_error l q) as [s0|] eqn:E0; [|discriminate]. inversion Hq; subst.
      apply HP, HF. eapply nth_error_In; eauto.
    + apply HF. eapply nth_error_In; eauto.
Qed.

(** ** The four tables *)
Inductive key := KInner (p i j : nat) | KInter (p q i j : nat)
               | KRecv (p q k : nat) | KSend (q p k : nat).

Definition content (st : Adj) (k : key) : Prop :=
  match k with
  | KInner p i j => listed (a_inner st) p (i, j)
  | KInter p q i j => listed (a_inter st) p (q, (i, j))
  | KRecv p q m => listed (a_recv st) p (q, m)
  | KSend q p m => listed (a_send st) q (p, m)
  end.

Definition adj_inv (n_parts : nat) (st : Adj) : Prop :=
  length (a_inner st) = n_parts /\ length (a_inter st) = n_parts /\
  length (a_recv st) = n_parts /\ length (a_send st) = n_parts /\
  Forall (StronglySorted pair_lt) (a_recv st) /\ Forall (StronglySorted pair_lt) (a_send st).

Section Adjacency.
  Variables (cell_parts node_parts : list nat) (mesh : MetisMesh) (g : Graph).
  Variables (n_parts n_cells : nat).
  Hypothesis W : wf_csr mesh n_cells.
  Hypothesis WG : wf_graph g n_cells.
  Hypothesis Lc : length cell_parts = n_cells.
  Hypothesis Ln : length node_parts = mm_nodes mesh.
  Hypothesis Fc : Forall (fun q => q < n_parts) cell_parts.
  (* part numbers of used nodes *)
  Hypothesis Fn : forall m k, uses mesh m k -> exists q, nth_error node_parts k = Some q /\ q < n_parts.

  Lemma csr_mesh_row i : i < n_cells ->
    exists row, csr (mm_range mesh) (mm_index mesh) i = Some row /\ csr_row mesh i = Some row.
  Proof.
    intros Hi.
    destruct (nth_error_lt_some (mm_range mesh) i) as [a Ha]; [rewrite (wc_len _ _ W); lia|].
    destruct (nth_error_lt_some (mm_range mesh) (S i)) as [b Hb]; [rewrite (wc_len _ _ W); lia|].
    destruct (csr_row_slice mesh n_cells i a b W Ha Hb) as (H1 & H2 & H3).
    eexists; split; [|exact H3]. unfold csr. rewrite Ha, Hb. cbn [bind].
    destruct (Nat.ltb_spec a b).
    - apply slice_some. lia.
    - replace (b - a) with 0 by lia. reflexivity.
  Qed.

  Lemma csr_graph_row i row : graph_row g i = Some row ->
    csr (g_range g) (g_index g) i = Some row.
  Proof.
    unfold graph_row, csr. destruct (nth_error (g_range g) i) as [a|]; [|discriminate].
    destruct (nth_error (g_range g) (S i)) as [b|]; [|discriminate]. cbn [bind].
    destruct (Nat.leb_spec a b); [|discriminate].
    destruct (Nat.ltb_spec a b); auto. intros E.
    replace (b - a) with 0 in E by lia. unfold slice in E.
    destruct (_ <=? _); [|discriminate]. inversion E. reflexivity.
  Qed.

  Definition node_adds (p : nat) (x : nat) (k : key) : Prop :=
    exists q, nth_error node_parts x = Some q /\ q <> p /\
      (k = KRecv p q x \/ k = KSend q p x).

  Lemma add_node_spec p st x : p < n_parts -> adj_inv n_parts st ->
    (exists q, nth_error node_parts x = Some q /\ q < n_parts) ->
    exists st', add_node node_parts p st x = Some st' /\ adj_inv n_parts st' /\
      forall k, content st' k <-> content st k \/ node_adds p x k.
  Proof.
    intros Hp (L1 & L2 & L3 & L4 & S3 & S4) (q & Hq & Lq).
    unfold add_node. rewrite Hq. cbn [bind]. unfold node_adds.
    destruct (Nat.eqb_spec q p) as [->|Ne].
    - exists st. split; auto. split; [repeat split; auto|]. intros k. split; auto.
      intros [H|(q' & E & N & _)]; auto. congruence.
    - destruct (modify_listed (a_recv st) p (set_add (q, x)) (q, x)) as (r & Er & Lr & Gr & Pr);
        [intros; apply set_add_In|lia|].
      destruct (modify_listed (a_send st) q (set_add (p, x)) (p, x)) as (s & Es & Ls & Gs & Ps);
        [intros; apply set_add_In|lia|].
      rewrite Er. cbn [bind]. rewrite Es. cbn [bind]. eexists; split; [reflexivity|].
      split.
      + repeat split; simpl; try congruence.
        * apply Pr; auto. intros; apply set_add_sorted; auto.
        * apply Ps; auto. intros; apply set_add_sorted; auto.
      + intros k. destruct k; simpl.
        * split; auto. intros [H|(q' & _ & _ & [E|E])]; auto; discriminate.
        * split; auto. intros [H|(q' & _ & _ & [E|E])]; auto; discriminate.
        * rewrite Gr. split.
          -- intros [H|[-> E]]; auto. inversion E; subst. right. eauto.
          -- intros [H|(q' & E1 & _ & [E|E])]; auto; inversion E; subst. right.
             split; auto. congruence.
        * rewrite Gs. split.
          -- intros [H|[-> E]]; auto. inversion E; subst. right. eauto.
          -- intros [H|(q' & E1 & _ & [E|E])]; auto; inversion E; subst. right.
             split; congruence.
  Qed.

  Lemma add_nodes_spec p m st : p < n_parts -> adj_inv n_parts st -> m < n_cells ->
    exists row st', csr (mm_range mesh) (mm_index mesh) m = Some row /\
      foldM (add_node node_parts p) row st = Some st' /\ adj_inv n_parts st' /\
      forall k, content st' k <-> content st k \/ exists x, uses mesh m x /\ node_adds p x k.
  Proof.
    intros Hp Hi Hm. destruct (csr_mesh_row m Hm) as (row & E1 & E2).
    destruct (foldM_content (add_node node_parts p) (adj_inv n_parts) content (node_adds p)
                (fun x => exists q, nth_error node_parts x = Some q /\ q < n_parts)
                (fun s x Hs Hx => add_node_spec p s x Hp Hs Hx) row st Hi)
      as (st' & E & I & C).
    { intros x Hx. apply (Fn m). exists row; auto. }
    exists row, st'. split; auto. split; auto. split; auto.
    intros k. rewrite C. split; (intros [H|(x & Hx & Hk)]; [auto|right; exists x; split; auto]).
    - exists row; auto.
    - destruct Hx as (row' & Er & Hin). congruence.
  Qed.

  Definition nbr_adds (p i j : nat) (k : key) : Prop :=
    (nth_error cell_parts j = Some p /\ i < j /\ k = KInner p i j) \/
    (exists q, nth_error cell_parts j = Some q /\ q <> p /\
       (k = KInter p q i j \/ exists x, uses mesh j x /\ node_adds p x k)).

  Lemma add_nbr_spec p i st j : p < n_parts -> adj_inv n_parts st -> j < n_cells ->
    exists st', add_nbr cell_parts node_parts mesh p i st j = Some st' /\
      adj_inv n_parts st' /\ forall k, content st' k <-> content st k \/ nbr_adds p i j k.
  Proof.
    intros Hp Hi Hj. unfold add_nbr, nbr_adds.
    destruct (nth_error_lt_some cell_parts j) as [q Hq]; [lia|]. rewrite Hq. cbn [bind].
    destruct Hi as (L1 & L2 & L3 & L4 & S3 & S4).
    destruct (Nat.eqb_spec p q) as [->|Ne].
    - destruct (Nat.ltb_spec i j) as [Hij|Hij].
      + destruct (modify_listed (a_inner st) q (fun l => l ++ [(i, j)]) (i, j))
          as (l & El & Ll & Gl & _).
        { intros s y. rewrite in_app_iff. simpl. intuition. }
        { lia. }
        rewrite El. cbn [bind]. eexists; split; [reflexivity|]. split.
        * repeat split; simpl; auto; congruence.
        * intros k. destruct k; simpl.
          -- rewrite Gl. split.
             ++ intros [H|[-> E]]; auto. inversion E; subst. right. left. auto.
             ++ intros [H|[(_ & _ & E)|(q' & E1 & N & [E|(x & _ & (? & _ & _ & [E|E]))])]];
                  auto; inversion E; subst; auto.
          -- split; auto.
             intros [H|[(_ & _ & E)|(q' & E1 & N & _)]]; auto; [inversion E|congruence].
          -- split; auto.
             intros [H|[(_ & _ & E)|(q' & E1 & N & _)]]; auto; [inversion E|congruence].
          -- split; auto.
             intros [H|[(_ & _ & E)|(q' & E1 & N & _)]]; auto; [inversion E|congruence].
      + exists st. split; auto. split; [repeat split; auto|]. intros k. split; auto.
        intros [H|[(_ & H & _)|(q' & E1 & N & _)]]; auto; [lia|congruence].
    - destruct (modify_listed (a_inter st) p (vec_add (q, (i, j))) (q, (i, j)))
        as (l & El & Ll & Gl & _); [intros; apply vec_add_In|lia|].
      rewrite El. cbn [bind].
      destruct (add_nodes_spec p j (mkAdj (a_inner st) l (a_recv st) (a_send st)))
        as (row & st' & E1 & E2 & I & C); auto.
      { repeat split; simpl; auto; congruence. }
      rewrite E1. cbn [bind]. exists st'. split; auto. split; auto.
      intros k. rewrite C.
      assert (Hk : content (mkAdj (a_inner st) l (a_recv st) (a_send st)) k <->
                   content st k \/ k = KInter p q i j).
      { destruct k; simpl; try (split; [auto|intros [H|H]; [auto|discriminate]]).
        rewrite Gl. split; (intros [H|H]; [auto|right]).
        - destruct H as [-> E]. inversion E; auto.
        - inversion H; subst; auto. }
      rewrite Hk. split.
      + intros [[H|H]|H]; auto; right; right; exists q; auto.
      + intros [H|[(E & _)|(q' & Eq & N & H)]]; auto; [congruence|].
        assert (q' = q) by congruence. subst. destruct H as [H|H]; auto.
  Qed.

  Definition cell_adds (i : nat) (k : key) : Prop :=
    exists p, nth_error cell_parts i = Some p /\
      ((exists x, uses mesh i x /\ node_adds p x k) \/
       (exists j, nbr g i j /\ nbr_adds p i j k)).

  Lemma add_cell_spec st i : adj_inv n_parts st -> i < n_cells ->
    exists st', add_cell cell_parts node_parts mesh g st i = Some st' /\
      adj_inv n_parts st' /\ forall k, content st' k <-> content st k \/ cell_adds i k.
  Proof.
    intros Hi Hlt. unfold add_cell, cell_adds.
    destruct (nth_error_lt_some cell_parts i) as [p Hp]; [lia|]. rewrite Hp. cbn [bind].
    assert (Lp : p < n_parts).
    { rewrite Forall_forall in Fc. apply Fc. eapply nth_error_In; eauto. }
    destruct (add_nodes_spec p i st Lp Hi Hlt) as (row & st1 & E1 & E2 & I1 & C1).
    rewrite E1. cbn [bind]. rewrite E2. cbn [bind].
    destruct (wg_rows _ _ WG i Hlt) as [nb Hnb].
    rewrite (csr_graph_row i nb Hnb). cbn [bind].
    destruct (foldM_content (add_nbr cell_parts node_parts mesh p i) (adj_inv n_parts) content
                (nbr_adds p i) (fun j => j < n_cells)
                (fun s j Hs Hj => add_nbr_spec p i s j Lp Hs Hj) nb st1 I1)
      as (st2 & E3 & I2 & C2).
    { intros j Hj. apply (wg_lt _ _ WG i j). exists nb; auto. }
    exists st2. split; auto. split; auto. intros k. rewrite C2, C1. split.
    - intros [[H|H]|(j & Hj & H)]; auto; right; exists p; split; auto.
      right. exists j. split; auto. exists nb; auto.
    - intros [H|(p' & Ep & [H|(j & (nb' & En & Hj) & H)])]; auto;
        assert (p' = p) by congruence; subst; auto.
      right. exists j. split; auto. congruence.
  Qed.

  Theorem BuildAdjacency_content :
    exists adj, BuildAdjacency cell_parts node_parts mesh g n_parts = Some adj /\
      adj_inv n_parts adj /\
      forall k, content adj k <-> exists i, i < n_cells /\ cell_adds i k.
  Proof.
    unfold BuildAdjacency. rewrite (wc_len _ _ W).
    replace (S n_cells - 1) with n_cells by lia.
    set (st0 := mkAdj _ _ _ _).
    assert (I0 : adj_inv n_parts st0).
    { unfold st0. repeat split; simpl; try apply repeat_length;
        apply Forall_forall; intros l Hl; apply repeat_spec in Hl; subst; constructor. }
    destruct (foldM_content (add_cell cell_parts node_parts mesh g) (adj_inv n_parts) content
                cell_adds (fun i => i < n_cells) add_cell_spec (seq 0 n_cells) st0 I0)
      as (adj & E & I & C).
    { intros i Hi. apply in_seq in Hi. lia. }
    exists adj. split; auto. split; auto. intros k. rewrite C. split.
    - intros [H|(i & Hi & H)].
      + exfalso. assert (N : forall X (p : nat) (x : X), ~ listed (repeat [] n_parts) p x).
        { intros X p x (l & Hl & Hx). apply nth_error_In, repeat_spec in Hl. subst. destruct Hx. }
        unfold st0 in H. destruct k; simpl in H; eapply N; eauto.
      + exists i. apply in_seq in Hi. split; [lia|auto].
    - intros (i & Hi & H). right. exists i. split; auto. apply in_seq. lia.
  Qed.

  (** ** The tables in terms of parts, cells and nodes *)
  Theorem BuildAdjacency_correct :
    exists adj, BuildAdjacency cell_parts node_parts mesh g n_parts = Some adj /\
      adj_inv n_parts adj /\
      (forall p i j, listed (a_inner adj) p (i, j) <->
         nbr g i j /\ i < j /\ nth_error cell_parts i = Some p /\ nth_error cell_parts j = Some p) /\
      (forall p q i j, listed (a_inter adj) p (q, (i, j)) <->
         nbr g i j /\ p <> q /\ nth_error cell_parts i = Some p /\ nth_error cell_parts j = Some q) /\
      (forall p q k, listed (a_recv adj) p (q, k) <->
         needs_node cell_parts mesh g p k /\ nth_error node_parts k = Some q /\ q <> p) /\
      (forall p q k, listed (a_send adj) q (p, k) <->
         needs_node cell_parts mesh g p k /\ nth_error node_parts k = Some q /\ q <> p).
  Proof.
    destruct BuildAdjacency_content as (adj & E & I & C).
    exists adj. split; auto. split; auto.
    assert (NN : forall p q k key, (key = KRecv p q k \/ key = KSend q p k) ->
      ((exists i, i < n_cells /\ cell_adds i key) <->
       needs_node cell_parts mesh g p k /\ nth_error node_parts k = Some q /\ q <> p)).
    { intros p q k key Hkey. split.
      - intros (i & Hi & p' & Hp & [(x & Hu & q' & Hq & N & Hk)|(j & Hn & [(_ & _ & Hk)|H])]).
        + assert (p' = p /\ q' = q /\ x = k) as (-> & -> & ->)
            by (destruct Hkey as [->| ->]; destruct Hk as [Hk|Hk]; inversion Hk; auto).
          split; auto. exists i. split; auto. left; auto.
        + destruct Hkey; subst; discriminate.
        + destruct H as (q' & Hq & N & [Hk|(x & Hu & r & Hr & Nr & Hk)]);
            [destruct Hkey; subst; discriminate|].
          assert (p' = p /\ r = q /\ x = k) as (-> & -> & ->)
            by (destruct Hkey as [->| ->]; destruct Hk as [Hk|Hk]; inversion Hk; auto).
          split; auto. exists j. split; auto. right. exists i, q'. auto.
      - intros ((m & [Hm|(i & r & Hi & Hn & Hr & Nr)] & Hu) & Hq & N).
        + destruct (uses_lt mesh n_cells m k W Hu) as [Lm _].
          exists m. split; auto. exists p. split; auto. left. exists k. split; auto.
          exists q. auto.
        + destruct (wg_lt _ _ WG i m Hn) as [Li Lm].
          exists i. split; auto. exists p. split; auto. right. exists m. split; auto.
          right. exists r. split; auto. split; auto. right. exists k. split; auto.
          exists q. auto. }
    split; [|split; [|split]].
    - intros p i j. rewrite (C (KInner p i j)). split.
      + intros (i' & Hi & p' & Hp & [(x & _ & q' & _ & _ & [Hk|Hk])|
          (j' & Hn & [(Hj & Hlt & Hk)|(q' & _ & _ & [Hk|(x & _ & r & _ & _ & [Hk|Hk])])])]);
          inversion Hk; subst; auto.
      + intros (Hn & Hlt & Hi & Hj). exists i. split; [apply (wg_lt _ _ WG i j Hn)|].
        exists p. split; auto. right. exists j. split; auto. left. auto.
    - intros p q i j. rewrite (C (KInter p q i j)). split.
      + intros (i' & Hi & p' & Hp & [(x & _ & q' & _ & _ & [Hk|Hk])|
          (j' & Hn & [(Hj & Hlt & Hk)|(q' & Hq & N & [Hk|(x & _ & r & _ & _ & [Hk|Hk])])])]);
          inversion Hk; subst; auto.
      + intros (Hn & N & Hi & Hj). exists i. split; [apply (wg_lt _ _ WG i j Hn)|].
        exists p. split; auto. right. exists j. split; auto. right. exists q. auto.
    - intros p q k. rewrite (C (KRecv p q k)). apply NN. auto.
    - intros p q k. rewrite (C (KSend q p k)). apply NN. auto.
  Qed.
End Adjacency.
