From Coq Require Import List Arith ZArith Lia Sorted.
From Verif Require Import Arrays Model_Cgns Model_Mapper Model_Metis Model_Partition
  Model_Shuffle Model_Shuffler Spec_Mesh Spec_Metis Spec_Partition Proof_Mapper Proof_Shuffler.
Import ListNotations.

Lemma foldM_keeps {S X} (f : S -> X -> option S) (I : S -> Prop) (C : S -> X -> Prop)
    (ok : X -> Prop) :
  (forall s x, I s -> ok x -> exists s', f s x = Some s' /\ I s' /\
     (forall k, ok k -> C s k -> C s' k) /\ C s' x) ->
  forall l s, I s -> (forall x, In x l -> ok x) ->
  exists s', foldM f l s = Some s' /\ I s' /\
    (forall k, ok k -> C s k -> C s' k) /\ (forall k, In k l -> C s' k).
Proof.
  intros Hf. induction l as [|x t IH]; intros s Hs Hok.
  - exists s. simpl. repeat split; auto. intros k [].
  - destruct (Hf s x Hs (Hok x (or_introl eq_refl))) as (s1 & E1 & I1 & K1 & C1).
    destruct (IH s1 I1) as (s2 & E2 & I2 & K2 & C2).
    { intros; apply Hok; right; auto. }
    exists s2. simpl. rewrite E1. cbn [bind]. repeat split; auto.
    intros k [<-|Hk]; auto. apply K2; auto. apply Hok; left; auto.
Qed.

Lemma consecutive_ge ss : forall first s, consecutive first ss -> In s ss -> first <= s_first s.
Proof.
  induction ss as [|a t IH]; intros first s Hc []; destruct Hc as [H1 H2].
  - subst; auto.
  - specialize (IH _ _ H2 H). lia.
Qed.

Lemma consecutive_unique ss : forall first j k a b c, consecutive first ss ->
  nth_error ss j = Some a -> nth_error ss k = Some b ->
  s_first a <= c < s_first a + s_count a -> s_first b <= c < s_first b + s_count b -> j = k.
Proof.
  induction ss as [|h t IH]; intros first j k a b c Hc Hj Hk Ha Hb.
  - destruct j; discriminate.
  - destruct Hc as [H1 H2]. destruct j as [|j], k as [|k]; auto; simpl in Hj, Hk.
    + inversion Hj; subst. apply nth_error_In in Hk.
      pose proof (consecutive_ge _ _ _ H2 Hk). lia.
    + inversion Hk; subst. apply nth_error_In in Hj.
      pose proof (consecutive_ge _ _ _ H2 Hj). lia.
    + f_equal. eapply IH; eauto.
Qed.

(** cells of the highest dimension are numbered 1..zone_cells *)
Lemma cells_first {A} cell_dim (zn : Zone A) :
  consecutive 1 (z_sections zn) -> dims_sorted cell_dim (z_sections zn) ->
  forall s, In s (z_sections zn) -> s_dim s = cell_dim ->
  1 <= s_first s /\ s_first s - 1 + s_count s <= zone_cells cell_dim zn.
Proof.
  intros Hc [Hs Hf] s Hin Hd. split; [eapply consecutive_ge; eauto|].
  unfold zone_cells. revert Hc Hs Hf Hin. generalize (z_sections zn) as ss. intros ss.
  assert (G : forall first, consecutive first ss ->
    StronglySorted (fun a b => (s_dim b <= s_dim a)%Z) ss ->
    Forall (fun s => (s_dim s <= cell_dim)%Z) ss -> In s ss ->
    s_first s + s_count s <= first +
      fold_right (fun s n => if Z.eqb (s_dim s) cell_dim then s_count s + n else n) 0 ss).
  { induction ss as [|a t IH]; intros first Hc Hs Hf Hin; [destruct Hin|].
    destruct Hc as [H1 H2]. apply StronglySorted_inv in Hs as [Hs Ha].
    inversion Hf as [|? ? Hle Hft]; subst. simpl.
    destruct Hin as [->|Hin].
    - destruct (Z.eqb_spec (s_dim s) (s_dim s)); [lia|congruence].
    - rewrite Forall_forall in Ha. pose proof (Ha _ Hin).
      destruct (Z.eqb_spec (s_dim a) (s_dim s)); [|lia].
      specialize (IH (s_first a + s_count a) H2 Hs Hft Hin). lia. }
  intros Hc Hs Hf Hin. pose proof (consecutive_ge _ _ _ Hc Hin). specialize (G 1 Hc Hs Hf Hin).
  lia.
Qed.

Section Write.
  Context {A : Type} (inj : nat -> A).
  Variables (cell_dim : Z) (mp : Mapper) (cell_parts node_parts : list nat).
  Variable zs : list (Zone A).
  Hypothesis V : valid_mapper cell_dim zs mp.
  Hypothesis Ln : length node_parts = length (m2c_nodes mp).
  Hypothesis Lc : length cell_parts = length (m2c_cells mp).
  Hypothesis Hcons : Forall (fun zn => consecutive 1 (z_sections zn)) zs.
  Hypothesis Hdims : Forall (fun zn => dims_sorted cell_dim (z_sections zn)) zs.

  Definition zone_written (z : nat) (zn zn' : Zone A) : Prop :=
    exists np nm cp cm,
      zn' = mkZone (z_x zn) (z_y zn) (z_z zn) (z_sections zn)
              (np :: nm :: z_node_fields zn) (cp :: cm :: z_cell_fields zn) /\
      length np = CountNodes zn /\ length nm = CountNodes zn /\
      length cp = zone_cells cell_dim zn /\ length cm = zone_cells cell_dim zn /\
      (forall i m, node_of mp z i = Some m -> exists p, nth_error node_parts m = Some p /\
         at1 np i = Some (inj p) /\ at1 nm i = Some (inj m)) /\
      (forall s c m, cell_of mp z s c = Some m -> exists p, nth_error cell_parts m = Some p /\
         at1 cp c = Some (inj p) /\ at1 cm c = Some (inj m)).

  Lemma node_of_lt z i m : node_of mp z i = Some m -> m < length node_parts.
  Proof.
    intros H. apply (vm_nodes _ _ _ V) in H. rewrite Ln. eapply nth_error_some_lt; eauto.
  Qed.
  Lemma cell_of_lt z s c m : cell_of mp z s c = Some m -> m < length cell_parts.
  Proof.
    intros H. apply (vm_cells _ _ _ V) in H. rewrite Lc. eapply nth_error_some_lt; eauto.
  Qed.

  Lemma write_node_fields_ok k zn : nth_error zs k = Some zn ->
    exists np nm, write_node_fields inj mp node_parts (S k) (CountNodes zn) = Some (np, nm) /\
      length np = CountNodes zn /\ length nm = CountNodes zn /\
      (forall i m, node_of mp (S k) i = Some m -> exists p, nth_error node_parts m = Some p /\
         at1 np i = Some (inj p) /\ at1 nm i = Some (inj m)).
  Proof.
    intros Hk. unfold write_node_fields.
    assert (D : forall i, In i (seq 1 (CountNodes zn)) ->
                exists m, node_of mp (S k) i = Some m /\ node_of mp (S k) i = Some m).
    { intros i Hi. apply in_seq in Hi.
      destruct (proj2 (vm_nodes_dom _ _ _ V (S k) i)) as [m Hm]; eauto.
      exists zn. split; [exact Hk|lia]. }
    destruct (mapM_exists _ _ _ D) as (ms & Ems & F). rewrite Ems. cbn [bind].
    assert (D2 : forall m, In m ms ->
                 exists p, nth_error node_parts m = Some p /\ nth_error node_parts m = Some p).
    { intros m Hm. apply In_nth_error in Hm as [j Hj].
      assert (Lj : j < length (seq 1 (CountNodes zn)))
        by (rewrite <- (mapM_length _ _ _ Ems); eapply nth_error_some_lt; eauto).
      destruct (nth_error_lt_some _ _ Lj) as [i Hi].
      destruct (mapM_nth _ _ _ _ _ Ems Hi) as (m' & Em & Hj'). rewrite Hj in Hj'.
      inversion Hj'; subst. apply node_of_lt in Em.
      destruct (nth_error_lt_some _ _ Em) as [p Hp]. eauto. }
    destruct (mapM_exists _ _ _ D2) as (ps & Eps & F2). rewrite Eps. cbn [bind].
    exists (map inj ps), (map inj ms). split; [reflexivity|].
    pose proof (mapM_length _ _ _ Ems) as L1. rewrite seq_length in L1.
    pose proof (mapM_length _ _ _ Eps) as L2.
    rewrite !map_length. split; [congruence|]. split; [congruence|].
    intros i m Hm.
    destruct (proj1 (vm_nodes_dom _ _ _ V (S k) i)) as (zn' & Hz & Hi); [eauto|].
    assert (zn' = zn) by (simpl in Hz; congruence). subst.
    destruct i as [|i]; [lia|].
    assert (Hs : nth_error (seq 1 (CountNodes zn)) i = Some (S i))
      by (rewrite nth_error_seq by lia; reflexivity).
    destruct (mapM_nth _ _ _ _ _ Ems Hs) as (m' & Em & Hm').
    assert (m' = m) by congruence. subst.
    destruct (mapM_nth _ _ _ _ _ Eps Hm') as (p & Ep & Hp).
    exists p. split; auto. simpl. rewrite !nth_error_map, Hp, Hm'. auto.
  Qed.

  (** the pair of cell fields has the right values at id [c] *)
  Definition cell_good (z : nat) (fs : list A * list A) (c : nat) : Prop :=
    forall s m, cell_of mp z s c = Some m -> exists p, nth_error cell_parts m = Some p /\
      at1 (fst fs) c = Some (inj p) /\ at1 (snd fs) c = Some (inj m).

  Lemma write_cell_ok k zn s sec n fs c :
    nth_error zs k = Some zn -> at1 (z_sections zn) s = Some sec -> s_dim sec = cell_dim ->
    n = zone_cells cell_dim zn -> length (fst fs) = n -> length (snd fs) = n ->
    s_first sec <= c < s_first sec + s_count sec ->
    exists fs', write_cell inj mp cell_parts (S k) s fs c = Some fs' /\
      (length (fst fs') = n /\ length (snd fs') = n) /\
      (forall c', 1 <= c' -> cell_good (S k) fs c' -> cell_good (S k) fs' c') /\
      cell_good (S k) fs' c.
  Proof.
    intros Hk Hs Hd En L1 L2 Hc. unfold write_cell.
    destruct (proj2 (vm_cells_dom _ _ _ V (S k) s c)) as [m Hm].
    { exists zn, sec. auto. }
    rewrite Hm. cbn [bind].
    destruct (nth_error_lt_some cell_parts m (cell_of_lt _ _ _ _ Hm)) as [p Hp].
    rewrite Hp. cbn [bind].
    assert (Hin : In sec (z_sections zn)) by (destruct s; [discriminate|]; eapply nth_error_In; eauto).
    rewrite Forall_forall in Hcons, Hdims.
    pose proof (nth_error_In _ _ Hk) as Hkin.
    destruct (cells_first cell_dim zn (Hcons _ Hkin) (Hdims _ Hkin) sec Hin Hd) as [F1 F2].
    unfold upd_opt. destruct (Nat.ltb_spec (c - 1) (length (fst fs))); [|lia].
    cbn [bind]. destruct (Nat.ltb_spec (c - 1) (length (snd fs))); [|lia]. cbn [bind].
    assert (U : cell_good (S k) (upd (fst fs) (c - 1) (inj p), upd (snd fs) (c - 1) (inj m)) c).
    { intros s' m' Hm'.
      assert (s' = s).
      { destruct (proj1 (vm_cells_dom _ _ _ V (S k) s' c)) as (zn' & sec' & Hz & Hs' & Hd' & Hc');
          [eauto|].
        assert (zn' = zn) by (simpl in Hz; congruence). subst.
        destruct s as [|s], s' as [|s']; try discriminate. f_equal.
        eapply (consecutive_unique _ 1 s' s sec' sec c); eauto. }
      subst s'. assert (m' = m) by congruence. subst. exists p. split; auto.
      destruct c as [|c]; [lia|]. cbn [at1 fst snd]. replace (S c - 1) with c by lia.
      rewrite !nth_error_upd_same by lia. auto. }
    eexists; split; [reflexivity|]. cbn [fst snd]. rewrite !upd_length.
    split; [auto|]. split; [|exact U].
    intros c' Hc1 G. destruct (Nat.eq_dec c' c) as [->|Ne]; [exact U|].
    intros s' m' Hm'. destruct (G s' m' Hm') as (p' & Ep & G1 & G2).
    exists p'. split; auto. destruct c' as [|c']; [lia|]. cbn [at1 fst snd] in *.
    rewrite !nth_error_upd_other by lia. auto.
  Qed.

  Lemma write_cells_ok k zn n : nth_error zs k = Some zn -> n = zone_cells cell_dim zn ->
    forall ss s fs,
    (forall j sec, nth_error ss j = Some sec -> at1 (z_sections zn) (s + j) = Some sec) ->
    length (fst fs) = n -> length (snd fs) = n ->
    exists fs', write_cells inj cell_dim mp cell_parts (S k) s ss fs = Some fs' /\
      length (fst fs') = n /\ length (snd fs') = n /\
      (forall c, 1 <= c -> cell_good (S k) fs c -> cell_good (S k) fs' c) /\
      (forall sec c, In sec ss -> s_dim sec = cell_dim ->
         s_first sec <= c < s_first sec + s_count sec -> cell_good (S k) fs' c).
  Proof.
    intros Hk En. induction ss as [|sec t IH]; intros s fs Hss L1 L2.
    - exists fs. repeat split; auto. intros sec c [].
    - cbn [write_cells].
      assert (Hsec : at1 (z_sections zn) s = Some sec)
        by (replace s with (s + 0) by lia; apply Hss; reflexivity).
      assert (Hone : 1 <= s_first sec).
      { rewrite Forall_forall in Hcons. eapply consecutive_ge.
        - apply (Hcons zn). eapply nth_error_In; eauto.
        - destruct s; [discriminate|]. eapply nth_error_In; eauto. }
      assert (Hstep : exists fs1, (if Z.eqb (s_dim sec) cell_dim
                 then foldM (write_cell inj mp cell_parts (S k) s)
                        (seq (s_first sec) (s_count sec)) fs
                 else Some fs) = Some fs1 /\ length (fst fs1) = n /\ length (snd fs1) = n /\
        (forall c, 1 <= c -> cell_good (S k) fs c -> cell_good (S k) fs1 c) /\
        (forall c, s_dim sec = cell_dim ->
           s_first sec <= c < s_first sec + s_count sec -> cell_good (S k) fs1 c)).
      { destruct (Z.eqb_spec (s_dim sec) cell_dim) as [Hd|Hd].
        - assert (Hk2 : forall l fs, (length (fst fs) = n /\ length (snd fs) = n) ->
            (forall c, In c l -> s_first sec <= c < s_first sec + s_count sec) ->
            exists fs', foldM (write_cell inj mp cell_parts (S k) s) l fs = Some fs' /\
              (length (fst fs') = n /\ length (snd fs') = n) /\
              (forall c, 1 <= c -> cell_good (S k) fs c -> cell_good (S k) fs' c) /\
              (forall c, In c l -> cell_good (S k) fs' c)).
          { induction l as [|c l IHl]; intros fs0 [M1 M2] Hl.
            - exists fs0. repeat split; auto. intros c [].
            - destruct (write_cell_ok k zn s sec n fs0 c) as (fs1 & E1 & M & K1 & C1); auto.
              { apply Hl; left; auto. }
              destruct (IHl fs1 M) as (fs2 & E2 & M' & K2 & C2).
              { intros; apply Hl; right; auto. }
              exists fs2. simpl. rewrite E1. cbn [bind]. split; auto. split; auto.
              split; auto. intros c' [<-|Hc']; auto. apply K2; auto.
              pose proof (Hl c (or_introl eq_refl)). lia. }
          destruct (Hk2 (seq (s_first sec) (s_count sec)) fs) as (fs1 & E1 & [M1 M2] & K1 & C1).
          { auto. }
          { intros c Hc. apply in_seq in Hc. lia. }
          exists fs1. repeat split; auto. intros c _ Hc. apply C1. apply in_seq. lia.
        - exists fs. repeat split; auto. intros; contradiction. }
      destruct Hstep as (fs1 & E1 & M1 & M2 & K1 & C1). rewrite E1. cbn [bind].
      destruct (IH (S s) fs1) as (fs2 & E2 & M3 & M4 & K2 & C2); auto.
      { intros j sec' Hj. replace (S s + j) with (s + S j) by lia. apply Hss. auto. }
      exists fs2. repeat split; auto.
      intros sec' c [<-|Hin] Hd Hc; eauto. apply K2; [lia|]. apply C1; auto.
  Qed.

  Theorem WriteParts_ok :
    exists zs', WriteParts inj cell_dim mp cell_parts node_parts zs = Some zs' /\
      length zs' = length zs /\
      forall k zn, nth_error zs k = Some zn ->
        exists zn', nth_error zs' k = Some zn' /\ zone_written (S k) zn zn'.
  Proof.
    unfold WriteParts.
    assert (G : forall l k, (forall j zn, nth_error l j = Some zn -> nth_error zs (k + j) = Some zn) ->
      exists zs', write_parts inj cell_dim mp cell_parts node_parts (S k) l = Some zs' /\
        length zs' = length l /\
        forall j zn, nth_error l j = Some zn ->
          exists zn', nth_error zs' j = Some zn' /\ zone_written (S (k + j)) zn zn').
    { induction l as [|zn t IH]; intros k Hl.
      - exists []. split; [reflexivity|]. split; [reflexivity|]. intros [|j]; discriminate.
      - cbn [write_parts].
        assert (Hk : nth_error zs k = Some zn)
          by (replace k with (k + 0) by lia; apply Hl; reflexivity).
        destruct (write_node_fields_ok k zn Hk) as (np & nm & E1 & N1 & N2 & N3).
        rewrite E1. cbn [bind].
        destruct (write_cells_ok k zn (zone_cells cell_dim zn) Hk eq_refl (z_sections zn) 1
                    (repeat (inj 0) (zone_cells cell_dim zn), repeat (inj 0) (zone_cells cell_dim zn)))
          as ([cp cm] & E2 & M1 & M2 & K & C).
        { intros j sec Hj. exact Hj. }
        { apply repeat_length. }
        { apply repeat_length. }
        rewrite E2. cbn [bind].
        destruct (IH (S k)) as (zs' & E3 & L & F).
        { intros j zn' Hj. replace (S k + j) with (k + S j) by lia. apply Hl. auto. }
        rewrite E3. cbn [bind]. eexists; split; [reflexivity|]. split; [simpl; auto|].
        intros [|j] zn' Hj.
        + simpl in Hj. inversion Hj; subst zn'. eexists; split; [reflexivity|].
          rewrite Nat.add_0_r. exists np, nm, cp, cm. split; [reflexivity|].
          repeat (split; [assumption|]).
          intros s c m Hm.
          destruct (proj1 (vm_cells_dom _ _ _ V (S k) s c)) as (zn' & sec & Hz & Hs & Hd & Hc);
            [eauto|].
          assert (zn' = zn) by (simpl in Hz; congruence). subst zn'.
          apply (C sec c) in Hm; auto.
          destruct s; [discriminate|]. eapply nth_error_In; eauto.
        + simpl in Hj. destruct (F j zn' Hj) as (zn2 & Hz & Hw). exists zn2. split; auto.
          replace (k + S j) with (S k + j) by lia. auto. }
    apply (G zs 0). auto.
  Qed.
End Write.

(** [Map] and [FillFaceParts] do not look at fields *)
Definition same_shape {A} (a b : Zone A) : Prop :=
  CountNodes b = CountNodes a /\ z_sections b = z_sections a.

Lemma map_zones_shape {A} cell_dim (zs zs' : list (Zone A)) :
  Forall2 same_shape zs zs' -> forall i p n m cs,
  map_zones cell_dim i p zs' n m cs = map_zones cell_dim i p zs n m cs.
Proof.
  induction 1 as [|a b t t' [H1 H2] Ht IH]; intros i p n m cs; auto.
  cbn [map_zones]. rewrite H1, H2. destruct (map_nodes i (CountNodes a) (m, [], n)) as [[m1 no] n1].
  destruct (map_sections cell_dim i 1 p (z_sections a) cs) as [[cs1 v]|]; auto.
  cbn [bind]. rewrite IH. reflexivity.
Qed.

Lemma Map_shape {A} cell_dim (zs zs' : list (Zone A)) :
  Forall2 same_shape zs zs' -> Map cell_dim zs' = Map cell_dim zs.
Proof. intros H. unfold Map. rewrite (map_zones_shape cell_dim zs zs' H). reflexivity. Qed.

Lemma FillFaceParts_shape {A} cell_dim cp mp (zs zs' : list (Zone A)) :
  Forall2 same_shape zs zs' ->
  FillFaceParts cell_dim cp mp zs' = FillFaceParts cell_dim cp mp zs.
Proof.
  intros H. unfold FillFaceParts.
  assert (E1 : forall z, zones_uses cell_dim mp z zs' = zones_uses cell_dim mp z zs).
  { induction H as [|a b t t' [H1 H2] Ht IH]; intros z; auto.
    simpl. rewrite H2, IH. reflexivity. }
  rewrite E1. destruct (zones_uses cell_dim mp 1 zs) as [u|]; auto. cbn [bind].
  generalize 1. induction H as [|a b t t' [H1 H2] Ht IH]; intros z; auto.
  simpl. rewrite H2, IH; auto. intros z'. specialize (E1 z').
  clear -Ht. revert z'. induction Ht as [|a b t t' [H1 H2] Ht IH]; intros z; auto.
  simpl. rewrite H2, IH. reflexivity.
Qed.

Lemma written_shape {A} (inj : nat -> A) cd mp cp np (zs zs' : list (Zone A)) :
  length zs' = length zs ->
  (forall k zn, nth_error zs k = Some zn ->
     exists zn', nth_error zs' k = Some zn' /\ zone_written inj cd mp cp np (S k) zn zn') ->
  Forall2 same_shape zs zs'.
Proof.
  assert (G : forall (zs zs' : list (Zone A)) (P : nat -> Zone A -> Zone A -> Prop),
    length zs' = length zs ->
    (forall k zn, nth_error zs k = Some zn -> exists zn', nth_error zs' k = Some zn' /\ P k zn zn') ->
    (forall k a b, P k a b -> same_shape a b) -> Forall2 same_shape zs zs').
  { clear. induction zs as [|a t IH]; intros [|b t'] P L H HP; try discriminate; constructor.
    - destruct (H 0 a eq_refl) as (b' & E & Hb). inversion E; subst. eauto.
    - apply (IH t' (fun k => P (S k))); auto.
      + intros k zn Hk. apply (H (S k) zn Hk).
      + intros; eapply HP; eauto. }
  intros L H. apply (G zs zs' (fun k => zone_written inj cd mp cp np (S k)) L H).
  intros k a b (n1 & n2 & c1 & c2 & -> & _). split; reflexivity.
Qed.

Lemma written_wf {A} (inj : nat -> A) cd mp cp np z zn zn' :
  wf_zone cd zn -> dims_sorted cd (z_sections zn) ->
  zone_written inj cd mp cp np z zn zn' -> wf_zone cd zn'.
Proof.
  intros W Hd (n1 & n2 & c1 & c2 & -> & L1 & L2 & L3 & L4 & _).
  constructor; try apply W; cbn [z_node_fields z_cell_fields z_sections].
  - constructor; auto. constructor; auto. apply W.
  - assert (F : forall s, In s (z_sections zn) -> s_dim s = cd ->
                s_first s - 1 + s_count s <= zone_cells cd zn).
    { intros s Hs E. apply (cells_first cd zn); auto. apply W. }
    constructor; [intros s Hs E; rewrite L3; auto|].
    constructor; [intros s Hs E; rewrite L4; auto|]. apply W.
Qed.
