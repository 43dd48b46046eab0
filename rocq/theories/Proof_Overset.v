(** Correctness of the breadth-first searches in overset meshes. *)
From Coq Require Import List Arith ZArith Lia Bool Reals Lra.
From Verif Require Import Arrays Model_Cgns Model_Mapper Model_Metis Model_Partition Model_Overset
  Spec_Mesh Spec_Metis Spec_Partition Spec_Overset Proof_Mapper Proof_Shuffler Proof_Adjacency.
Import ListNotations.
Local Open Scope nat_scope.

Lemma mem_In x l : mem x l = true <-> In x l.
Proof.
  unfold mem. rewrite existsb_exists. split.
  - intros (y & H & E). apply Nat.eqb_eq in E. subst; auto.
  - intros H. exists x. split; auto. apply Nat.eqb_refl.
Qed.

Lemma NoDup_snoc {X} (l : list X) x : NoDup l -> ~ In x l -> NoDup (l ++ [x]).
Proof.
  induction 1 as [|y t Hy Ht IH]; simpl; intros Hx.
  - constructor; auto. constructor.
  - constructor.
    + rewrite in_app_iff. simpl. intuition.
    + apply IH. intuition.
Qed.

Section Search.
  Variables (nbrs : nat -> option (list nat)) (within : nat -> option bool) (N : nat).
  Definition edge i j := exists row, nbrs i = Some row /\ In j row.
  Definition ok j := within j = Some true.
  Hypothesis Hn : forall i, i < N -> exists row, nbrs i = Some row /\ Forall (fun j => j < N) row.
  Hypothesis Hw : forall j, j < N -> exists b, within j = Some b.

  Lemma visits_ok F js : Forall (fun j => j < N) js -> forall n, NoDup (F ++ n) ->
    exists n', foldM (visit within) js (F ++ n, n) = Some (F ++ n', n') /\ NoDup (F ++ n') /\
      forall y, In y n' <-> In y n \/ (In y js /\ ~ In y F /\ ok y).
  Proof.
    induction 1 as [|j t Hj Ht IH]; intros n ND.
    - exists n. split; auto. split; auto. intros y. simpl. tauto.
    - cbn [foldM]. unfold visit at 1. cbn [fst snd].
      destruct (mem j (F ++ n)) eqn:Em.
      + cbn [bind]. destruct (IH n ND) as (n' & E & ND' & H). exists n'. split; auto. split; auto.
        intros y. rewrite H. apply mem_In in Em. apply in_app_iff in Em. simpl. split.
        * intuition.
        * intros [H1|([<-|H1] & H2 & H3)]; auto. tauto.
      + assert (Hnj : ~ In j (F ++ n)) by (intros X; apply mem_In in X; congruence).
        destruct (Hw j Hj) as [b Hb]. rewrite Hb. cbn [bind]. destruct b; cbn [bind].
        * rewrite <- app_assoc. destruct (IH (n ++ [j])) as (n' & E & ND' & H).
          { rewrite app_assoc. apply NoDup_snoc; auto. }
          exists n'. split; auto. split; auto. intros y. rewrite H, in_app_iff. simpl.
          rewrite in_app_iff in Hnj. unfold ok. split.
          -- intros [[H1|[<-|[]]]|(H1 & H2 & H3)]; auto.
             right. split; auto.
          -- intros [H1|([<-|H1] & H2 & H3)]; auto.
        * destruct (IH n ND) as (n' & E & ND' & H). exists n'. split; auto. split; auto.
          intros y. rewrite H. simpl. unfold ok. split.
          -- intuition.
          -- intros [H1|([<-|H1] & H2 & H3)]; auto. congruence.
  Qed.

  Lemma layer_ok F cur : Forall (fun j => j < N) cur -> NoDup F ->
    exists next, layer nbrs within F cur = Some (F ++ next, next) /\ NoDup (F ++ next) /\
      Forall (fun j => j < N) next /\
      forall y, In y next <-> ~ In y F /\ ok y /\ exists i, In i cur /\ edge i y.
  Proof.
    intros Hc ND. unfold layer.
    assert (G : forall n, NoDup (F ++ n) ->
      exists n', foldM (fun st i => do js <- nbrs i; foldM (visit within) js st) cur (F ++ n, n) =
                 Some (F ++ n', n') /\ NoDup (F ++ n') /\
        forall y, In y n' <-> In y n \/ (~ In y F /\ ok y /\ exists i, In i cur /\ edge i y)).
    { clear ND. induction Hc as [|i t Hi Ht IH]; intros n ND.
      - exists n. split; auto. split; auto. intros y. split; auto. intros [H|(_ & _ & i & [] & _)]; auto.
      - cbn [foldM]. destruct (Hn i Hi) as (row & E & Hrow). rewrite E. cbn [bind].
        destruct (visits_ok F row Hrow n ND) as (n1 & E1 & ND1 & H1). rewrite E1. cbn [bind].
        destruct (IH n1 ND1) as (n2 & E2 & ND2 & H2). exists n2. split; auto. split; auto.
        intros y. rewrite H2, H1. split.
        + intros [[H|(H3 & H4 & H5)]|(H3 & H4 & k & H5 & H6)]; auto.
          * right. split; auto. split; auto. exists i. split; [left; auto|]. exists row. auto.
          * right. split; auto. split; auto. exists k. split; [right|]; auto.
        + intros [H|(H3 & H4 & k & [<-|H5] & H6)]; auto.
          * destruct H6 as (row' & E' & H6). rewrite E in E'. inversion E'; subst row'. left. right. auto.
          * right. split; auto. split; eauto. }
    destruct (G []) as (n' & E & ND' & H); [rewrite app_nil_r; auto|].
    rewrite app_nil_r in E. exists n'. split; auto. split; auto.
    assert (HI : forall y, In y n' <-> ~ In y F /\ ok y /\ exists i, In i cur /\ edge i y).
    { intros y. rewrite H. simpl. tauto. }
    split; auto. apply Forall_forall. intros y Hy. apply HI in Hy.
    destruct Hy as (_ & _ & i & Hi & row & Er & Hr). rewrite Forall_forall in Hc.
    destruct (Hn i (Hc i Hi)) as (row' & E' & F'). rewrite Er in E'. inversion E'; subst row'.
    rewrite Forall_forall in F'. auto.
  Qed.

  Variable seeds : list nat.
  Let W := walk edge ok (fun x => In x seeds).
  Let D := at_distance edge ok (fun x => In x seeds).

  Lemma walk_prefix t y : D (S t) y -> exists x, D t x /\ edge x y /\ ok y.
  Proof.
    intros [H1 H2]. inversion H1 as [|k x y' Hx He Hok]; subst. exists x. split; auto. split; auto.
    intros k' Hk' Hw'. apply (H2 (S k')); [lia|]. econstructor; eauto.
  Qed.

  Lemma next_distance t F cur next :
    (forall x, In x F <-> exists k, k <= t /\ W k x) -> (forall x, In x cur <-> D t x) ->
    (forall y, In y next <-> ~ In y F /\ ok y /\ exists i, In i cur /\ edge i y) ->
    forall y, In y next <-> D (S t) y.
  Proof.
    intros HF Hc Hn' y. rewrite Hn'. split.
    - intros (H1 & H2 & i & H3 & H4). apply Hc in H3. split.
      + econstructor; eauto. apply H3.
      + intros k' Hk' Hw'. apply H1. apply HF. exists k'. split; auto. lia.
    - intros H. split; [|split].
      + intros HF'. apply HF in HF'. destruct HF' as (k & Hk & Hk'). destruct H as [_ H].
        apply (H k); auto. lia.
      + destruct H as [H _]. inversion H; auto.
      + destruct (walk_prefix t y H) as (x & Hx & He & _). exists x. split; auto. apply Hc. auto.
  Qed.

  Lemma no_distance t : (forall x, ~ D t x) -> forall k x, ~ D (k + t) x.
  Proof.
    intros H. induction k as [|k IH]; simpl; intros x Hx; [eapply H; eauto|].
    apply walk_prefix in Hx. destruct Hx as (y & Hy & _). eapply IH; eauto.
  Qed.

  Lemma fringe_loop_ok n : forall t cur F, NoDup F -> Forall (fun j => j < N) cur ->
    (forall x, In x F <-> exists k, k <= t /\ W k x) -> (forall x, In x cur <-> D t x) ->
    exists ls, fringe_loop nbrs within n cur F F = Some (F ++ concat ls) /\ length ls = n /\
      NoDup (F ++ concat ls) /\
      forall k l, nth_error ls k = Some l -> forall x, In x l <-> D (S t + k) x.
  Proof.
    induction n as [|n IH]; intros t cur F ND Hcur HF Hc.
    - exists []. simpl. rewrite app_nil_r. repeat split; auto; destruct k; discriminate.
    - destruct cur as [|c0 cur'] eqn:Ecur.
      + exists (repeat [] (S n)). assert (E0 : concat (repeat (@nil nat) (S n)) = []).
        { clear. induction (S n); simpl; auto. }
        rewrite E0, app_nil_r. split; [reflexivity|]. split; [apply repeat_length|]. split; auto.
        intros k l Hk x. assert (l = []).
        { apply nth_error_In in Hk. apply repeat_spec in Hk. auto. }
        subst l. split; [intros []|]. intros HD. exfalso.
        replace (S t + k) with (S k + t) in HD by lia. revert HD. apply no_distance.
        intros y Hy. apply Hc in Hy. auto.
      + rewrite <- Ecur in *. assert (E : fringe_loop nbrs within (S n) cur F F =
          do (found', next) <- layer nbrs within F cur;
          fringe_loop nbrs within n next found' (F ++ next)).
        { rewrite Ecur. reflexivity. }
        rewrite E. destruct (layer_ok F cur Hcur ND) as (next & El & ND' & Hnx & Hnext).
        rewrite El. cbn [bind].
        pose proof (next_distance t F cur next HF Hc Hnext) as HD.
        destruct (IH (S t) next (F ++ next) ND' Hnx) as (ls & E1 & L & ND1 & H1); auto.
        { intros x. rewrite in_app_iff, HF, HD. split.
          - intros [(k & Hk & H)|H]; [exists k|exists (S t)]; split; auto; try lia. apply H.
          - intros (k & Hk & H). destruct (mem x F) eqn:Em.
            + apply mem_In in Em. left. apply HF. auto.
            + assert (HnF : ~ In x F) by (intros X; apply mem_In in X; congruence).
              assert (k = S t).
              { assert (~ k <= t) by (intros X; apply HnF; apply HF; eauto). lia. }
              subst k. right. split; auto. intros k' Hk' Hw'. apply HnF. apply HF. exists k'. split; auto. lia. }
        exists (next :: ls). cbn [concat]. rewrite app_assoc. split; auto. split; [simpl; auto|]. split; auto.
        intros [|k] l Hk x; simpl in Hk.
        * inversion Hk; subst l. rewrite Nat.add_0_r. auto.
        * replace (S t + S k) with (S (S t) + k) by lia. apply H1. auto.
  Qed.

  (** donors: the whole connected set *)
  Lemma donor_loop_ok fuel : forall cur F, NoDup F -> Forall (fun j => j < N) F ->
    (forall x, In x cur -> In x F) ->
    (forall x, In x F -> exists k, W k x) -> (forall x, In x seeds -> In x F) ->
    (forall x y, In x F -> In x cur \/ (edge x y -> ok y -> In y F)) ->
    N < fuel + length F ->
    exists l, donor_loop nbrs within fuel cur F F = Some l /\ NoDup l /\
      exists tl, l = F ++ tl /\ forall x, In x l <-> exists k, W k x.
  Proof.
    induction fuel as [|fuel IH]; intros cur F ND HFN HcF HF Hs Hcl Hfuel.
    - assert (length F <= N).
      { rewrite <- (seq_length N 0). apply NoDup_incl_length; auto. intros x Hx.
        apply in_seq. rewrite Forall_forall in HFN. specialize (HFN x Hx). lia. }
      lia.
    - destruct cur as [|c0 cur'] eqn:Ecur.
      + exists F. split; auto. split; auto. exists []. rewrite app_nil_r. split; auto.
        intros x. split; auto. intros (k & Hk). induction Hk as [x Hx|k x y _ IHx He Hok]; auto.
        destruct (Hcl x y IHx) as [[]|H]; auto.
      + rewrite <- Ecur in *. assert (E : donor_loop nbrs within (S fuel) cur F F =
          do (found', next) <- layer nbrs within F cur;
          donor_loop nbrs within fuel next found' (F ++ next)).
        { rewrite Ecur. reflexivity. }
        rewrite E. assert (Hcur : Forall (fun j => j < N) cur).
        { apply Forall_forall. intros x Hx. rewrite Forall_forall in HFN. auto. }
        destruct (layer_ok F cur Hcur ND) as (next & El & ND' & Hnx & Hnext).
        rewrite El. cbn [bind].
        destruct next as [|n0 next'] eqn:En.
        * rewrite app_nil_r. exists F. split; [destruct fuel; reflexivity|]. split; auto.
          exists []. rewrite app_nil_r. split; auto. intros x. split; auto. intros (k & Hk).
          induction Hk as [x Hx|k x y _ IHx He Hok]; auto.
          destruct (Hcl x y IHx) as [H|H]; auto.
          destruct (mem y F) eqn:Em; [apply mem_In; auto|]. exfalso.
          apply (proj2 (Hnext y)). split; [intros X; apply mem_In in X; congruence|]. split; eauto.
        * rewrite <- En in *. destruct (IH next (F ++ next)) as (l & E1 & ND1 & tl & E2 & H1); auto.
          -- apply Forall_app. auto.
          -- intros x Hx. apply in_app_iff. auto.
          -- intros x Hx. apply in_app_iff in Hx. destruct Hx as [Hx|Hx]; auto.
             apply Hnext in Hx. destruct Hx as (_ & Hok & i & Hi & He).
             destruct (HF i (HcF i Hi)) as (k & Hk). exists (S k). econstructor; eauto.
          -- intros x Hx. apply in_app_iff. auto.
          -- intros x y Hx. apply in_app_iff in Hx. destruct Hx as [Hx|Hx]; auto.
             right. intros He Hok. apply in_app_iff. destruct (Hcl x y Hx) as [H|H]; auto.
             destruct (mem y F) eqn:Em; [left; apply mem_In; auto|]. right. apply Hnext.
             split; [intros X; apply mem_In in X; congruence|]. split; eauto.
          -- rewrite app_length, En. simpl. lia.
          -- exists l. split; auto. split; auto. exists (next ++ tl). rewrite app_assoc. auto.
  Qed.
End Search.

(** ** Fringe cells *)

Lemma graph_csr g i row : graph_row g i = Some row -> csr (g_range g) (g_index g) i = Some row.
Proof.
  unfold graph_row, csr. destruct (nth_error (g_range g) i) as [a|]; [|discriminate].
  destruct (nth_error (g_range g) (S i)) as [b|]; [|discriminate]. cbn [bind].
  destruct (Nat.leb_spec a b); [|discriminate].
  destruct (Nat.ltb_spec a b); auto. intros E. unfold slice in E.
  destruct (_ <=? _); [|discriminate]. replace (b - a) with 0 in E by lia. simpl in E. auto.
Qed.

Lemma walk_ext (E E' : nat -> nat -> Prop) (ok ok' s s' : nat -> Prop) k x : (forall a b, E a b -> E' a b) -> (forall a, ok a -> ok' a) ->
  (forall a, s a -> s' a) -> walk E ok s k x -> walk E' ok' s' k x.
Proof. intros H1 H2 H3. induction 1; econstructor; eauto. Qed.

Lemma filterM_ok {X} (f : X -> option bool) l : (forall x, In x l -> exists b, f x = Some b) ->
  NoDup l -> exists l', filterM f l = Some l' /\ NoDup l' /\
    forall x, In x l' <-> In x l /\ f x = Some true.
Proof.
  induction l as [|x t IH]; intros H ND.
  - exists []. repeat split; auto; try constructor; simpl in *; tauto.
  - inversion ND as [|? ? Nx Nt]; subst. destruct IH as (t' & E & ND' & HI); auto.
    { intros; apply H; right; auto. }
    destruct (H x) as [b Hb]; [left; auto|]. simpl. rewrite Hb. cbn [bind]. rewrite E. cbn [bind].
    eexists. split; [reflexivity|]. destruct b.
    + split.
      * constructor; auto. rewrite HI. tauto.
      * intros y. simpl. rewrite HI. split; [intuition; subst; auto|intuition].
    + split; auto. intros y. rewrite HI. simpl. split; [intuition|].
      intros [[<-|K1] K2]; [congruence|auto].
Qed.

Section Mesh.
  Context {A : Type}.
  Variables (cell_dim : Z) (zs : list (Zone A)) (mp : Mapper) (g : Graph).
  Hypothesis Hd : (cell_dim = 2 \/ cell_dim = 3)%Z.
  Hypothesis Wz : Forall (wf_zone cell_dim) zs.
  Hypothesis V : valid_mapper cell_dim zs mp.
  Hypothesis WG : wf_graph g (length (m2c_cells mp)).

  Lemma cell_place m : m < length (m2c_cells mp) -> exists z s c zn sec,
    nth_error (m2c_cells mp) m = Some (z, s, c) /\ at1 zs z = Some zn /\
    at1 (z_sections zn) s = Some sec /\ s_dim sec = cell_dim /\
    wf_section (CountNodes zn) cell_dim sec /\ s_first sec <= c < s_first sec + s_count sec.
  Proof.
    intros Hm. destruct (nth_error_lt_some _ _ Hm) as [[[z s] c] E].
    apply (vm_cells _ _ _ V) in E as E'.
    destruct (proj1 (vm_cells_dom _ _ _ V z s c)) as (zn & sec & H1 & H2 & H3 & H4); [eauto|].
    exists z, s, c, zn, sec. split; auto. split; auto. split; auto. split; auto. split; auto.
    rewrite Forall_forall in Wz.
    assert (Hzn : In zn zs) by (destruct z; [discriminate|]; eapply nth_error_In; eauto).
    pose proof (wz_sections _ _ (Wz zn Hzn)) as F. rewrite Forall_forall in F. apply F.
    destruct s; [discriminate|]. eapply nth_error_In; eauto.
  Qed.

  Lemma neighbors_ok i : i < length (m2c_cells mp) ->
    exists row, neighbors g i = Some row /\ graph_row g i = Some row /\
      Forall (fun j => j < length (m2c_cells mp)) row.
  Proof.
    intros Hi. destruct (wg_rows _ _ WG i Hi) as [row E]. exists row.
    split; [apply graph_csr; auto|]. split; auto.
    apply Forall_forall. intros j Hj. apply (wg_lt _ _ WG i j). exists row. auto.
  Qed.

  Lemma faces_by_type t n : dim t = Some cell_dim -> faces_of t = Some n -> CountFacesByType t = n.
  Proof. destruct t; simpl; intros H1 H2; try discriminate; inversion H2; auto. Qed.

  Lemma faces_of_cell t : dim t = Some cell_dim -> t <> MIXED -> exists n, faces_of t = Some n.
  Proof.
    destruct t; simpl; intros H1 H2; try congruence; inversion H1; subst; try (exfalso; lia); eauto.
  Qed.

  Lemma outmost_ok m : m < length (m2c_cells mp) ->
    exists b, outmost zs mp g m = Some b /\ (b = true <-> open_cell zs mp g m).
  Proof.
    intros Hm. destruct (cell_place m Hm) as (z & s & c & zn & sec & E & Hz & Hs & Hdim & Ws & Hc).
    destruct (neighbors_ok m Hm) as (row & En & Er & _).
    destruct (faces_of_cell (s_type sec)) as [n Hn].
    { rewrite (ws_dim _ _ _ Ws). congruence. }
    { apply (ws_type _ _ _ Ws). }
    assert (Hf : CountFacesByType (s_type sec) = n).
    { apply faces_by_type; auto. rewrite (ws_dim _ _ _ Ws). congruence. }
    assert (Cn : CountNeighbors g m = Some (length row)).
    { unfold graph_row in Er. unfold CountNeighbors.
      destruct (nth_error (g_range g) m) as [a|]; [|discriminate].
      destruct (nth_error (g_range g) (S m)) as [b|]; [|discriminate]. cbn [bind] in *.
      destruct (Nat.leb_spec a b); [|discriminate]. unfold slice in Er.
      destruct (Nat.leb_spec (a + (b - a)) (length (g_index g))); [|discriminate].
      inversion Er; subst. rewrite firstn_length, skipn_length. f_equal. lia. }
    exists (length row <? n). unfold outmost. rewrite E. cbn [bind]. rewrite Hz. cbn [bind].
    rewrite Hs. cbn [bind]. rewrite Cn. cbn [bind]. rewrite Hf. split; auto.
    rewrite Nat.ltb_lt. split.
    - intros L. exists z, s, c, sec, row, n. rewrite Hz. auto.
    - intros (z' & s' & c' & sec' & row' & n' & E1 & E2 & E3 & E4 & L).
      rewrite E in E1. inversion E1; subst. rewrite Hz in E2. cbn [bind] in E2. rewrite Hs in E2.
      inversion E2; subst. congruence.
  Qed.

  Theorem fringe_ok n_layer : (1 <= n_layer)%Z ->
    exists ls, FindForegroundFringeCells n_layer zs g mp = Some (concat ls) /\
      Z.of_nat (length ls) = n_layer /\ NoDup (concat ls) /\
      forall k l, nth_error ls k = Some l -> forall x,
        In x l <-> at_distance (nbr g) (fun _ => True)
                     (fun m => m < length (m2c_cells mp) /\ open_cell zs mp g m) k x.
  Proof.
    intros Hl. unfold FindForegroundFringeCells.
    assert (Lv : CountVertices g = length (m2c_cells mp)).
    { unfold CountVertices. rewrite (wg_range _ _ WG). lia. }
    destruct (filterM_ok (outmost zs mp g) (seq 0 (CountVertices g))) as (first & E & ND & HI).
    { intros m Hm. apply in_seq in Hm. destruct (outmost_ok m) as (b & E & _); [lia|]. eauto. }
    { apply seq_NoDup. }
    rewrite E. cbn [bind].
    assert (HS : forall x, In x first <-> x < length (m2c_cells mp) /\ open_cell zs mp g x).
    { intros x. rewrite HI, in_seq, Lv. split.
      - intros [H1 H2]. split; [lia|]. destruct (outmost_ok x) as (b & Eb & Hb); [lia|].
        apply Hb. congruence.
      - intros [H1 H2]. split; [lia|]. destruct (outmost_ok x H1) as (b & Eb & Hb).
        apply Hb in H2. congruence. }
    assert (HD : forall k x, at_distance (edge (neighbors g)) (ok (fun _ => Some true))
               (fun x => In x first) k x <->
             at_distance (nbr g) (fun _ => True)
               (fun m => m < length (m2c_cells mp) /\ open_cell zs mp g m) k x).
    { assert (HW : forall k x, walk (edge (neighbors g)) (ok (fun _ => Some true)) (fun x => In x first) k x
         <-> walk (nbr g) (fun _ => True)
               (fun m => m < length (m2c_cells mp) /\ open_cell zs mp g m) k x).
      { intros k x. split.
        - intros H. assert (G : walk (nbr g) (fun _ => True)
               (fun m => m < length (m2c_cells mp) /\ open_cell zs mp g m) k x /\
               x < length (m2c_cells mp)); [|apply G].
          induction H as [x Hx|k x y Hx [IH L] (row & Er & Hr) Hok].
          + apply HS in Hx. split; [constructor; auto|apply Hx].
          + destruct (neighbors_ok x L) as (row' & E1 & E2 & F). rewrite Er in E1. inversion E1; subst row'.
            split; [|rewrite Forall_forall in F; auto]. econstructor; eauto. exists row. auto.
        - apply walk_ext; try reflexivity.
          + intros a b (row & Er & Hr). exists row. split; auto. apply graph_csr. auto.
          + intros a H. apply HS. auto. }
      intros k x. unfold at_distance. rewrite HW. split; intros [H1 H2]; split; auto;
        intros k' Hk' Hk; apply (H2 k' Hk'); apply HW; auto. }
    destruct (fringe_loop_ok (neighbors g) (fun _ => Some true) (length (m2c_cells mp))) with
      (seeds := first) (n := Z.to_nat (n_layer - 1)) (t := 0) (cur := first) (F := first)
      as (ls & E1 & L1 & ND1 & H1); auto.
    - intros i Hi. destruct (neighbors_ok i Hi) as (row & E1 & _ & F). eauto.
    - eauto.
    - apply Forall_forall. intros x Hx. apply HS in Hx. apply Hx.
    - intros x. split.
      + intros H. exists 0. split; auto. constructor. auto.
      + intros (k & Hk & H). assert (k = 0) by lia. subst k. inversion H. auto.
    - intros x. split.
      + intros H. split; [constructor; auto|]. intros k' Hk'. lia.
      + intros [H _]. inversion H. auto.
    - exists (first :: ls). rewrite E1. split; auto. split; [simpl; lia|]. split; auto.
      intros [|k] l Hk x; simpl in Hk.
      + inversion Hk; subst l. rewrite <- HD. split.
        * intros H. split; [constructor; auto|]. intros k' Hk'. lia.
        * intros [H _]. inversion H. auto.
      + rewrite <- HD. replace (S k) with (1 + k) by lia. apply (H1 k l Hk).
  Qed.
End Mesh.

(** ** Donor cells *)

Lemma sum3 pts : forall x y w, fold_left add3 pts (x, y, w) =
  (x + fold_right Rplus 0 (map (fun p => fst (fst p)) pts),
   y + fold_right Rplus 0 (map (fun p => snd (fst p)) pts),
   w + fold_right Rplus 0 (map snd pts))%R.
Proof.
  induction pts as [|[[a b] c] t IH]; intros x y w; simpl.
  - apply f_equal2; [apply f_equal2|]; ring.
  - rewrite IH. apply f_equal2; [apply f_equal2|]; ring.
Qed.

Lemma get_nodes zn row : Forall (fun i => 1 <= i <= CountNodes zn) row ->
  length (z_y zn) = CountNodes zn -> length (z_z zn) = CountNodes zn ->
  exists pts, mapM (get_node zn) row = Some pts /\ length pts = length row /\
    mapM (at1 (z_x zn)) row = Some (map (fun p => fst (fst p)) pts) /\
    mapM (at1 (z_y zn)) row = Some (map (fun p => snd (fst p)) pts) /\
    mapM (at1 (z_z zn)) row = Some (map snd pts).
Proof.
  intros F Ly Lz. unfold CountNodes in *. induction F as [|i t Hi Ft IH].
  - exists []. auto.
  - destruct IH as (pts & E1 & L & E2 & E3 & E4).
    assert (G : forall l : list R, length l = length (z_x zn) -> exists v, at1 l i = Some v).
    { intros l Hl. destruct i as [|i]; [lia|]. apply (nth_error_lt_some l i). lia. }
    destruct (G (z_x zn) eq_refl) as [x Hx]. destruct (G _ Ly) as [y Hy]. destruct (G _ Lz) as [w Hw'].
    exists ((x, y, w) :: pts). simpl. unfold get_node at 1. rewrite Hx, Hy, Hw'. cbn [bind].
    rewrite E1, E2, E3, E4. simpl. auto.
Qed.

Section Donors.
  Variables (cell_dim : Z) (zs : list (Zone R)) (mp : Mapper).
  Hypothesis Wz : Forall (wf_zone cell_dim) zs.
  Hypothesis V : valid_mapper cell_dim zs mp.

  Lemma center_ok m : m < length (m2c_cells mp) ->
    exists c, cell_center zs mp m = Some c /\ is_center zs mp m c.
  Proof.
    intros Hm. destruct (cell_place cell_dim zs mp Wz V m Hm)
      as (z & s & c & zn & sec & E & Hz & Hs & Hdim & Ws & Hc).
    assert (Hzn : wf_zone cell_dim zn).
    { rewrite Forall_forall in Wz. apply Wz. destruct z; [discriminate|]. eapply nth_error_In; eauto. }
    assert (Hrow : exists row, cell_row sec c = Some row /\ length row = s_npe sec).
    { unfold cell_row. destruct (Nat.ltb_spec c (s_first sec)); [lia|].
      rewrite slice_some.
      - eexists. split; [reflexivity|]. rewrite firstn_length, skipn_length, (ws_conn _ _ _ Ws).
        apply Nat.min_l. enough (s_npe sec * (c - s_first sec) + s_npe sec <= s_npe sec * s_count sec) by lia.
        rewrite <- Nat.mul_succ_r. apply Nat.mul_le_mono_l. lia.
      - rewrite (ws_conn _ _ _ Ws), <- Nat.mul_succ_r. apply Nat.mul_le_mono_l. lia. }
    destruct Hrow as (row & Er & Lr).
    destruct (get_nodes zn row) as (pts & E1 & Lp & E2 & E3 & E4).
    { apply (cell_row_ids _ _ _ _ _ Ws Er). }
    { apply (wz_y _ _ Hzn). }
    { apply (wz_z _ _ Hzn). }
    unfold cell_center. rewrite E. cbn [bind]. rewrite Hz. cbn [bind]. rewrite Hs. cbn [bind].
    rewrite Er. cbn [bind]. rewrite E1. cbn [bind]. rewrite sum3. eexists. split; [reflexivity|].
    exists z, s, c, zn, sec, row, (map (fun p => fst (fst p)) pts), (map (fun p => snd (fst p)) pts), (map snd pts).
    repeat (split; auto). unfold mean. unfold Point3 in *. rewrite !map_length, Lp, Lr, !Rplus_0_l. reflexivity.
  Qed.

  Lemma is_center_unique m c c' : is_center zs mp m c -> is_center zs mp m c' -> c = c'.
  Proof.
    intros (z & s & i & zn & sec & row & xs & ys & ws & E1 & E2 & E3 & E4 & E5 & E6 & E7 & ->)
           (z' & s' & i' & zn' & sec' & row' & xs' & ys' & ws' & F1 & F2 & F3 & F4 & F5 & F6 & F7 & ->).
    rewrite E1 in F1. inversion F1; subst. rewrite E2 in F2. inversion F2; subst.
    rewrite E3 in F3. inversion F3; subst. rewrite E4 in F4. inversion F4; subst.
    congruence.
  Qed.

  Lemma distance_sq a b : (distance a b = sqrt (sq_dist a b))%R.
  Proof.
    destruct a as [[x y] z], b as [[x' y'] z']. unfold distance, sq_dist. f_equal. ring.
  Qed.

  Lemma sq_dist_nonneg a b : (0 <= sq_dist a b)%R.
  Proof.
    destruct a as [[x y] z], b as [[x' y'] z']. unfold sq_dist.
    pose proof (pow2_ge_0 (x - x')). pose proof (pow2_ge_0 (y - y')). pose proof (pow2_ge_0 (z - z')). lra.
  Qed.

  Lemma in_ball_ok radius a j : (0 <= radius)%R -> j < length (m2c_cells mp) ->
    exists b, in_ball zs mp radius a j = Some b /\ (b = true <-> near zs mp radius a j).
  Proof.
    intros Hr Hj. destruct (center_ok j Hj) as (c & Ec & Hc). unfold in_ball. rewrite Ec. cbn [bind].
    eexists. split; [reflexivity|]. rewrite distance_sq.
    assert (K : (radius < sqrt (sq_dist a c) <-> ~ sq_dist a c <= radius ^ 2)%R).
    { pose proof (sq_dist_nonneg a c) as Hp. split.
      - intros H. apply Rlt_not_le. rewrite <- (sqrt_pow2 radius Hr) in H. apply sqrt_lt_0_alt in H. auto.
      - intros H. apply Rnot_le_lt in H. rewrite <- (sqrt_pow2 radius Hr). apply sqrt_lt_1; auto.
        apply pow2_ge_0. }
    destruct (Rlt_dec radius (sqrt (sq_dist a c))) as [H|H].
    - split; [discriminate|]. intros (c' & H1 & H2). rewrite (is_center_unique j c' c H1 Hc) in H2.
      apply K in H. contradiction.
    - split; auto. intros _. exists c. split; auto. apply Rnot_lt_le. intros H'.
      apply H. apply K. apply Rlt_not_le. auto.
  Qed.
End Donors.

Theorem donors_ok cell_dim search zs_fg mp_fg zs_bg g_bg mp_bg radius fringe :
  Forall (wf_zone cell_dim) zs_fg -> valid_mapper cell_dim zs_fg mp_fg ->
  Forall (wf_zone cell_dim) zs_bg -> valid_mapper cell_dim zs_bg mp_bg ->
  wf_graph g_bg (length (m2c_cells mp_bg)) -> (0 <= radius)%R ->
  Forall (fun m => m < length (m2c_cells mp_fg)) fringe ->
  (forall x, exists c, search x = [c] /\ c < length (m2c_cells mp_bg)) ->
  exists ds, FindBackgroundDonorCells search zs_fg mp_fg fringe zs_bg g_bg mp_bg radius = Some ds /\
    length ds = length fringe /\
    forall k m d, nth_error fringe k = Some m -> nth_error ds k = Some d ->
      NoDup d /\ exists x, is_center zs_fg mp_fg m x /\
        (exists tl, d = search x ++ tl) /\
        forall j, In j d <-> exists n, walk (nbr g_bg) (near zs_bg mp_bg radius x)
                                          (fun c => search x = [c]) n j.
Proof.
  intros W1 V1 W2 V2 WG Hr Hf Hs. unfold FindBackgroundDonorCells.
  destruct (mapM_exists (donors_of search zs_fg mp_fg zs_bg g_bg mp_bg radius)
    (fun m d => NoDup d /\ exists x, is_center zs_fg mp_fg m x /\
        (exists tl, d = search x ++ tl) /\
        forall j, In j d <-> exists n, walk (nbr g_bg) (near zs_bg mp_bg radius x)
                                          (fun c => search x = [c]) n j) fringe) as (ds & E & F2).
  { intros m Hm. rewrite Forall_forall in Hf. unfold donors_of.
    destruct (center_ok cell_dim zs_fg mp_fg W1 V1 m (Hf m Hm)) as (x & Ex & Cx). rewrite Ex. cbn [bind].
    destruct (Hs x) as (c & Ec & Lc). rewrite Ec.
    assert (HN : forall i, i < length (m2c_cells mp_bg) -> exists row, neighbors g_bg i = Some row /\
                   Forall (fun j => j < length (m2c_cells mp_bg)) row).
    { intros i Hi. destruct (neighbors_ok mp_bg g_bg WG i Hi) as (row & E1 & _ & F). eauto. }
    destruct (donor_loop_ok (neighbors g_bg) (in_ball zs_bg mp_bg radius x) (length (m2c_cells mp_bg)))
      with (seeds := [c]) (fuel := S (CountVertices g_bg)) (cur := [c]) (F := [c])
      as (l & El & ND & tl & Etl & HI); auto.
    - intros j Hj. destruct (in_ball_ok cell_dim zs_bg mp_bg W2 V2 radius x j Hr Hj) as (b & Eb & _). eauto.
    - repeat constructor. auto.
    - intros y Hy. exists 0. constructor. auto.
    - unfold CountVertices. rewrite (wg_range _ _ WG). simpl. lia.
    - exists l. split; auto. split; auto. exists x. split; auto. split; [exists tl; congruence|].
      intros j. rewrite HI.
      assert (KW : forall n y, walk (edge (neighbors g_bg)) (ok (in_ball zs_bg mp_bg radius x))
          (fun x0 => In x0 [c]) n y <->
        walk (nbr g_bg) (near zs_bg mp_bg radius x) (fun c0 => search x = [c0]) n y).
      { intros n y. split.
        - intros H. assert (G : walk (nbr g_bg) (near zs_bg mp_bg radius x) (fun c0 => search x = [c0]) n y /\
            y < length (m2c_cells mp_bg)); [|apply G].
          induction H as [y [<-|[]]|k a b Ha [IH L] (row & Er & Hrow) Hok].
          + split; auto. constructor. auto.
          + destruct (neighbors_ok mp_bg g_bg WG a L) as (row' & E1 & E2 & F).
            rewrite Er in E1. inversion E1; subst row'. rewrite Forall_forall in F.
            split; auto. econstructor; eauto.
            * exists row. auto.
            * destruct (in_ball_ok cell_dim zs_bg mp_bg W2 V2 radius x b Hr (F b Hrow)) as (b' & Eb & Hb).
              apply Hb. unfold ok in Hok. congruence.
        - intros H. induction H as [y Ey|k a b Ha IH Hnb Hok].
          + constructor. rewrite Ec in Ey. inversion Ey. simpl. auto.
          + assert (Lb : b < length (m2c_cells mp_bg)) by (apply (wg_lt _ _ WG a b Hnb)).
            destruct Hnb as (row & Er & Hrow). econstructor; [exact IH| |].
            * exists row. split; auto. apply graph_csr. auto.
            * destruct (in_ball_ok cell_dim zs_bg mp_bg W2 V2 radius x b Hr Lb) as (b' & Eb & Hb).
              apply Hb in Hok. unfold ok. congruence. }
      split; intros (n & H); exists n; apply KW; auto. }
  exists ds. split; auto. split; [apply (mapM_length _ _ _ E)|].
  intros k m d Hk Hdk. pose proof (Forall2_nth _ _ _ k F2) as G. rewrite Hk, Hdk in G. exact G.
Qed.

Lemma merge_ok ls : NoDup (merge ls) /\ forall x, In x (merge ls) <-> exists l, In l ls /\ In x l.
Proof.
  unfold merge.
  assert (R1 : forall row r, NoDup r ->
    NoDup (fold_left (fun r i => if mem i r then r else r ++ [i]) row r) /\
    forall x, In x (fold_left (fun r i => if mem i r then r else r ++ [i]) row r) <-> In x r \/ In x row).
  { induction row as [|i t IH]; intros r ND; simpl; [tauto|].
    destruct (mem i r) eqn:Em.
    - destruct (IH r ND) as [H1 H2]. split; auto. intros x. rewrite H2. apply mem_In in Em.
      intuition. subst; auto.
    - destruct (IH (r ++ [i])) as [H1 H2].
      { apply NoDup_snoc; auto. intros X. apply mem_In in X. congruence. }
      split; auto. intros x. rewrite H2, in_app_iff. simpl. tauto. }
  assert (R2 : forall ls r, NoDup r ->
    let m := fold_left (fun r row => fold_left (fun r i => if mem i r then r else r ++ [i]) row r) ls r in
    NoDup m /\ forall x, In x m <-> In x r \/ exists l, In l ls /\ In x l).
  { induction ls0 as [|row t IH]; intros r ND; simpl.
    - split; auto. intros x. split; auto. intros [H|(l & [] & _)]; auto.
    - destruct (R1 row r ND) as [H1 H2]. destruct (IH _ H1) as [H3 H4]. split; auto.
      intros x. rewrite H4, H2. split.
      + intros [[H|H]|(l & H & H')]; auto; right; [exists row|exists l]; auto.
      + intros [H|(l & [<-|H] & H')]; auto. right. eauto. }
  destruct (R2 ls [] (NoDup_nil _)) as [H1 H2]. split; auto. intros x. rewrite H2. simpl. tauto.
Qed.
