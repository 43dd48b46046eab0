(** Columns of coefficients. *)
From Coq Require Import Reals List Arith Bool Lia.
From Verif Require Import Arrays Model_PyColumn Spec_PyColumn.
Import ListNotations.

Lemma for_invariant {A} n_col n_row body (start : A) (P : nat -> A -> Prop) :
  P O start ->
  (forall c r a, c < n_col -> r < n_row -> P (c * n_row + r) a -> exists a', body a c r = Some a' /\ P (S (c * n_row + r)) a') ->
  exists a, for_cols_rows n_col n_row body start = Some a /\ P (n_col * n_row) a.
Proof.
  intros P0 St. unfold for_cols_rows.
  assert (In : forall c m a, c < n_col -> m <= n_row -> P (c * n_row) a -> exists a', fold_left (fun acc i_row => do a <- acc; body a c i_row) (seq 0 m) (Some a) = Some a' /\ P (c * n_row + m) a').
  { intros c m a Hc. induction m as [|m IH]; intros Hm Pa.
    - exists a. split; [reflexivity|]. rewrite Nat.add_0_r. exact Pa.
    - destruct IH as (a1 & E1 & P1); [lia|exact Pa|]. rewrite seq_S, fold_left_app, E1. cbn [fold_left bind Nat.add].
      destruct (St c m a1 Hc ltac:(lia) P1) as (a2 & E2 & P2). exists a2. split; [exact E2|]. rewrite Nat.add_succ_r. exact P2. }
  assert (Out : forall k, k <= n_col -> exists a, fold_left (fun acc i_col => fold_left (fun acc i_row => do a <- acc; body a i_col i_row) (seq 0 n_row) acc) (seq 0 k) (Some start) = Some a /\ P (k * n_row) a).
  { induction k as [|k IH]; intros Hk; [exists start; split; [reflexivity|exact P0]|].
    destruct IH as (a & E & Pa); [lia|]. rewrite seq_S, fold_left_app, E. cbn [fold_left Nat.add].
    destruct (In k n_row a ltac:(lia) (le_n _) Pa) as (a' & E' & P'). exists a'. split; [exact E'|]. replace (S k * n_row) with (k * n_row + n_row) by lia. exact P'. }
  apply Out. lia.
Qed.

Lemma position_inj n c r c' r' : r < n -> r' < n -> c * n + r = c' * n + r' -> c = c' /\ r = r'.
Proof.
  intros H H' E. assert (c = c').
  { destruct (Nat.lt_trichotomy c c') as [L|[L|L]]; [exfalso; nia|exact L|exfalso; nia]. }
  subst. split; lia.
Qed.
Lemma upd_opt_some {A} (l : list A) i v : i < length l -> upd_opt l i v = Some (upd l i v).
Proof. intros H. unfold upd_opt. destruct (Nat.ltb_spec i (length l)); [reflexivity|lia]. Qed.
Lemma nth_error_upd {A} (l : list A) i j v : i < length l -> nth_error (upd l i v) j = if Nat.eqb j i then Some v else nth_error l j.
Proof.
  intros H. destruct (Nat.eqb_spec j i) as [->|N]; [apply nth_error_upd_same, H|].
  revert i j H N. induction l as [|x t IH]; intros [|i] [|j] H N; cbn in *; try lia; try reflexivity. apply IH; lia.
Qed.
Lemma write_at_some {A} (l : list A) i new : i + length new <= length l ->
  exists l', write_at l i new = Some l' /\ length l' = length l /\
  forall j, nth_error l' j = if (i <=? j) && (j <? i + length new) then nth_error new (j - i) else nth_error l j.
Proof.
  intros H. unfold write_at. destruct (Nat.leb_spec (i + length new) (length l)); [|lia]. eexists. split; [reflexivity|].
  assert (F : length (firstn i l) = i) by (rewrite firstn_length; lia). split.
  - rewrite !app_length, F, skipn_length. lia.
  - intros j. destruct (Nat.leb_spec i j), (Nat.ltb_spec j (i + length new)); cbn [andb]; try lia.
    + rewrite nth_error_app2 by lia. rewrite F. apply nth_error_app1. lia.
    + rewrite nth_error_app2 by lia. rewrite F, nth_error_app2 by lia. rewrite <- (firstn_skipn (i + length new) l) at 2.
      assert (G : length (firstn (i + length new) l) = i + length new) by (rewrite firstn_length; lia). rewrite nth_error_app2 by lia. f_equal. lia.
    + rewrite nth_error_app1 by lia. rewrite <- (firstn_skipn i l) at 2. symmetry. apply nth_error_app1. lia.
Qed.

Section Layouts.
  Variable y : Layout.
  Hypothesis W : well_formed y.
  Notation n := (n_term y). Notation k := (n_component y).
  (** what is written from position [i] on *)
  Lemma write_loop (column : list R) values i : i + k * n <= length column -> exists column', length column' = length column /\
    for_cols_rows k n (fun a i_col i_row => let '(column, i_dof) := a in do column <- upd_opt column i_dof (values i_row i_col); Some (column, S i_dof)) (column, i) = Some (column', i + k * n) /\
    (forall c r, c < k -> r < n -> nth_error column' (i + c * n + r) = Some (values r c)) /\
    forall j, j < i \/ i + k * n <= j -> nth_error column' j = nth_error column j.
  Proof.
    intros H.
    destruct (for_invariant k n (fun a i_col i_row => let '(column, i_dof) := a in do column <- upd_opt column i_dof (values i_row i_col); Some (column, S i_dof)) (column, i)
      (fun m a => snd a = i + m /\ length (fst a) = length column /\ (forall c r, c < k -> r < n -> c * n + r < m -> nth_error (fst a) (i + c * n + r) = Some (values r c)) /\
        forall j, j < i \/ i + m <= j -> nth_error (fst a) j = nth_error column j)) as ((col & d) & E & D & L & In & Out).
    - cbn [fst snd]. split; [lia|]. split; [reflexivity|]. split; [intros; lia|reflexivity].
    - intros c r (col & d) Hc Hr (D & L & In & Out). cbn [fst snd] in *. rewrite upd_opt_some by nia. cbn [bind]. eexists. split; [reflexivity|]. cbn [fst snd].
      split; [lia|]. split; [rewrite upd_length; exact L|]. split.
      + intros c' r' Hc' Hr' Hm. rewrite nth_error_upd by nia. destruct (Nat.eqb_spec (i + c' * n + r') d) as [E|N].
        * destruct (position_inj n c' r' c r) as (-> & ->); [lia|lia|lia|reflexivity].
        * apply In; lia.
      + intros j Hj. rewrite nth_error_upd by nia. destruct (Nat.eqb_spec j d); [lia|]. apply Out. lia.
    - cbn [fst snd] in *. subst d. exists col. split; [exact L|]. split; [exact E|]. split; [|exact Out]. intros c r Hc Hr. apply In; nia.
  Qed.
  Lemma write_is column values i : i + k * n <= length column -> exists column', length column' = length column /\
    write_to_column y column values i = Some (column', i + k * n) /\
    (forall c r, c < k -> r < n -> nth_error column' (i + c * n + r) = Some (values r c)) /\
    forall j, j < i \/ i + k * n <= j -> nth_error column' j = nth_error column j.
  Proof.
    intros H. unfold write_to_column. destruct (system y) eqn:Sy; [apply write_loop, H|]. specialize (W Sy).
    destruct (write_at_some column i (map (fun r => values r O) (seq 0 n))) as (l' & E & L & Nt); [rewrite map_length, seq_length; nia|].
    rewrite map_length, seq_length in Nt. exists l'. rewrite E. cbn [bind]. split; [exact L|]. split; [do 2 f_equal; nia|]. rewrite W. split.
    - intros c r Hc Hr. assert (c = 0) by lia. subst c. rewrite Nt. destruct (Nat.leb_spec i (i + 0 * n + r)), (Nat.ltb_spec (i + 0 * n + r) (i + n)); try lia. cbn [andb].
      replace (i + 0 * n + r - i) with r by lia. rewrite nth_error_map. rewrite (nth_error_nth' _ 0) by (rewrite seq_length; lia). rewrite seq_nth by lia. reflexivity.
    - intros j Hj. rewrite Nt. destruct (Nat.leb_spec i j), (Nat.ltb_spec j (i + n)); cbn [andb]; try reflexivity; lia.
  Qed.
  (** the coefficients of one element *)
  Lemma read_is column : length column = k * n -> exists coeff, column_to_coeff y column = Some coeff /\
    forall c r, c < k -> r < n -> nth_error column (c * n + r) = Some (coeff r c).
  Proof.
    intros L. unfold column_to_coeff. destruct (system y) eqn:Sy.
    - match goal with |- context [for_cols_rows k n ?b ?s] => destruct (for_invariant k n b s
        (fun m a => snd a = m /\ forall c r, c < k -> r < n -> c * n + r < m -> nth_error column (c * n + r) = Some (fst a r c))) as ((co & d) & E & D & In) end.
      + cbn [fst snd]. split; [reflexivity|intros; lia].
      + intros c r (co & d) Hc Hr (D & In). cbn [fst snd] in *. subst d.
        destruct (nth_error column (c * n + r)) as [v|] eqn:Ev; [|apply nth_error_None in Ev; nia]. cbn [bind]. eexists. split; [reflexivity|]. cbn [fst snd]. split; [reflexivity|].
        intros c' r' Hc' Hr' Hm. destruct (Nat.eqb_spec r' r), (Nat.eqb_spec c' c); cbn [andb]; subst; try (apply In; nia). exact Ev.
      + cbn [fst snd] in *. rewrite E. cbn [bind]. subst d. rewrite L, Nat.eqb_refl. exists co. split; [reflexivity|]. intros c r Hc Hr. apply In; nia.
    - specialize (W Sy). rewrite W in *. rewrite Nat.mul_1_l in L. rewrite L, Nat.eqb_refl. eexists. split; [reflexivity|]. intros c r Hc Hr. assert (c = 0) by lia. subst c.
      cbn [Nat.mul Nat.add]. apply nth_error_nth'. lia.
  Qed.
  Lemma read_length column coeff : column_to_coeff y column = Some coeff -> length column = k * n.
  Proof.
    unfold column_to_coeff. destruct (system y) eqn:Sy.
    - intros H. destruct (Nat.le_gt_cases (k * n) (length column)) as [L|L].
      + match type of H with context [for_cols_rows k n ?b ?s] => destruct (for_invariant k n b s (fun m a => snd a = m)) as ((co & d) & E & D) end.
        * reflexivity.
        * intros c r (co & d) Hc Hr D. cbn [fst snd] in *. subst d. destruct (nth_error column (c * n + r)) as [v|] eqn:Ev; [|apply nth_error_None in Ev; nia]. cbn [bind]. eexists. split; reflexivity.
        * rewrite E in H. cbn [bind fst snd] in *. subst d. destruct (Nat.eqb_spec (k * n) (length column)); [auto|discriminate].
      + exfalso. destruct (for_cols_rows _ _ _ _) as [(co & d)|] eqn:E; [|discriminate]. cbn [bind] in H. destruct (Nat.eqb_spec d (length column)); [|discriminate].
        (* each round advances by one *)
        assert (Rn : forall l m (a : option ((nat -> nat -> R) * nat)) b, fold_left (fun acc i_row => do a <- acc; let '(coeff, i_dof) := a in
            do v <- nth_error column i_dof; Some (fun r c => if (r =? i_row) && (c =? m) then v else coeff r c, S i_dof)) l a = Some b -> exists a0, a = Some a0 /\ snd b = snd a0 + length l).
        { induction l as [|x l IH]; intros m a b Hb; [exists b; split; [exact Hb|cbn; lia]|]. cbn [fold_left] in Hb. destruct (IH _ _ _ Hb) as (a0 & E0 & L0).
          destruct a as [(co' & d')|]; [|discriminate]. cbn [bind] in E0. destruct (nth_error column d'); [|discriminate]. injection E0 as <-. eexists. split; [reflexivity|]. cbn [snd length] in *. lia. }
        assert (Q : forall l (a : option ((nat -> nat -> R) * nat)) b, fold_left (fun acc i_col => fold_left (fun acc i_row => do a <- acc; let '(coeff, i_dof) := a in
            do v <- nth_error column i_dof; Some (fun r c => if (r =? i_row) && (c =? i_col) then v else coeff r c, S i_dof)) (seq 0 n) acc) l a = Some b -> exists a0, a = Some a0 /\ snd b = snd a0 + length l * n).
        { induction l as [|x l IH]; intros a b Hb; [exists b; split; [exact Hb|cbn; lia]|]. cbn [fold_left] in Hb. destruct (IH _ _ Hb) as (a0 & E0 & L0).
          destruct (Rn _ _ _ _ E0) as (a1 & E1 & L1). exists a1. split; [exact E1|]. rewrite seq_length in L1. cbn [length]. lia. }
        destruct (Q _ _ _ E) as (a0 & E0 & L0). injection E0 as <-. cbn [snd] in L0. rewrite seq_length in L0. lia.
    - specialize (W Sy). destruct (Nat.eqb_spec (length column) n); [|discriminate]. intros _. nia.
  Qed.
  Lemma collect_is coeff : exists column, coeff_to_column y coeff = Some column /\ length column = k * n /\
    forall c r, c < k -> r < n -> nth_error column (c * n + r) = Some (coeff r c).
  Proof.
    unfold coeff_to_column, element_n_dof. destruct (system y) eqn:Sy.
    - destruct (write_loop (repeat 0%R (n * k)) coeff 0) as (col & L & E & In & _); [rewrite repeat_length; lia|]. rewrite E. cbn [bind]. rewrite repeat_length in L.
      rewrite L. replace (0 + k * n) with (n * k) by lia. rewrite Nat.eqb_refl. exists col. split; [reflexivity|]. split; [lia|]. intros c r Hc Hr. exact (In c r Hc Hr).
    - specialize (W Sy). eexists. split; [reflexivity|]. rewrite map_length, seq_length. split; [nia|]. intros c r Hc Hr. assert (c = 0) by nia. subst c.
      cbn [Nat.mul Nat.add]. rewrite nth_error_map, (nth_error_nth' _ 0) by (rewrite seq_length; lia). rewrite seq_nth by lia. reflexivity.
  Qed.

  Lemma nth_sub (column : list R) a b j : b <= length column -> j < b - a -> nth_error (sub_column column a b) j = nth_error column (a + j).
  Proof.
    intros L H. unfold sub_column. rewrite <- (firstn_skipn a column) at 2. rewrite nth_error_app2 by (rewrite firstn_length; lia). rewrite firstn_length, Nat.min_l by lia.
    replace (a + j - a) with j by lia. rewrite <- (firstn_skipn (b - a) (skipn a column)) at 2. rewrite nth_error_app1; [reflexivity|]. rewrite firstn_length, skipn_length. lia.
  Qed.
  Lemma sub_length column a b : b <= length column -> length (sub_column column a b) = b - a.
  Proof. intros L. unfold sub_column. rewrite firstn_length, skipn_length. lia. Qed.

  Variable m : nat.
  Lemma dof_is : element_n_dof y = k * n. Proof. unfold element_n_dof. lia. Qed.
  Lemma set_is column : length column = m * (k * n) -> exists coeffs, set_solution_column y m column = Some coeffs /\ holds y m column coeffs.
  Proof.
    intros L. unfold set_solution_column, scheme_n_dof. rewrite dof_is, L, Nat.eqb_refl.
    match goal with |- context [fold_left ?f _ ?s] => assert (H : forall j, j <= m -> exists coeffs, fold_left f (seq 0 j) s = Some (coeffs, j * (k * n)) /\
      forall e r c, valid y j e r c -> nth_error column (position y e r c) = Some (coeffs e r c)) end.
    { induction j as [|j IH]; intros Hj; [eexists; split; [reflexivity|unfold valid; lia]|]. destruct IH as (co & E & In); [lia|]. rewrite seq_S, fold_left_app, E. cbn [fold_left bind Nat.add].
      destruct (read_is (sub_column column (j * (k * n)) (j * (k * n) + k * n))) as (cf & Ec & Hc); [rewrite sub_length by nia; lia|]. rewrite Ec. cbn [bind].
      eexists. split; [replace (S j * (k * n)) with (j * (k * n) + k * n) by lia; reflexivity|]. intros e r c (He & Hr & Hk). destruct (Nat.eqb_spec e j) as [->|N].
      - rewrite <- (Hc c r Hk Hr), nth_sub by nia. unfold position. f_equal. lia.
      - apply In. unfold valid. lia. }
    destruct (H m (le_n _)) as (co & E & In). rewrite E. cbn [bind]. rewrite Nat.eqb_refl. exists co. split; [reflexivity|]. split; [exact L|exact In].
  Qed.
  Lemma get_is coeffs : exists column, get_solution_column y m coeffs = Some column /\ holds y m column coeffs.
  Proof.
    unfold get_solution_column, scheme_n_dof. rewrite dof_is.
    match goal with |- context [fold_left ?f _ ?s] => assert (H : forall j, j <= m -> exists column, fold_left f (seq 0 j) s = Some (column, j * (k * n)) /\ length column = m * (k * n) /\
      forall e r c, valid y j e r c -> nth_error column (position y e r c) = Some (coeffs e r c)) end.
    { induction j as [|j IH]; intros Hj; [eexists; split; [reflexivity|split; [apply repeat_length|unfold valid; lia]]|]. destruct IH as (col & E & L & In); [lia|].
      rewrite seq_S, fold_left_app, E. cbn [fold_left bind Nat.add]. destruct (collect_is (coeffs j)) as (part & Ep & Lp & Hp). rewrite Ep. cbn [bind]. rewrite Lp, Nat.eqb_refl.
      destruct (write_at_some col (j * (k * n)) part) as (col' & Ew & Lw & Hw); [nia|]. rewrite Ew. cbn [bind]. eexists. split; [replace (S j * (k * n)) with (j * (k * n) + k * n) by lia; reflexivity|]. split; [lia|].
      intros e r c (He & Hr & Hk). rewrite Hw, Lp. unfold position. assert (B : c * n + r < k * n) by nia. destruct (Nat.eq_dec e j) as [->|N].
      - destruct (Nat.leb_spec (j * (k * n)) (j * (k * n) + c * n + r)); [|lia]. destruct (Nat.ltb_spec (j * (k * n) + c * n + r) (j * (k * n) + k * n)); [|lia]. cbn [andb].
        rewrite <- (Hp c r Hk Hr). f_equal. lia.
      - assert (e * (k * n) + k * n <= j * (k * n)) by nia. destruct (Nat.leb_spec (j * (k * n)) (e * (k * n) + c * n + r)); [lia|]. cbn [andb]. apply In. unfold valid. lia. }
    destruct (H m (le_n _)) as (co & E & L & In). rewrite E. cbn [bind]. rewrite Nat.eqb_refl. exists co. split; [reflexivity|]. split; [exact L|exact In].
  Qed.
  (** every position is one of those *)
  Lemma position_all j : j < m * (k * n) -> exists e r c, valid y m e r c /\ position y e r c = j.
  Proof.
    intros H. assert (K : k * n <> 0) by nia. assert (N : n <> 0) by nia. exists (j / (k * n)), ((j mod (k * n)) mod n), ((j mod (k * n)) / n).
    pose proof (Nat.div_mod j (k * n) K). pose proof (Nat.mod_upper_bound j (k * n) K). pose proof (Nat.div_mod (j mod (k * n)) n N). pose proof (Nat.mod_upper_bound (j mod (k * n)) n N).
    split.
    - split; [apply Nat.div_lt_upper_bound; nia|]. split; [lia|]. apply Nat.div_lt_upper_bound; nia.
    - unfold position. nia.
  Qed.
  Lemma holds_unique col col' coeffs : holds y m col coeffs -> holds y m col' coeffs -> col = col'.
  Proof.
    intros (L & H) (L' & H'). apply nth_error_ext. intros j. destruct (Nat.lt_ge_cases j (m * (k * n))) as [B|B].
    - destruct (position_all j B) as (e & r & c & Vd & <-). rewrite (H _ _ _ Vd), (H' _ _ _ Vd). reflexivity.
    - rewrite (proj2 (nth_error_None col j)), (proj2 (nth_error_None col' j)) by lia. reflexivity.
  Qed.
End Layouts.
