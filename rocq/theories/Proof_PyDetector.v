(** Proofs about the jump detectors of the Python package. *)
From Coq Require Import Reals List Arith Lra Lia Bool.
From Coquelicot Require Import Coquelicot.
From Verif Require Import Arrays RSum Model_PyEuler Model_PyPoly Spec_PyPoly Proof_PyPoly Proof_PyCorrect.
From Verif Require Import Model_PyIntegrator Proof_PyIntegrator Model_PyExpansion Spec_PyExpansion Proof_PyExpansion.
From Verif Require Import Model_PyGrid Model_PyLimiter Proof_PyLimiter Model_PyDetector Spec_PyDetector.
Import ListNotations.
Open Scope R_scope.

(** ** Lists of cells *)
Lemma sorted_from a : forall n (T : nat -> bool), let l := filter T (seq a n) in
  (forall i, In i l -> (a <= i < a + n)%nat) /\ forall x y i j, nth_error l x = Some i -> nth_error l y = Some j -> (x < y)%nat -> (i < j)%nat.
Proof.
  intros n. revert a. induction n as [|n IH]; intros a T l; unfold l; cbn [seq filter].
  - split; [intros i []|]. intros [|x] y i j H; discriminate.
  - destruct (IH (S a) T) as (A & B). destruct (T a).
    + split.
      * intros i [<-|Hi]; [lia|]. apply A in Hi. lia.
      * intros [|x] [|y] i j Hx Hy L; cbn in *; try lia; [|apply (B x y); [assumption|assumption|lia]].
        injection Hx as <-. apply nth_error_In in Hy. apply A in Hy. lia.
    + split; [intros i Hi; apply A in Hi; lia|exact B].
Qed.
Lemma filter_lists n T (Q : nat -> Prop) : (forall i, (i < n)%nat -> T i = true <-> Q i) -> lists n Q (filter T (seq 0 n)).
Proof.
  intros H. split; [|apply (sorted_from 0 n T)]. intros i. rewrite filter_In, in_seq. split; intros (A & B); (split; [lia|apply H; [lia|exact B]]).
Qed.
Lemma troubled_filter {V} (g : Grid V) (test : nat -> option bool) T : (forall i, (i < n_element g)%nat -> test i = Some (T i)) ->
  troubled_cells g test = Some (filter T (seq 0 (n_element g))).
Proof.
  intros H. unfold troubled_cells. rewrite (all_some_map test T) by (intros i Hi; apply in_seq in Hi; apply H; lia). cbn [bind]. f_equal.
  generalize (seq 0 (n_element g)). induction l as [|i l IH]; cbn; [reflexivity|]. destruct (T i); cbn; rewrite IH; reflexivity.
Qed.
Lemma exceeds_pos a b k : 0 < b -> exceeds a b k = true <-> k * b < a.
Proof.
  intros P. unfold exceeds. destruct (Req_EM_T b 0); [lra|]. destruct (Rlt_dec k (a / b)) as [L|L]; split; intros H; try discriminate; try reflexivity.
  - apply (Rmult_lt_compat_r b) in L; [|exact P]. replace (a / b * b) with a in L by (field; lra). exact L.
  - exfalso. apply L. apply (Rmult_lt_reg_r b); [exact P|]. replace (a / b * b) with a by (field; lra). exact H.
Qed.

(** ** Energies *)
Lemma energy_fold e : fold_left (fun s k => s + l_energy e k) (seq 0 (l_n e)) 0 = rsum (l_n e) (l_energy e).
Proof.
  generalize (l_n e). induction n; [reflexivity|]. rewrite seq_S, fold_left_app, IHn. reflexivity.
Qed.
Lemma weight_pos roots inv degree c e k : x_left c < x_right c -> frame roots inv degree c e -> 0 < l_weight e k.
Proof.
  intros X F. destruct (frame_parts _ _ _ _ _ F) as (_ & _ & JJ & _). unfold l_weight, mode_weight. rewrite JJ. pose proof (pos_INR k). apply Rdiv_lt_0_compat; lra.
Qed.
Lemma energy_nonneg roots inv degree c e k : x_left c < x_right c -> frame roots inv degree c e -> 0 <= l_energy e k.
Proof. intros X F. unfold l_energy. pose proof (weight_pos _ _ _ _ _ k X F). apply Rmult_le_pos; [lra|apply pow2_ge_0]. Qed.
Lemma rsum_nonneg n f : (forall i, (i < n)%nat -> 0 <= f i) -> 0 <= rsum n f.
Proof. induction n; intros H; cbn [rsum]; [lra|]. assert (0 <= rsum n f) by (apply IHn; intros; apply H; lia). pose proof (H n (le_n _)). lra. Qed.

(** ** The regression *)
Definition xs (k : nat) : R := -2 * log10 (INR (k + 1)).
Definition ys (energy : nat -> R) (k : nat) : R := log10 (energy (k + 1)%nat).
Lemma log10_1 : log10 1 = 0. Proof. unfold log10. rewrite ln_1. unfold Rdiv. ring. Qed.
Lemma sums_are p energy : (1 <= p)%nat -> slope_sums p energy = mkSums (rsum p xs) (rsum p (ys energy)) (rsum p (fun k => xs k * xs k)) (rsum p (fun k => xs k * ys energy k)).
Proof.
  intros P. destruct p as [|p]; [lia|]. clear P. unfold slope_sums. replace (S p - 1)%nat with p by lia.
  assert (X0 : xs 0 = 0) by (unfold xs; change (INR (0 + 1)) with 1; rewrite log10_1; ring). induction p as [|p IH].
  - cbn [seq fold_left rsum]. unfold ys. cbn [Nat.add]. rewrite X0. f_equal; ring.
  - rewrite seq_S, fold_left_app, IH. cbn [fold_left x_sum y_sum xx_sum xy_sum]. reflexivity.
Qed.
Definition var (p : nat) (x y : nat -> R) : R := rsum p (fun k => x k * y k) - rsum p x * rsum p y / INR p.
Lemma slope_parts p energy : (1 <= p)%nat -> slope_numerator p energy = var p xs (ys energy) /\ slope_denominator p energy = var p xs xs.
Proof. intros P. unfold slope_numerator, slope_denominator. rewrite sums_are by exact P. split; reflexivity. Qed.
(** covariances as sums over pairs *)
Lemma var_pairs p x y : (1 <= p)%nat -> INR p * var p x y = / 2 * rsum p (fun i => rsum p (fun j => (x i - x j) * (y i - y j))).
Proof.
  intros P. unfold var. assert (Z : INR p <> 0) by (apply not_0_INR; lia).
  rewrite (rsum_ext p (fun i => rsum p (fun j => (x i - x j) * (y i - y j))) (fun i => (INR p * (x i * y i) - x i * rsum p y) + (rsum p (fun j => x j * y j) - y i * rsum p x))).
  - rewrite rsum_add. assert (S1 : forall f h, rsum p (fun i => f i - h i) = rsum p f - rsum p h).
    { intros f h. rewrite (rsum_ext p _ (fun i => f i + -1 * h i)) by (intros; ring). rewrite rsum_add, rsum_mul_l. ring. }
    rewrite !S1, rsum_mul_l, !rsum_mul_r. assert (K : rsum p (fun _ => rsum p (fun j => x j * y j)) = INR p * rsum p (fun j => x j * y j)).
    { generalize (rsum p (fun j => x j * y j)). intros a. clear. induction p; [cbn; ring|]. cbn [rsum]. rewrite IHp, S_INR. ring. }
    rewrite K. field. exact Z.
  - intros i _. assert (S1 : forall f h, rsum p (fun i => f i - h i) = rsum p f - rsum p h).
    { intros f h. rewrite (rsum_ext p _ (fun i => f i + -1 * h i)) by (intros; ring). rewrite rsum_add, rsum_mul_l. ring. }
    assert (K : forall a, rsum p (fun _ => a) = INR p * a). { intros a. clear. induction p; [cbn; ring|]. cbn [rsum]. rewrite IHp, S_INR. ring. }
    rewrite (rsum_ext p _ (fun j => (x i * y i - x i * y j) + (x j * y j - y i * x j))) by (intros; ring). rewrite rsum_add, !S1, !rsum_mul_l, K. ring.
Qed.
Lemma log10_lt a b : 0 < a -> a < b -> log10 a < log10 b.
Proof. intros A L. unfold log10. apply Rmult_lt_compat_r; [apply Rinv_0_lt_compat; rewrite <- ln_1; apply ln_increasing; lra|apply ln_increasing; assumption]. Qed.
Lemma log10_le a b : 0 < a -> a <= b -> log10 a <= log10 b.
Proof. intros A [L|L]; [left; apply log10_lt; assumption|right; rewrite L; reflexivity]. Qed.
Lemma xs_lt i j : (i < j)%nat -> xs j < xs i.
Proof. intros L. unfold xs. assert (log10 (INR (i + 1)) < log10 (INR (j + 1))) by (apply log10_lt; [apply lt_0_INR; lia|apply lt_INR; lia]). lra. Qed.
Lemma denominator_pos p : (2 <= p)%nat -> 0 < var p xs xs.
Proof.
  intros P. assert (IP : 0 < INR p) by (apply lt_0_INR; lia). apply (Rmult_lt_reg_l (INR p)); [exact IP|]. rewrite Rmult_0_r, var_pairs by lia.
  apply Rmult_lt_0_compat; [lra|].
  assert (N : forall i, (i < p)%nat -> 0 <= rsum p (fun j => (xs i - xs j) * (xs i - xs j))) by (intros i _; apply rsum_nonneg; intros; apply Rle_0_sqr).
  destruct p as [|[|p]]; try lia. rewrite rsum_first. assert (0 <= rsum (S p) (fun i => rsum (S (S p)) (fun j => (xs (S i) - xs j) * (xs (S i) - xs j)))) by (apply rsum_nonneg; intros; apply N; lia).
  assert (0 < rsum (S (S p)) (fun j => (xs 0 - xs j) * (xs 0 - xs j))); [|lra]. rewrite rsum_first, rsum_first.
  assert (0 <= rsum p (fun i => (xs 0 - xs (S (S i))) * (xs 0 - xs (S (S i))))) by (apply rsum_nonneg; intros; apply Rle_0_sqr).
  pose proof (xs_lt 0 1 ltac:(lia)). assert (0 < (xs 0 - xs 1) * (xs 0 - xs 1)) by (apply Rmult_lt_0_compat; lra). nra.
Qed.
Lemma numerator_nonneg p energy : (1 <= p)%nat -> (forall n, (1 <= n <= p)%nat -> 0 < energy n) -> nonincreasing p energy -> 0 <= var p xs (ys energy).
Proof.
  intros P Pos D. assert (IP : 0 < INR p) by (apply lt_0_INR; lia). apply (Rmult_le_reg_l (INR p)); [exact IP|]. rewrite Rmult_0_r, var_pairs by lia.
  apply Rmult_le_pos; [lra|]. apply rsum_nonneg. intros i Hi. apply rsum_nonneg. intros j Hj.
  assert (Y : forall a b, (a < b)%nat -> (b < p)%nat -> ys energy b <= ys energy a) by (intros a b L B; apply log10_le; [apply Pos; lia|apply D; lia]).
  destruct (lt_eq_lt_dec i j) as [[L|E]|L]; [|subst j|].
  - pose proof (xs_lt i j L). pose proof (Y i j L Hj). apply Rmult_le_pos; lra.
  - right. ring.
  - pose proof (xs_lt j i L). pose proof (Y j i L Hi). (replace ((xs i - xs j) * (ys energy i - ys energy j)) with ((xs j - xs i) * (ys energy j - ys energy i)) by ring; apply Rmult_le_pos; lra).
Qed.

Lemma rsum_sub p f h : rsum p (fun i => f i - h i) = rsum p f - rsum p h.
Proof. rewrite (rsum_ext p _ (fun i => f i + -1 * h i)) by (intros; ring). rewrite rsum_add, rsum_mul_l. ring. Qed.
Lemma rsum_const p a : rsum p (fun _ => a) = INR p * a.
Proof. induction p; [cbn; ring|]. cbn [rsum]. rewrite IHp, S_INR. ring. Qed.
Lemma regression_is p x y : (1 <= p)%nat -> 0 < var p x x -> regression p x y (var p x y / var p x x).
Proof.
  intros P D. assert (Z : INR p <> 0) by (apply not_0_INR; lia). set (s := var p x y / var p x x). set (t := (rsum p y - s * rsum p x) / INR p).
  exists t. intros s' t'. set (r := fun k => y k - (s * x k + t)).
  assert (R0 : rsum p r = 0).
  { unfold r. rewrite rsum_sub, rsum_add, rsum_mul_l, rsum_const. unfold t. field. exact Z. }
  assert (Hs : s * var p x x = var p x y) by (unfold s; field; lra).
  assert (R1 : rsum p (fun k => r k * x k) = 0).
  { unfold r. rewrite (rsum_ext p _ (fun k => x k * y k - (s * (x k * x k) + t * x k))) by (intros; ring). rewrite rsum_sub, rsum_add, !rsum_mul_l.
    unfold var in Hs. unfold t. apply (f_equal (fun z => z * INR p)) in Hs.
    replace (s * (rsum p (fun k => x k * x k) - rsum p x * rsum p x / INR p) * INR p) with (s * (rsum p (fun k => x k * x k) * INR p - rsum p x * rsum p x)) in Hs by (field; exact Z).
    replace ((rsum p (fun k => x k * y k) - rsum p x * rsum p y / INR p) * INR p) with (rsum p (fun k => x k * y k) * INR p - rsum p x * rsum p y) in Hs by (field; exact Z).
    apply Rmult_eq_reg_r with (INR p); [|exact Z]. rewrite Rmult_0_l.
    replace ((rsum p (fun i => x i * y i) - (s * rsum p (fun i => x i * x i) + (rsum p y - s * rsum p x) / INR p * rsum p x)) * INR p)
      with (rsum p (fun k => x k * y k) * INR p - s * (rsum p (fun k => x k * x k) * INR p) - (rsum p y - s * rsum p x) * rsum p x) by (field; exact Z). lra. }
  rewrite (rsum_ext p (fun k => (y k - (s * x k + t)) ^ 2) (fun k => r k * r k)) by (intros; unfold r; ring).
  rewrite (rsum_ext p (fun k => (y k - (s' * x k + t')) ^ 2) (fun k => r k * r k + (2 * (s - s') * (r k * x k) + (2 * (t - t') * r k + ((s - s') * x k + (t - t')) * ((s - s') * x k + (t - t')))))) by (intros; unfold r; ring).
  rewrite !rsum_add, !rsum_mul_l, R0, R1.
  assert (0 <= rsum p (fun k => ((s - s') * x k + (t - t')) * ((s - s') * x k + (t - t')))) by (apply rsum_nonneg; intros; apply Rle_0_sqr). lra.
Qed.
Lemma power_law p C s energy : (2 <= p)%nat -> 0 < C -> (forall n, (1 <= n <= p)%nat -> energy n = C * Rpower (INR n) (-2 * s)) ->
  slope_numerator p energy = s * slope_denominator p energy.
Proof.
  intros P HC H. destruct (slope_parts p energy ltac:(lia)) as (-> & ->). assert (Z : INR p <> 0) by (apply not_0_INR; lia).
  assert (Y : forall k, (k < p)%nat -> ys energy k = log10 C + s * xs k).
  { intros k Hk. unfold ys, xs, log10. rewrite H by lia. assert (0 < INR (k + 1)) by (apply lt_0_INR; lia).
    rewrite ln_mult by (try assumption; apply exp_pos). unfold Rpower. rewrite ln_exp. field. assert (0 < ln 10) by (rewrite <- ln_1; apply ln_increasing; lra). lra. }
  unfold var. rewrite (rsum_ext p (ys energy) (fun k => log10 C + s * xs k)) by exact Y.
  rewrite (rsum_ext p (fun k => xs k * ys energy k) (fun k => log10 C * xs k + s * (xs k * xs k))) by (intros k Hk; rewrite Y by exact Hk; ring).
  rewrite !rsum_add, !rsum_mul_l, rsum_const. field. exact Z.
Qed.

(** ** Energies of Kloeckner's sensor *)
Lemma b2_pos p n : (1 <= n)%nat -> (1 <= p)%nat -> 0 < b2 p n.
Proof.
  intros N P. assert (D : forall k, 0 < decay_power p k) by (intros k; unfold decay_power; apply Rinv_0_lt_compat, pow_lt, lt_0_INR; lia).
  unfold b2. apply Rdiv_lt_0_compat; [apply D|]. destruct p; [lia|]. rewrite rsum_first. pose proof (D 0%nat).
  assert (0 <= rsum p (fun i => decay_power (S p) (S i))) by (apply rsum_nonneg; intros; apply Rlt_le, D). lra.
Qed.
Lemma b2_sum p : (1 <= p)%nat -> rsum p (fun k => b2 p (k + 1)) = 1.
Proof.
  intros P. unfold b2. rewrite (rsum_ext p _ (fun k => decay_power p k * / rsum p (decay_power p))).
  - rewrite rsum_mul_r. apply Rinv_r. assert (D : forall k, 0 < decay_power p k) by (intros k; unfold decay_power; apply Rinv_0_lt_compat, pow_lt, lt_0_INR; lia).
    destruct p; [lia|]. rewrite rsum_first. pose proof (D 0%nat). assert (0 <= rsum p (fun i => decay_power (S p) (S i))) by (apply rsum_nonneg; intros; apply Rlt_le, D). lra.
  - intros k _. replace (k + 1 - 1)%nat with k by lia. reflexivity.
Qed.
Lemma put_fold (d : nat -> R) : forall q (energy : nat -> R) n,
  fold_left (fun energy n => put energy n (energy n + d n)) (rev (seq 1 q)) energy n = if (1 <=? n)%nat && (n <=? q)%nat then energy n + d n else energy n.
Proof.
  induction q as [|q IH]; intros energy n.
  - cbn [seq rev fold_left]. destruct (Nat.leb_spec 1 n), (Nat.leb_spec n 0); cbn [andb]; reflexivity || lia.
  - rewrite seq_S, rev_app_distr. cbn [rev app fold_left]. rewrite IH. cbn [Nat.add]. unfold put.
    destruct (Nat.eqb_spec n (S q)) as [->|N].
    + destruct (Nat.leb_spec (S q) q); [lia|]. rewrite andb_false_r. destruct (Nat.leb_spec 1 (S q)), (Nat.leb_spec (S q) (S q)); try lia. reflexivity.
    + destruct (Nat.leb_spec 1 n), (Nat.leb_spec n q), (Nat.leb_spec n (S q)); cbn; try lia; reflexivity.
Qed.
Lemma decay_is p energy n : add_modal_decay p energy n = if (1 <=? n)%nat && (n <=? p)%nat then energy n + (rsum (p + 1) energy + 1 / 10 ^ 8) * b2 p n else energy n.
Proof. unfold add_modal_decay. apply (put_fold (fun n => (rsum (p + 1) energy + 1 / 10 ^ 8) * b2 p n)). Qed.
Lemma sky_fold p : forall q energy, (q < p)%nat -> (forall i j, (q + 1 <= i)%nat -> (i <= j)%nat -> (j <= p)%nat -> energy j <= energy i) ->
  let e' := fold_left (fun energy n => put energy n (Rmax (energy n) (energy (n + 1)%nat))) (rev (seq 1 q)) energy in
  nonincreasing p e' /\ (forall n, (q < n)%nat -> e' n = energy n) /\ e' 0%nat = energy 0%nat /\ (forall n, (1 <= n)%nat -> energy n <= e' n) /\
  (forall n, (1 <= n <= p)%nat -> exists j, (n <= j <= p)%nat /\ e' n = energy j).
Proof.
  induction q as [|q IH]; intros energy Q H.
  - cbn. split; [intros i j A B C; apply H; lia|]. repeat split; intros; try lra; try reflexivity. exists n. split; [lia|reflexivity].
  - intros e'. unfold e'. clear e'. rewrite seq_S, rev_app_distr. cbn [rev app fold_left]. change (1 + q)%nat with (S q).
    set (e1 := put energy (S q) (Rmax (energy (S q)) (energy (S q + 1)%nat))).
    assert (E1 : e1 (S q) = Rmax (energy (S q)) (energy (S q + 1)%nat)) by (unfold e1, put; rewrite Nat.eqb_refl; reflexivity).
    assert (E2 : forall n, n <> S q -> e1 n = energy n) by (intros n N; unfold e1, put; destruct (Nat.eqb_spec n (S q)); [contradiction|reflexivity]).
    destruct (IH e1 ltac:(lia)) as (A & B & C & D & E).
    { intros i j Hi Hij Hj. destruct (Nat.eq_dec i (S q)) as [->|N].
      - rewrite E1. destruct (Nat.eq_dec j (S q)) as [->|N']; [rewrite E1; lra|]. rewrite E2 by exact N'. apply Rle_trans with (energy (S q + 1)%nat); [apply H; lia|apply Rmax_r].
      - rewrite !E2 by lia. apply H; lia. }
    split; [exact A|]. split; [intros n N; rewrite B by lia; apply E2; lia|]. split; [exact (eq_trans C (E2 0%nat ltac:(lia)))|]. split.
    + intros n N. apply Rle_trans with (e1 n); [|apply D, N]. destruct (Nat.eq_dec n (S q)) as [->|N']; [rewrite E1; apply Rmax_l|rewrite E2 by exact N'; lra].
    + intros n N. destruct (E n N) as (j & Hj & Ej). destruct (Nat.eq_dec j (S q)) as [->|N'].
      * rewrite Ej, E1. destruct (Rmax_case (energy (S q)) (energy (S q + 1)%nat) (fun m => m = energy (S q) \/ m = energy (S q + 1)%nat) (or_introl eq_refl) (or_intror eq_refl)) as [->| ->].
        -- exists (S q). split; [lia|reflexivity].
        -- exists (S q + 1)%nat. split; [lia|reflexivity].
      * exists j. split; [exact Hj|]. rewrite Ej, E2 by exact N'. reflexivity.
Qed.
Lemma skyline_is p energy : (2 <= p)%nat -> (forall n, (1 <= n <= p)%nat -> 0 < energy n) -> exists e', apply_skyline p energy = Some e' /\
  nonincreasing p e' /\ (forall n, (1 <= n <= p)%nat -> energy n <= e' n) /\ e' p = e' (p - 1)%nat /\
  (forall n, (1 <= n <= p)%nat -> exists j, (1 <= j <= p)%nat /\ e' n = energy j) /\ (forall n, (1 <= n <= p)%nat -> 0 < e' n).
Proof.
  intros P Pos. unfold apply_skyline. destruct (Nat.eqb_spec p 0) as [?|NZ]; [lia|]. eexists. split; [reflexivity|].
  rewrite !Rabs_pos_eq by (apply Rlt_le, Pos; lia). set (top := Rmax (energy p) (energy (p - 1)%nat)). set (e1 := put (put energy p top) (p - 1) top).
  assert (T1 : e1 p = top) by (unfold e1, put; destruct (Nat.eqb_spec p (p - 1)); [lia|rewrite Nat.eqb_refl; reflexivity]).
  assert (T2 : e1 (p - 1)%nat = top) by (unfold e1, put; rewrite Nat.eqb_refl; reflexivity).
  assert (T3 : forall n, n <> p -> n <> (p - 1)%nat -> e1 n = energy n).
  { intros n A B. unfold e1, put. destruct (Nat.eqb_spec n (p - 1)); [contradiction|]. destruct (Nat.eqb_spec n p); [contradiction|reflexivity]. }
  destruct (sky_fold p (p - 2) e1 ltac:(lia)) as (A & B & _ & C & D).
  { intros i j Hi Hij Hj. assert (I : i = p \/ i = (p - 1)%nat) by lia. assert (J : j = p \/ j = (p - 1)%nat) by lia. destruct I as [->| ->], J as [->| ->]; rewrite ?T1, ?T2; lra. }
  set (e' := fold_left _ _ _) in *.
  assert (G : forall n, (1 <= n <= p)%nat -> energy n <= e' n).
  { intros n N. apply Rle_trans with (e1 n); [|apply C; lia]. destruct (Nat.eq_dec n p) as [->|N1]; [rewrite T1; apply Rmax_l|].
    destruct (Nat.eq_dec n (p - 1)) as [->|N2]; [rewrite T2; apply Rmax_r|]. rewrite T3 by assumption. lra. }
  split; [exact A|]. split; [exact G|]. split; [rewrite !B by lia; rewrite T1, T2; reflexivity|]. split.
  - intros n N. destruct (D n N) as (j & Hj & ->). assert (TT : top = energy p \/ top = energy (p - 1)%nat).
    { unfold top. apply (Rmax_case (energy p) (energy (p - 1)%nat) (fun m => m = energy p \/ m = energy (p - 1)%nat)); auto. }
    assert (W : exists j', (1 <= j' <= p)%nat /\ top = energy j') by (destruct TT as [->| ->]; [exists p|exists (p - 1)%nat]; (split; [lia|reflexivity])).
    destruct (Nat.eq_dec j p) as [->|N1]; [rewrite T1; exact W|]. destruct (Nat.eq_dec j (p - 1)) as [->|N2]; [rewrite T2; exact W|]. exists j. split; [lia|apply T3; assumption].
  - intros n N. apply Rlt_le_trans with (energy n); [apply Pos, N|apply G, N].
Qed.

Section Kloeckner.
  Variables (roots : nat -> list R * list R) (inv : nat -> (nat -> nat -> R) -> option (nat -> nat -> R)) (degree : nat) (c : Coordinate) (e : Legendre).
  Hypothesis (X : x_left c < x_right c) (F : frame roots inv degree c e).
  Lemma degree_is : (l_n e - 1)%nat = degree. Proof. rewrite (proj1 F). lia. Qed.
  Lemma decay_pos n : (1 <= n <= degree)%nat -> 0 < add_modal_decay degree (l_energy e) n.
  Proof.
    intros N. rewrite decay_is. destruct (Nat.leb_spec 1 n), (Nat.leb_spec n degree); try lia. cbn [andb].
    pose proof (energy_nonneg _ _ _ _ _ n X F). assert (0 <= rsum (degree + 1) (l_energy e)) by (apply rsum_nonneg; intros; apply (energy_nonneg _ _ _ _ _ _ X F)).
    pose proof (b2_pos degree n ltac:(lia) ltac:(lia)). assert (0 < 1 / 10 ^ 8) by (apply Rdiv_lt_0_compat; [lra|apply pow_lt; lra]).
    assert (0 < (rsum (degree + 1) (l_energy e) + 1 / 10 ^ 8) * b2 degree n) by (apply Rmult_lt_0_compat; lra). lra.
  Qed.
  Lemma kloeckner_is : (2 <= degree)%nat -> exists energy slope b, apply_skyline degree (add_modal_decay degree (l_energy e)) = Some energy /\
    nonincreasing degree energy /\ (forall n, (1 <= n <= degree)%nat -> 0 < energy n) /\
    regression degree xs (ys energy) slope /\ 0 <= slope /\ kloeckner_test e = Some b /\ (b = true <-> slope < 3 / 2).
  Proof.
    intros P. destruct (skyline_is degree (add_modal_decay degree (l_energy e)) P decay_pos) as (energy & E & A & _ & _ & _ & Pos).
    destruct (slope_parts degree energy ltac:(lia)) as (Nn & Dn). pose proof (denominator_pos degree P) as D. pose proof (numerator_nonneg degree energy ltac:(lia) Pos A) as N.
    assert (S0 : 0 <= var degree xs (ys energy) / var degree xs xs) by (apply Rmult_le_pos; [exact N|apply Rlt_le, Rinv_0_lt_compat, D]).
    exists energy, (var degree xs (ys energy) / var degree xs xs). unfold kloeckner_test. rewrite degree_is, E. cbn [bind]. rewrite Nn, Dn.
    destruct (Req_EM_T (var degree xs xs) 0); [lra|]. eexists. split; [reflexivity|]. split; [exact A|]. split; [exact Pos|]. split; [apply regression_is; [lia|exact D]|].
    split; [exact S0|]. split; [reflexivity|]. set (s := var degree xs (ys energy) / var degree xs xs) in *. destruct S0 as [S0|S0].
    - rewrite exceeds_pos by exact S0. split; lra.
    - rewrite <- S0. unfold exceeds. destruct (Req_EM_T 0 0); [|lra]. destruct (Rlt_dec 0 (3 / 2)); [|lra]. split; [lra|reflexivity].
  Qed.
  Lemma kloeckner_one : degree = 1%nat -> kloeckner_test e = Some false.
  Proof.
    intros P. unfold kloeckner_test. rewrite degree_is, P. cbn [apply_skyline Nat.eqb bind]. unfold apply_skyline. cbn [Nat.eqb bind].
    match goal with |- context [slope_denominator 1 ?en] => destruct (slope_parts 1 en (le_n 1)) as (_ & ->) end. unfold var. cbn [rsum INR].
    destruct (Req_EM_T _ 0) as [_|N]; [reflexivity|]. exfalso. apply N. field.
  Qed.
  Lemma kloeckner_two : degree = 2%nat -> kloeckner_test e = Some true.
  Proof.
    intros P. destruct (skyline_is 2 (add_modal_decay degree (l_energy e)) (le_n 2) ltac:(intros n Hn; apply decay_pos; lia)) as (energy & E & _ & _ & Eq & _ & _).
    unfold kloeckner_test. rewrite degree_is. rewrite P in *. rewrite E. cbn [bind]. destruct (slope_parts 2 energy ltac:(lia)) as (Nn & Dn). rewrite Nn, Dn.
    pose proof (denominator_pos 2 (le_n 2)). destruct (Req_EM_T (var 2 xs xs) 0); [lra|].
    assert (Z : var 2 xs (ys energy) = 0). { unfold var. cbn [rsum]. unfold ys. cbn [Nat.add]. cbn [Nat.sub] in Eq. rewrite Eq. change (INR 2) with 2. field. }
    rewrite Z. replace (0 / var 2 xs xs) with 0 by (field; lra). unfold exceeds. destruct (Req_EM_T 0 0); [|lra]. destruct (Rlt_dec 0 (3 / 2)); [reflexivity|lra].
  Qed.
End Kloeckner.

(** ** Li Yan-Hui's sensor *)
Lemma eps_pos : 0 < lyh_epsilon. Proof. unfold lyh_epsilon, psi_c. lra. Qed.
Lemma psi_range n u i : 0 < psi n u i <= 1.
Proof.
  unfold psi. pose proof eps_pos. set (a := Rabs _ + Rabs _). set (b := Rabs _ + Rabs _).
  assert (A : 0 <= a) by (unfold a; apply Rplus_le_le_0_compat; apply Rabs_pos). assert (B : 0 <= b) by (unfold b; apply Rplus_le_le_0_compat; apply Rabs_pos).
  assert (D : 0 < a ^ 2 + b ^ 2 + lyh_epsilon) by nra. assert (0 <= a * b) by (apply Rmult_le_pos; assumption). split.
  - apply Rdiv_lt_0_compat; nra.
  - apply (Rmult_le_reg_r (a ^ 2 + b ^ 2 + lyh_epsilon)); [exact D|]. replace ((2 * a * b + lyh_epsilon) / (a ^ 2 + b ^ 2 + lyh_epsilon) * (a ^ 2 + b ^ 2 + lyh_epsilon)) with (2 * a * b + lyh_epsilon) by (field; lra).
    pose proof (Rle_0_sqr (a - b)). unfold Rsqr in *. nra.
Qed.
Lemma psi_same n u i (a : R) : let l1 := ((i + n - 1) mod n)%nat in let l2 := ((i + n - 2) mod n)%nat in let r1 := ((i + 1) mod n)%nat in let r2 := ((i + 2) mod n)%nat in
  Rabs (u i - u l1) + Rabs (u i - 2 * u l1 + u l2) = a -> Rabs (u i - u r1) + Rabs (u i - 2 * u r1 + u r2) = a -> psi n u i = 1.
Proof.
  cbv zeta. intros A B. unfold psi. cbv zeta. rewrite A, B. pose proof eps_pos. pose proof (pow2_ge_0 a). assert (a ^ 2 + a ^ 2 + lyh_epsilon <> 0) by lra. field. assumption.
Qed.
Lemma cell_smooth n m ps i : (n <> 0)%nat -> (m * i + m <= n)%nat -> (forall j, (j < n)%nat -> psi_c <= ps j) -> lyh_cell n m ps i = false.
Proof.
  intros N L H. unfold lyh_cell. apply not_true_is_false. intros E. apply existsb_exists in E. destruct E as (j & Hj & E). apply in_seq in Hj.
  destruct (Rlt_dec _ _) as [Lt|]; [|discriminate]. assert (psi_c <= Rmin (Rmin (ps j) (ps ((j + n - 1) mod n)%nat)) (ps ((j + 1) mod n)%nat)); [|lra].
  repeat apply Rmin_glb; apply H; try (apply Nat.mod_upper_bound; exact N). lia.
Qed.
Lemma put_ge (ps : nat -> R) i j k : psi_c <= ps j -> k = psi_c -> psi_c <= put ps i k j.
Proof. intros H ->. unfold put. destruct (j =? i)%nat; lra. Qed.
Lemma line_psi n u al be : (forall i, (i < n)%nat -> u i = al + be * INR i) -> forall i, (i < n)%nat -> psi_c <= psi_values false n u i.
Proof.
  intros H i Hi. unfold psi_values. assert (PC : psi_c <= 1) by (unfold psi_c; lra).
  destruct (le_lt_dec 2 i) as [L2|L2]; [destruct (le_lt_dec (i + 3) n) as [L3|L3]|].
  - repeat (apply put_ge; [|reflexivity]). rewrite (psi_same n u i (Rabs be)); [exact PC| |].
    + replace ((i + n - 1) mod n)%nat with (i - 1)%nat by (replace (i + n - 1)%nat with (i - 1 + 1 * n)%nat by lia; rewrite Nat.mod_add by lia; symmetry; apply Nat.mod_small; lia).
      replace ((i + n - 2) mod n)%nat with (i - 2)%nat by (replace (i + n - 2)%nat with (i - 2 + 1 * n)%nat by lia; rewrite Nat.mod_add by lia; symmetry; apply Nat.mod_small; lia).
      rewrite !H by lia. rewrite !minus_INR by lia. change (INR 2) with 2. change (INR 1) with 1.
      replace (al + be * INR i - (al + be * (INR i - 1))) with be by ring. replace (al + be * INR i - 2 * (al + be * (INR i - 1)) + (al + be * (INR i - 2))) with 0 by ring. rewrite Rabs_R0. ring.
    + rewrite !Nat.mod_small by lia. rewrite !H by lia. rewrite !plus_INR. change (INR 2) with 2. change (INR 1) with 1.
      replace (al + be * INR i - (al + be * (INR i + 1))) with (- be) by ring. replace (al + be * INR i - 2 * (al + be * (INR i + 1)) + (al + be * (INR i + 2))) with 0 by ring. rewrite Rabs_R0, Rabs_Ropp. ring.
  - unfold put. destruct (Nat.eqb_spec i (n - 2)); [lra|]. destruct (Nat.eqb_spec i (n - 1)); [lra|]. lia.
  - unfold put. destruct (i =? n - 2)%nat; [lra|]. destruct (i =? n - 1)%nat; [lra|]. destruct (Nat.eqb_spec i 1); [lra|]. destruct (Nat.eqb_spec i 0); [lra|]. lia.
Qed.
Lemma constant_psi per n u a : (forall i, (i < n)%nat -> u i = a) -> forall i, (i < n)%nat -> psi_c <= psi_values per n u i.
Proof.
  intros H i Hi. assert (PC : psi_c <= 1) by (unfold psi_c; lra). assert (E : psi n u i = 1).
  { apply (psi_same n u i 0); rewrite !H by (try exact Hi; apply Nat.mod_upper_bound; lia); replace (a - a) with 0 by ring; replace (a - 2 * a + a) with 0 by ring; rewrite Rabs_R0; ring. }
  unfold psi_values. destruct per; [lra|]. repeat (apply put_ge; [|reflexivity]). lra.
Qed.
