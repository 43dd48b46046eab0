(** The selective filter. *)
From Coq Require Import Reals List Arith ZArith Lia Lra.
From Verif Require Import Arrays RSum Model_PyGrid Proof_PyGrid Model_PyFilter Spec_PyFilter.
Import ListNotations.
Open Scope R_scope.

Lemma coeff_is j : (j <= 5)%nat -> coeff (width + j) = weight j /\ coeff (width - j) = weight j.
Proof.
  intros H. destruct j as [|[|[|[|[|[|j]]]]]]; [| | | | | |lia]; unfold coeff, width; cbn [nth coeff_table Nat.add Nat.sub weight pow]; split; lra.
Qed.
Lemma weights_sum : weight 0 + rsum 5 (fun j => 2 * weight (S j)) = 0.
Proof. cbn [rsum weight]. lra. Qed.

(** *** the sums over neighbors *)
Lemma stencil_is wrap n old i : (10 <= n)%nat -> (i < n)%nat -> (wrap = false -> (i + 5 < n)%nat) ->
  stencil wrap n old i = Some (high_part (old i) (fun j => old (ring_right n i j)) (fun j => old (ring_left n i j))).
Proof.
  intros Hn Hi Hw.
  assert (A : forall j, (1 <= j <= 5)%nat -> index n (if wrap then (Z.of_nat (i + j) mod Z.of_nat n)%Z else Z.of_nat (i + j)) = Some (ring_right n i j)).
  { intros j Hj. unfold ring_right. assert (M : ((i + j) mod n < n)%nat) by (apply Nat.mod_upper_bound; lia). destruct wrap.
    - rewrite <- Nat2Z.inj_mod. apply index_nat. exact M.
    - rewrite Nat.mod_small by (specialize (Hw eq_refl); lia). apply index_nat. specialize (Hw eq_refl). lia. }
  assert (B : forall j, (1 <= j <= 5)%nat -> index n (Z.of_nat i - Z.of_nat j) = Some (ring_left n i j)).
  { intros j Hj. unfold ring_left. destruct (Nat.lt_ge_cases i j) as [L|L].
    - replace (Z.of_nat i - Z.of_nat j)%Z with (- Z.of_nat (j - i))%Z by lia. rewrite index_neg by lia. f_equal. rewrite Nat.mod_small by lia. lia.
    - replace (Z.of_nat i - Z.of_nat j)%Z with (Z.of_nat (i - j)) by lia. rewrite index_nat by lia. f_equal. replace (i + n - j)%nat with (i - j + 1 * n)%nat by lia. rewrite Nat.mod_add by lia. rewrite Nat.mod_small; lia. }
  unfold stencil, width at 3. cbn [seq fold_left bind]. rewrite !A, !B by lia. cbn [bind].
  rewrite (proj1 (coeff_is 1 ltac:(lia))), (proj2 (coeff_is 1 ltac:(lia))), (proj1 (coeff_is 2 ltac:(lia))), (proj2 (coeff_is 2 ltac:(lia))), (proj1 (coeff_is 3 ltac:(lia))), (proj2 (coeff_is 3 ltac:(lia))),
    (proj1 (coeff_is 4 ltac:(lia))), (proj2 (coeff_is 4 ltac:(lia))), (proj1 (coeff_is 5 ltac:(lia))), (proj2 (coeff_is 5 ltac:(lia))).
  replace (coeff width) with (weight 0) by (symmetry; exact (proj1 (coeff_is 0 ltac:(lia)))).
  f_equal. unfold high_part. cbn [rsum]. ring.
Qed.
Lemma slice_is n old i : (5 <= i)%nat -> (i + 5 < n)%nat ->
  rsum 11 (fun k => coeff k * old (i - width + k)%nat) = high_part (old i) (fun j => old (ring_right n i j)) (fun j => old (ring_left n i j)).
Proof.
  intros H H'. assert (A : forall j, (j <= 5)%nat -> ring_right n i j = (i + j)%nat) by (intros; unfold ring_right; apply Nat.mod_small; lia).
  assert (B : forall j, (j <= 5)%nat -> ring_left n i j = (i - j)%nat) by (intros; unfold ring_left; replace (i + n - j)%nat with (i - j + 1 * n)%nat by lia; rewrite Nat.mod_add by lia; apply Nat.mod_small; lia).
  unfold high_part. cbn [rsum]. rewrite !A, !B by lia. unfold width.
  pose proof (proj1 (coeff_is 0 ltac:(lia))) as P0. pose proof (coeff_is 1 ltac:(lia)) as (P1 & M1). pose proof (coeff_is 2 ltac:(lia)) as (P2 & M2). pose proof (coeff_is 3 ltac:(lia)) as (P3 & M3).
  pose proof (coeff_is 4 ltac:(lia)) as (P4 & M4). pose proof (coeff_is 5 ltac:(lia)) as (P5 & M5).
  unfold width in *. cbn [Nat.add Nat.sub] in P0, P1, P2, P3, P4, P5, M1, M2, M3, M4, M5. rewrite P0, P1, P2, P3, P4, P5, M1, M2, M3, M4, M5.
  replace (i - 5 + 0)%nat with (i - 5)%nat by lia. replace (i - 5 + 1)%nat with (i - 4)%nat by lia. replace (i - 5 + 2)%nat with (i - 3)%nat by lia. replace (i - 5 + 3)%nat with (i - 2)%nat by lia.
  replace (i - 5 + 4)%nat with (i - 1)%nat by lia. replace (i - 5 + 5)%nat with i by lia. replace (i - 5 + 6)%nat with (i + 1)%nat by lia. replace (i - 5 + 7)%nat with (i + 2)%nat by lia.
  replace (i - 5 + 8)%nat with (i + 3)%nat by lia. replace (i - 5 + 9)%nat with (i + 4)%nat by lia. replace (i - 5 + 10)%nat with (i + 5)%nat by lia. ring.
Qed.

(** *** the loops *)
Lemma fold_some {A B} (f : A -> B -> A) (g : option A -> B -> option A) l : forall a, (forall i a, In i l -> g (Some a) i = Some (f a i)) -> Some (fold_left f l a) = fold_left g l (Some a).
Proof. induction l as [|x l IH]; intros a H; [reflexivity|]. cbn [fold_left]. rewrite (H x a) by (left; reflexivity). apply IH. intros; apply H; right; assumption. Qed.
Lemma inner_loop (f : nat -> R) start len old : forall new, new = fold_left (fun new i => set_at new i (new i - f i)) (seq start len) old ->
  forall k, new k = if ((start <=? k) && (k <? start + len))%nat%bool then old k - f k else old k.
Proof.
  revert start old. induction len as [|len IH]; intros start old new -> k; cbn [seq fold_left].
  - replace ((start <=? k) && (k <? start + 0))%nat%bool with false; [reflexivity|]. symmetry. destruct (Nat.leb_spec start k); [|reflexivity]. apply Nat.ltb_ge. lia.
  - rewrite (IH (S start) _ _ eq_refl k). unfold set_at. destruct (Nat.eqb_spec k start) as [->|N].
    + destruct (Nat.leb_spec (S start) start); [lia|]. cbn [andb]. destruct (Nat.leb_spec start start); [|lia]. destruct (Nat.ltb_spec start (start + S len)); [|lia]. reflexivity.
    + destruct (Nat.leb_spec (S start) k), (Nat.leb_spec start k), (Nat.ltb_spec k (S start + len)), (Nat.ltb_spec k (start + S len)); cbn [andb]; try reflexivity; lia.
Qed.
Lemma end_loop (body : nat -> option R) (f : nat -> R) start len old sigma :
  (forall i, (start <= i < start + len)%nat -> body i = Some (f i)) ->
  exists new, fold_left (fun acc i => do new <- acc; do d <- body i; Some (set_at new i (new i - sigma * d))) (seq start len) (Some old) = Some new /\
  forall k, new k = if ((start <=? k) && (k <? start + len))%nat%bool then old k - sigma * f k else old k.
Proof.
  intros H. eexists. split.
  - rewrite <- (fold_some (fun new i => set_at new i (new i - sigma * f i)) (fun acc i => do new <- acc; do d <- body i; Some (set_at new i (new i - sigma * d)))); [reflexivity|].
    intros i a Hi. apply in_seq in Hi. cbn [bind]. rewrite H by lia. reflexivity.
  - intros k. exact (inner_loop (fun i => sigma * f i) start len old _ eq_refl k).
Qed.
Lemma filter_ring n old sigma : (10 <= n)%nat -> exists new, filter true n old sigma = Some new /\ filtered_ring n sigma old new.
Proof.
  intros Hn. unfold filter. set (f := fun i => high_part (old i) (fun j => old (ring_right n i j)) (fun j => old (ring_left n i j))).
  set (n1 := fold_left _ (seq width (n - width - width)) old).
  assert (N1 := inner_loop (fun i => sigma * rsum 11 (fun k => coeff k * old (i - width + k)%nat)) width (n - width - width) old n1 eq_refl).
  destruct (end_loop (fun i => do _ <- index n (Z.of_nat i); stencil false n old i) f 0 width n1 sigma) as (n2 & E2 & N2).
  { intros i Hi. unfold width in Hi. rewrite index_nat by lia. cbn [bind]. apply stencil_is; lia. }
  destruct (end_loop (stencil true n old) f (n - width) width n2 sigma) as (n3 & E3 & N3).
  { intros i Hi. unfold width in Hi. apply stencil_is; [lia|lia|discriminate]. }
  exists n3. split.
  - replace (fold_left _ (seq 0 width) (Some n1)) with (Some n2); [exact E3|]. rewrite <- E2. unfold width. cbn [seq fold_left]. 
    cbn [bind]. repeat (rewrite index_nat by lia; cbn [bind]). reflexivity.
  - intros i Hi. fold (f i). rewrite N3, N2, N1. unfold width.
    destruct (Nat.leb_spec (n - 5) i), (Nat.ltb_spec i (n - 5 + 5)), (Nat.leb_spec 0 i), (Nat.ltb_spec i (0 + 5)), (Nat.leb_spec 5 i), (Nat.ltb_spec i (5 + (n - 5 - 5))); cbn [andb]; try lia; try reflexivity.
    f_equal. f_equal. apply slice_is; lia.
Qed.
Lemma filter_line n old sigma : exists new, filter false n old sigma = Some new /\
  forall i, new i = if ((5 <=? i) && (i + 5 <? n))%nat%bool then old i - sigma * high_part (old i) (fun j => old (i + j)%nat) (fun j => old (i - j)%nat) else old i.
Proof.
  unfold filter. eexists. split; [reflexivity|]. intros i.
  rewrite (inner_loop (fun i => sigma * rsum 11 (fun k => coeff k * old (i - width + k)%nat)) width (n - width - width) old _ eq_refl). unfold width.
  destruct (Nat.leb_spec 5 i), (Nat.ltb_spec i (5 + (n - 5 - 5))), (Nat.ltb_spec (i + 5) n); cbn [andb]; try lia; try reflexivity.
  f_equal. f_equal. change 5%nat with width at 1. rewrite (slice_is n) by lia.
  assert (A : forall j, (j <= 5)%nat -> ring_right n i j = (i + j)%nat) by (intros; unfold ring_right; apply Nat.mod_small; lia).
  assert (B : forall j, (j <= 5)%nat -> ring_left n i j = (i - j)%nat) by (intros; unfold ring_left; replace (i + n - j)%nat with (i - j + 1 * n)%nat by lia; rewrite Nat.mod_add by lia; apply Nat.mod_small; lia).
  unfold high_part. cbn [rsum]. rewrite !A, !B by lia. reflexivity.
Qed.
Lemma filter_short n old sigma : (n < 10)%nat -> filter true n old sigma = None.
Proof.
  intros H. unfold filter, width. match goal with |- context [Some (fold_left ?f ?l old)] => generalize (fold_left f l old); intros n1 end.
  assert (S : forall m i, (n <= i + 5)%nat -> (i < 5)%nat -> m = false -> stencil m n old i = None).
  { intros m i Hi Hl ->. unfold stencil, width. cbn [seq fold_left].
    assert (Q : forall acc j, (n <= i + j)%nat -> (do d <- acc; do r <- index n (Z.of_nat (i + j)); do l <- index n (Z.of_nat i - Z.of_nat j); Some (d + old r * coeff (5 + j) + old l * coeff (5 - j))) = None).
    { intros [d|] j Hj; [|reflexivity]. cbn [bind]. unfold index. destruct (Z.leb_spec 0 (Z.of_nat (i + j))); [|lia]. destruct (Z.ltb_spec (Z.of_nat (i + j)) (Z.of_nat n)); [lia|].
      cbn [andb]. destruct (Z.leb_spec (- Z.of_nat n) (Z.of_nat (i + j))), (Z.ltb_spec (Z.of_nat (i + j)) 0); try lia; reflexivity. }
    cbn zeta in *. rewrite (Q _ 5%nat) by lia. reflexivity. }
  assert (F : forall l acc, fold_left (fun acc i => do new <- acc; do _ <- index n (Z.of_nat i); do d <- stencil false n old i; Some (set_at new i (new i - sigma * d))) l acc = None \/ (acc <> None /\ forall i, In i l -> stencil false n old i <> None)).
  { induction l as [|x l IH]; intros [a|]; cbn [fold_left].
    - right. split; [discriminate|intros i []].
    - left. reflexivity.
    - cbn [bind]. destruct (index n (Z.of_nat x)); [|left; clear; induction l; [reflexivity|exact IHl]]. cbn [bind]. destruct (stencil false n old x) eqn:E; [|left; clear; induction l; [reflexivity|exact IHl]].
      cbn [bind]. destruct (IH (Some (set_at a x (a x - sigma * r)))) as [Q|(_ & Q)]; [left; exact Q|right]. split; [discriminate|]. intros i [<-|Hi]; [congruence|apply Q; exact Hi].
    - left. clear. induction l; [reflexivity|exact IHl]. }
  destruct (F (seq 0 5) (Some n1)) as [Q|(_ & Q)]; [rewrite Q; reflexivity|]. destruct (Q 4%nat); [apply in_seq; lia|]. apply S; lia.
Qed.

(** *** waves and sums *)
Lemma rsum_rotate n f : (0 < n)%nat -> rsum n (fun i => f ((i + 1) mod n)%nat) = rsum n f.
Proof.
  intros H. destruct n as [|n]; [lia|]. rewrite (rsum_first n f). cbn [rsum]. replace ((n + 1) mod S n)%nat with 0%nat by (rewrite Nat.add_1_r, Nat.mod_same by lia; reflexivity).
  rewrite Rplus_comm. f_equal. apply rsum_ext. intros i Hi. f_equal. rewrite Nat.mod_small by lia. lia.
Qed.
Lemma rsum_shift n f k : (0 < n)%nat -> rsum n (fun i => f ((i + k) mod n)%nat) = rsum n f.
Proof.
  intros H. induction k as [|k IH].
  - apply rsum_ext. intros i Hi. rewrite Nat.add_0_r, Nat.mod_small by lia. reflexivity.
  - rewrite <- IH, <- (rsum_rotate n (fun i => f ((i + k) mod n)%nat)) by lia. apply rsum_ext. intros i Hi. f_equal. rewrite Nat.add_mod_idemp_l by lia. f_equal. lia.
Qed.
Lemma ring_sum n sigma old new : (10 <= n)%nat -> filtered_ring n sigma old new -> rsum n new = rsum n old.
Proof.
  intros Hn F. rewrite (rsum_ext n new _ F), rsum_sub, rsum_mul_l.
  assert (Hh : rsum n (fun i => high_part (old i) (fun j => old (ring_right n i j)) (fun j => old (ring_left n i j))) = 0); [|rewrite Hh; ring].
  unfold high_part. rewrite rsum_add, rsum_mul_l, rsum_swap.
  rewrite (rsum_ext 5 _ (fun j => 2 * weight (S j) * rsum n old)).
  - rewrite rsum_mul_r, <- Rmult_plus_distr_r, weights_sum. ring.
  - intros j Hj. rewrite rsum_mul_l, rsum_add. unfold ring_right, ring_left. rewrite (rsum_shift n old (S j)) by lia.
    rewrite (rsum_ext n (fun i => old ((i + n - S j) mod n)%nat) (fun i => old ((i + (n - S j)) mod n)%nat)) by (intros; f_equal; f_equal; lia). rewrite rsum_shift by lia. ring.
Qed.
Lemma wave_mod n m phi a : (0 < n)%nat -> wave n m phi (a mod n) = wave n m phi a.
Proof.
  intros H. unfold wave. pose proof (Nat.div_mod a n ltac:(lia)) as D. assert (Nn : INR n <> 0) by (apply not_0_INR; lia).
  replace (2 * PI * INR m * INR a / INR n + phi) with (2 * PI * INR m * INR (a mod n) / INR n + phi + 2 * INR (m * (a / n)) * PI).
  - symmetry. apply cos_period.
  - rewrite D at 3. rewrite plus_INR, !mult_INR. field. exact Nn.
Qed.
Lemma ring_wave n m phi sigma new : (10 <= n)%nat -> filtered_ring n sigma (wave n m phi) new ->
  forall i, (i < n)%nat -> new i = (1 - sigma * symbol (2 * PI * INR m / INR n)) * wave n m phi i.
Proof.
  intros Hn F i Hi. rewrite (F i Hi). assert (Nn : INR n <> 0) by (apply not_0_INR; lia). set (theta := 2 * PI * INR m / INR n).
  assert (A : forall j, (1 <= j <= 5)%nat -> wave n m phi (ring_right n i j) + wave n m phi (ring_left n i j) = 2 * cos (INR j * theta) * wave n m phi i).
  { intros j Hj. unfold ring_right, ring_left. rewrite !wave_mod by lia. unfold wave. set (x := 2 * PI * INR m * INR i / INR n + phi).
    replace (2 * PI * INR m * INR (i + j) / INR n + phi) with (x + INR j * theta) by (unfold x, theta; rewrite plus_INR; field; exact Nn).
    replace (2 * PI * INR m * INR (i + n - j) / INR n + phi) with (x - INR j * theta + 2 * INR m * PI) by (unfold x, theta; rewrite minus_INR, plus_INR by lia; field; exact Nn).
    rewrite cos_period, cos_plus, cos_minus. ring. }
  unfold high_part, symbol. cbn [rsum]. rewrite !A by lia. ring.
Qed.
Lemma damping_is theta : damping theta = symbol theta.
Proof.
  unfold damping, symbol, width. cbn [seq fold_left rsum]. rewrite Rmult_0_l, cos_0.
  pose proof (proj1 (coeff_is 0 ltac:(lia))) as P0. pose proof (proj1 (coeff_is 1 ltac:(lia))) as P1. pose proof (proj1 (coeff_is 2 ltac:(lia))) as P2. pose proof (proj1 (coeff_is 3 ltac:(lia))) as P3.
  pose proof (proj1 (coeff_is 4 ltac:(lia))) as P4. pose proof (proj1 (coeff_is 5 ltac:(lia))) as P5. unfold width in *. cbn [Nat.add] in *. rewrite P0, P1, P2, P3, P4, P5. ring.
Qed.
(** the symbol as a polynomial in the square of the sine of the half phase *)
Definition profile (s : R) : R := s * s * (-0.000000000000064 + s * (0.047707800329792 + s * (-0.528507112372736 + s * 1.480799312043008))).
Lemma symbol_is theta : symbol theta = profile ((1 - cos theta) / 2).
Proof.
  assert (T : forall j, cos (INR (S (S j)) * theta) = 2 * cos theta * cos (INR (S j) * theta) - cos (INR j * theta)).
  { intros j. replace (INR (S (S j)) * theta) with (INR (S j) * theta + theta) by (rewrite (S_INR (S j)); ring). replace (INR j * theta) with (INR (S j) * theta - theta) by (rewrite (S_INR j); ring).
    rewrite cos_plus, cos_minus. ring. }
  assert (T0 : cos (INR 0 * theta) = 1) by (cbn [INR]; rewrite Rmult_0_l; apply cos_0). assert (T1 : cos (INR 1 * theta) = cos theta) by (cbn [INR]; f_equal; ring).
  unfold symbol. cbn [rsum weight]. rewrite !T, T1, T0. unfold profile. set (c := cos theta). lra.
Qed.
Lemma half_range theta : 0 <= (1 - cos theta) / 2 <= 1.
Proof. pose proof (COS_bound theta). lra. Qed.
Lemma profile_bounds s : 0 <= s <= 1 -> - / 10 ^ 32 <= profile s <= 1.
Proof.
  intros H. pose proof (Rle_0_sqr (s - 0.1784533)) as Sq. unfold Rsqr in Sq. unfold profile. split.
  - assert (G : 0.0004 <= 0.047707800329792 + s * (-0.528507112372736 + s * 1.480799312043008)) by lra.
    set (w := 0.047707800329792 + s * (-0.528507112372736 + s * 1.480799312043008)) in *.
    destruct (Rle_lt_dec 0.00000000016 s) as [L|L].
    + apply Rle_trans with 0; [assert (0 < / 10 ^ 32) by (apply Rinv_0_lt_compat, pow_lt; lra); lra|]. assert (0 <= s * s) by nra. apply Rmult_le_pos; [assumption|]. assert (0.00000000016 * 0.0004 <= s * w) by (apply Rmult_le_compat; lra). lra.
    + assert (s * s <= 0.00000000016 * 0.00000000016) by nra. assert (0 <= s * s) by nra. assert (0 <= s * w) by (apply Rmult_le_pos; lra). assert (0 <= s * s * (s * w)) by (apply Rmult_le_pos; assumption).
      apply Rle_trans with (- (0.00000000016 * 0.00000000016 * 0.000000000000064)); [|lra]. apply Ropp_le_contravar. cbn [pow]. lra.
  - assert (s * (0.047707800329792 + s * (-0.528507112372736 + s * 1.480799312043008)) <= 1.000000000000064).
    { assert (0.047707800329792 + s * (-0.528507112372736 + s * 1.480799312043008) <= 1.000000000000064) by nra. nra. }
    assert (0 <= s * s <= 1) by nra. nra.
Qed.
Lemma profile_positive s : 0.00000000016 <= s <= 1 -> 0 < profile s.
Proof.
  intros H. unfold profile. pose proof (Rle_0_sqr (s - 0.1784533)) as Sq. unfold Rsqr in Sq. assert (G : 0.0004 < 0.047707800329792 + s * (-0.528507112372736 + s * 1.480799312043008)) by lra.
  set (w := 0.047707800329792 + s * (-0.528507112372736 + s * 1.480799312043008)) in *. apply Rmult_lt_0_compat; [nra|]. assert (0.00000000016 * 0.0004 < s * w); [|lra]. apply Rle_lt_trans with (s * 0.0004); [lra|]. apply Rmult_lt_compat_l; lra.
Qed.
