(** Lemmas about Legendre polynomials, the correction functions and the three-dimensional Taylor basis. *)
From Coq Require Import Reals List Arith Lia Lra.
From Verif Require Import RSum Poly Model_Basis Spec_Basis.
Import ListNotations.
Open Scope R_scope.

Lemma legendre_pair_eq n x : legendre_pair n x = (legendre n x, legendre (S n) x).
Proof. unfold legendre. cbn. destruct (legendre_pair n x); reflexivity. Qed.
Lemma legendre_0 x : legendre 0 x = 1. Proof. reflexivity. Qed.
Lemma legendre_1 x : legendre 1 x = x. Proof. reflexivity. Qed.
Lemma legendre_step n x : INR (S (S n)) * legendre (S (S n)) x = (2 * INR (S n) + 1) * x * legendre (S n) x - INR (S n) * legendre n x.
Proof.
  assert (INR (S (S n)) <> 0) by (apply not_0_INR; lia).
  assert (legendre (S (S n)) x = ((2 * INR (S n) + 1) * x * legendre (S n) x - INR (S n) * legendre n x) / INR (S (S n))) as ->.
  { unfold legendre at 1. change (legendre_pair (S (S n)) x) with
      (let (p, q) := legendre_pair (S n) x in (q, ((2 * INR (S (S n)) + 1) * x * q - INR (S (S n)) * p) / INR (S (S (S n))))).
    change (legendre_pair (S n) x) with
      (let (p, q) := legendre_pair n x in (q, ((2 * INR (S n) + 1) * x * q - INR (S n) * p) / INR (S (S n)))).
    rewrite legendre_pair_eq. reflexivity. }
  field. assumption.
Qed.

Lemma legendre_at_1 n : legendre n 1 = 1.
Proof.
  enough (legendre n 1 = 1 /\ legendre (S n) 1 = 1) by tauto. induction n as [|n [IH1 IH2]]; [split; reflexivity|].
  split; [exact IH2|]. pose proof (legendre_step n 1) as H. rewrite IH1, IH2 in H.
  apply (Rmult_eq_reg_l (INR (S (S n)))); [|apply not_0_INR; lia]. rewrite H, !S_INR. ring.
Qed.
Lemma legendre_parity n x : legendre n (- x) = (-1) ^ n * legendre n x.
Proof.
  enough (legendre n (- x) = (-1) ^ n * legendre n x /\ legendre (S n) (- x) = (-1) ^ S n * legendre (S n) x) by tauto.
  induction n as [|n [IH1 IH2]]; [split; cbn; unfold legendre; cbn; ring|].
  split; [exact IH2|]. pose proof (legendre_step n x) as H. pose proof (legendre_step n (- x)) as H'. rewrite IH1, IH2 in H'.
  apply (Rmult_eq_reg_l (INR (S (S n)))); [|apply not_0_INR; lia]. rewrite H'.
  replace (INR (S (S n)) * ((-1) ^ S (S n) * legendre (S (S n)) x)) with ((-1) ^ S (S n) * (INR (S (S n)) * legendre (S (S n)) x)) by ring.
  rewrite H. cbn [pow]. ring.
Qed.

(** ** derivatives *)
(** the derivative by differentiating the recurrence *)
Fixpoint dleg_pair (n : nat) (x : R) : R * R :=
  match n with
  | O => (0, 1)
  | S m => let (p, q) := dleg_pair m x in
           (q, ((2 * INR n + 1) * (legendre n x + x * q) - INR n * p) / INR (S n))
  end.
Definition dleg n x := fst (dleg_pair n x).
Lemma dleg_pair_eq n x : dleg_pair n x = (dleg n x, dleg (S n) x).
Proof. unfold dleg. cbn [dleg_pair]. destruct (dleg_pair n x); reflexivity. Qed.
Lemma dleg_step n x : INR (S (S n)) * dleg (S (S n)) x =
  (2 * INR (S n) + 1) * (legendre (S n) x + x * dleg (S n) x) - INR (S n) * dleg n x.
Proof.
  assert (INR (S (S n)) <> 0) by (apply not_0_INR; lia).
  assert (dleg (S (S n)) x = ((2 * INR (S n) + 1) * (legendre (S n) x + x * dleg (S n) x) - INR (S n) * dleg n x) / INR (S (S n))) as ->.
  { unfold dleg at 1. change (dleg_pair (S (S n)) x) with
      (let (p, q) := dleg_pair (S n) x in (q, ((2 * INR (S (S n)) + 1) * (legendre (S (S n)) x + x * q) - INR (S (S n)) * p) / INR (S (S (S n))))).
    change (dleg_pair (S n) x) with
      (let (p, q) := dleg_pair n x in (q, ((2 * INR (S n) + 1) * (legendre (S n) x + x * q) - INR (S n) * p) / INR (S (S n)))).
    rewrite dleg_pair_eq. reflexivity. }
  field. assumption.
Qed.
Lemma derivable_ext f g x d : (forall t, f t = g t) -> derivable_pt_lim f x d -> derivable_pt_lim g x d.
Proof. intros E H eps He. destruct (H eps He) as (delta & Hd). exists delta. intros s. rewrite <- !E. apply Hd. Qed.
Lemma legendre_derivative n : forall x, derivable_pt_lim (legendre n) x (dleg n x).
Proof.
  enough (forall x, derivable_pt_lim (legendre n) x (dleg n x) /\ derivable_pt_lim (legendre (S n)) x (dleg (S n) x)) by (intros; apply H).
  induction n as [|n IH]; intros x.
  - split; [apply (derivable_pt_lim_const 1)|]. apply (derivable_ext id); [reflexivity|apply derivable_pt_lim_id].
  - destruct (IH x) as (H0 & H1). split; [exact H1|].
    assert (INR (S (S n)) <> 0) as Z by (apply not_0_INR; lia).
    apply (derivable_ext (fun t => / INR (S (S n)) * ((2 * INR (S n) + 1) * (t * legendre (S n) t) - INR (S n) * legendre n t))).
    { intros t. apply (Rmult_eq_reg_l (INR (S (S n)))); [|exact Z]. rewrite legendre_step. field. exact Z. }
    replace (dleg (S (S n)) x) with (/ INR (S (S n)) * ((2 * INR (S n) + 1) * (1 * legendre (S n) x + x * dleg (S n) x) - INR (S n) * dleg n x)).
    2: { apply (Rmult_eq_reg_l (INR (S (S n)))); [|exact Z]. rewrite dleg_step. field. exact Z. }
    apply (derivable_pt_lim_scal (fun t => (2 * INR (S n) + 1) * (t * legendre (S n) t) - INR (S n) * legendre n t)).
    apply (derivable_pt_lim_minus (fun t => (2 * INR (S n) + 1) * (t * legendre (S n) t)) (fun t => INR (S n) * legendre n t)).
    + apply (derivable_pt_lim_scal (fun t => t * legendre (S n) t)).
      apply (derivable_pt_lim_mult id (legendre (S n))); [apply derivable_pt_lim_id|exact H1].
    + apply (derivable_pt_lim_scal (legendre n)). exact H0.
Qed.

(** [P'_{n+1} = (n+1) P_n + x P'_n] and [x P'_{n+1} = P'_n + (n+1) P_{n+1}] *)
Lemma legendre_identities n x :
  dleg (S n) x = INR (S n) * legendre n x + x * dleg n x /\
  x * dleg (S n) x = dleg n x + INR (S n) * legendre (S n) x.
Proof.
  induction n as [|n (Ha & Hb)].
  - unfold dleg, legendre. cbn. split; ring.
  - pose proof (legendre_step n x) as L. pose proof (dleg_step n x) as D.
    assert (INR (S (S n)) <> 0) as Z by (apply not_0_INR; lia).
    rewrite !S_INR in *. set (m := INR n) in *.
    set (p0 := legendre n x) in *. set (p1 := legendre (S n) x) in *. set (p2 := legendre (S (S n)) x) in *.
    set (d0 := dleg n x) in *. set (d1 := dleg (S n) x) in *. set (d2 := dleg (S (S n)) x) in *.
    assert (d2 = (m + 1 + 1) * p1 + x * d1) as A.
    { apply (Rmult_eq_reg_l (m + 1 + 1)); [|exact Z]. rewrite D.
      assert (d0 = x * d1 - (m + 1) * p1) as -> by lra. ring. }
    split; [exact A|]. rewrite A.
    assert (x * (x * d1) = x * d0 + (m + 1) * x * p1) as E by (rewrite Hb; ring).
    replace (x * ((m + 1 + 1) * p1 + x * d1)) with ((m + 1 + 1) * x * p1 + x * (x * d1)) by ring. rewrite E.
    assert (x * d0 = d1 - (m + 1) * p0) as -> by lra. rewrite L. ring.
Qed.

Lemma legendre_derivatives_eq k x :
  legendre_derivatives k x = (match k with O => 0 | S m => dleg m x end, dleg k x, dleg (S k) x).
Proof.
  induction k; cbn [legendre_derivatives].
  - unfold dleg, legendre. cbn. repeat f_equal. ring.
  - rewrite IHk. f_equal. destruct (legendre_identities (S k) x) as (-> & _). reflexivity.
Qed.

Lemma right_derivative degree c x : (0 < degree)%nat ->
  derivable_pt_lim (LocalToRightValue degree c) x (LocalToRightDerivative degree c x).
Proof.
  intros L. unfold LocalToRightDerivative. rewrite legendre_derivatives_eq. destruct degree as [|d]; [lia|].
  apply (derivable_ext (fun t => / 2 * ((legendre (S d) t + (1 - c) * legendre d t) + c * legendre (S (S d)) t))).
  { intros t. unfold LocalToRightValue. replace (S d - 1)%nat with d by lia. replace (S d + 1)%nat with (S (S d)) by lia. field. }
  replace (1 / 2) with (/ 2) by field.
  apply (derivable_pt_lim_scal (fun t => legendre (S d) t + (1 - c) * legendre d t + c * legendre (S (S d)) t)).
  apply (derivable_pt_lim_plus (fun t => legendre (S d) t + (1 - c) * legendre d t) (fun t => c * legendre (S (S d)) t)).
  - apply (derivable_pt_lim_plus (legendre (S d)) (fun t => (1 - c) * legendre d t)); [apply legendre_derivative|].
    apply (derivable_pt_lim_scal (legendre d)), legendre_derivative.
  - apply (derivable_pt_lim_scal (legendre (S (S d)))), legendre_derivative.
Qed.
Lemma left_derivative degree c x : (0 < degree)%nat ->
  derivable_pt_lim (LocalToLeftValue degree c) x (LocalToLeftDerivative degree c x).
Proof.
  intros L. unfold LocalToLeftValue, LocalToLeftDerivative.
  replace (- LocalToRightDerivative degree c (- x)) with (LocalToRightDerivative degree c (- x) * - (1)) by ring.
  apply (derivable_pt_lim_comp (fun t => - t) (LocalToRightValue degree c)).
  - apply (derivable_pt_lim_opp id), derivable_pt_lim_id.
  - apply right_derivative, L.
Qed.
Lemma right_ends degree c : (0 < degree)%nat ->
  LocalToRightValue degree c 1 = 1 /\ LocalToRightValue degree c (-1) = 0.
Proof.
  intros L. unfold LocalToRightValue. split; [rewrite !legendre_at_1; field|].
  replace (-1) with (- (1)) by lra. rewrite !legendre_parity, !legendre_at_1. destruct degree as [|d]; [lia|].
  replace (S d - 1)%nat with d by lia. replace (S d + 1)%nat with (S (S d)) by lia. cbn [pow]. field.
Qed.

(** ** the Taylor basis *)
Definition poly3 (c : nat -> R) (x y z : R) : R :=
  c 0%nat + c 1%nat * x + c 2%nat * y + c 3%nat * z + c 4%nat * x * x + c 5%nat * x * y + c 6%nat * x * z + c 7%nat * y * y + c 8%nat * y * z + c 9%nat * z * z
  + c 10%nat * x * x * x + c 11%nat * x * x * y + c 12%nat * x * x * z + c 13%nat * x * y * y + c 14%nat * x * y * z + c 15%nat * x * z * z
  + c 16%nat * y * y * y + c 17%nat * y * y * z + c 18%nat * y * z * z + c 19%nat * z * z * z.
Definition dX (c : nat -> R) (n : nat) : R :=
  match n with | 0%nat => c 1%nat | 1%nat => 2 * c 4%nat | 2%nat => c 5%nat | 3%nat => c 6%nat | 4%nat => 3 * c 10%nat | 5%nat => 2 * c 11%nat | 6%nat => 2 * c 12%nat | 7%nat => c 13%nat | 8%nat => c 14%nat | 9%nat => c 15%nat | _ => 0 end.
Definition dY (c : nat -> R) (n : nat) : R :=
  match n with | 0%nat => c 2%nat | 1%nat => c 5%nat | 2%nat => 2 * c 7%nat | 3%nat => c 8%nat | 4%nat => c 11%nat | 5%nat => 2 * c 13%nat | 6%nat => c 14%nat | 7%nat => 3 * c 16%nat | 8%nat => 2 * c 17%nat | 9%nat => c 18%nat | _ => 0 end.
Definition dZ (c : nat -> R) (n : nat) : R :=
  match n with | 0%nat => c 3%nat | 1%nat => c 6%nat | 2%nat => c 8%nat | 3%nat => 2 * c 9%nat | 4%nat => c 12%nat | 5%nat => c 14%nat | 6%nat => 2 * c 15%nat | 7%nat => c 17%nat | 8%nat => 2 * c 18%nat | 9%nat => 3 * c 19%nat | _ => 0 end.
Definition dA (a : axis) := match a with AX => dX | AY => dY | AZ => dZ end.

Lemma cubic_derivative f a b c d x d' : (forall t, f t = peval [a; b; c; d] t) -> d' = b + 2 * c * x + 3 * d * x * x ->
  derivable_pt_lim f x d'.
Proof.
  intros E ->. apply (derivable_ext (peval [a; b; c; d])); [intros; symmetry; apply E|].
  replace (b + 2 * c * x + 3 * d * x * x) with (peval (pderiv [a; b; c; d]) x) by (cbn; ring).
  apply pderiv_correct.
Qed.
Lemma poly3_partial a c : is_partial1 a (poly3 c) (poly3 (dA a c)).
Proof.
  intros x y z. destruct a; cbn [dA].
  - apply (cubic_derivative _ (c 0%nat + c 2%nat * y + c 3%nat * z + c 7%nat * y * y + c 8%nat * y * z + c 9%nat * z * z + c 16%nat * y * y * y + c 17%nat * y * y * z + c 18%nat * y * z * z + c 19%nat * z * z * z)
      (c 1%nat + c 5%nat * y + c 6%nat * z + c 13%nat * y * y + c 14%nat * y * z + c 15%nat * z * z) (c 4%nat + c 11%nat * y + c 12%nat * z) (c 10%nat)).
    + intros t. unfold poly3. cbn [peval]. ring.
    + unfold poly3. cbn [dX]. ring.
  - apply (cubic_derivative _ (c 0%nat + c 1%nat * x + c 3%nat * z + c 4%nat * x * x + c 6%nat * x * z + c 9%nat * z * z + c 10%nat * x * x * x + c 12%nat * x * x * z + c 15%nat * x * z * z + c 19%nat * z * z * z)
      (c 2%nat + c 5%nat * x + c 8%nat * z + c 11%nat * x * x + c 14%nat * x * z + c 18%nat * z * z) (c 7%nat + c 13%nat * x + c 17%nat * z) (c 16%nat)).
    + intros t. unfold poly3. cbn [peval]. ring.
    + unfold poly3. cbn [dY]. ring.
  - apply (cubic_derivative _ (c 0%nat + c 1%nat * x + c 2%nat * y + c 4%nat * x * x + c 5%nat * x * y + c 7%nat * y * y + c 10%nat * x * x * x + c 11%nat * x * x * y + c 13%nat * x * y * y + c 16%nat * y * y * y)
      (c 3%nat + c 6%nat * x + c 8%nat * y + c 12%nat * x * x + c 14%nat * x * y + c 17%nat * y * y) (c 9%nat + c 15%nat * x + c 18%nat * y) (c 19%nat)).
    + intros t. unfold poly3. cbn [peval]. ring.
    + unfold poly3. cbn [dZ]. ring.
Qed.
Lemma poly3_partials w : forall c x y z d, d = poly3 (fold_left (fun c a => dA a c) w c) x y z -> is_partial w (poly3 c) x y z d.
Proof.
  induction w as [|a w IH]; intros c x y z d E; cbn; [exact E|].
  exists (poly3 (dA a c)). split; [apply poly3_partial|]. apply IH. exact E.
Qed.
Lemma is_partial_ext w : forall f g x y z d, (forall x y z, f x y z = g x y z) -> is_partial w f x y z d -> is_partial w g x y z d.
Proof.
  destruct w as [|a w]; intros f g x y z d E H; cbn in *; [rewrite <- E; exact H|].
  destruct H as (h & H1 & H2). exists h. split; [|exact H2].
  intros u v t. specialize (H1 u v t). destruct a; eapply derivable_ext; try exact H1; intros; apply E.
Qed.
Lemma is_partial_unique w : forall f x y z d1 d2, is_partial w f x y z d1 -> is_partial w f x y z d2 -> d1 = d2.
Proof.
  induction w as [|a w IH]; intros f x y z d1 d2 H1 H2; cbn in *; [congruence|].
  destruct H1 as (g1 & P1 & H1), H2 as (g2 & P2 & H2). apply (IH g1 x y z); [exact H1|].
  apply (is_partial_ext w g2); [|exact H2]. intros u v t. specialize (P1 u v t). specialize (P2 u v t).
  destruct a; eapply uniqueness_limite; eauto.
Qed.
(** coefficients past the end count as zero *)
Definition cut (k : nat) (c : nat -> R) (j : nat) : R := if Nat.ltb j (components k) then c j else 0.
Lemma combination_poly3 k c x y z : poly3 (cut k c) x y z = combination k c x y z.
Proof.
  unfold combination, cut, poly3. destruct k as [|[|[|k]]]; cbn -[IZR]; ring.
Qed.
Lemma combination_values k c x y z : (k <= 3)%nat ->
  length (Taylor3_GetValue k x y z) = components k /\
  combination k c x y z = rsum (components k) (fun j => c j * nth j (Taylor3_GetValue k x y z) 0).
Proof.
  intros L. destruct k as [|[|[|[|k]]]]; [| | | |lia]; (split; [reflexivity|]); unfold combination; cbn -[IZR]; ring.
Qed.
Ltac red_poly := cbn [fold_left dA nth columns]; unfold poly3; cbn [dX dY dZ]; unfold cut; cbn [components Nat.ltb Nat.leb nth Taylor3_GetGradValue Taylor3_GetPdvValue].
Lemma Taylor_gradient k c x y z a : (k <= 3)%nat ->
  is_partial [a] (combination k c) x y z (nth (match a with AX => 0 | AY => 1 | AZ => 2 end) (Taylor3_GetGradValue k x y z c) 0).
Proof.
  intros L. apply (is_partial_ext _ (poly3 (cut k c))); [apply combination_poly3|]. apply poly3_partials.
  destruct k as [|[|[|[|k]]]]; [| | | |lia]; destruct a; red_poly; ring.
Qed.
Lemma Taylor_pdv1 c x y z j : (1 <= j < 4)%nat ->
  is_partial (nth j columns []) (combination 1 c) x y z (nth j (Taylor3_GetPdvValue 1 x y z c) 0).
Proof.
  intros J. apply (is_partial_ext _ (poly3 (cut 1 c))); [apply combination_poly3|]. apply poly3_partials.
  destruct j as [|j]; [lia|]. do 3 (destruct j as [|j]; [red_poly; ring|]). lia.
Qed.
Lemma Taylor_pdv2 c x y z j : (1 <= j < 10)%nat ->
  is_partial (nth j columns []) (combination 2 c) x y z (nth j (Taylor3_GetPdvValue 2 x y z c) 0).
Proof.
  intros J. apply (is_partial_ext _ (poly3 (cut 2 c))); [apply combination_poly3|]. apply poly3_partials.
  destruct j as [|j]; [lia|]. do 9 (destruct j as [|j]; [red_poly; ring|]). lia.
Qed.
Lemma Taylor_pdv3 c x y z j : (1 <= j < 20)%nat -> (j <> 7)%nat ->
  is_partial (nth j columns []) (combination 3 c) x y z (nth j (Taylor3_GetPdvValue 3 x y z c) 0).
Proof.
  intros J E. apply (is_partial_ext _ (poly3 (cut 3 c))); [apply combination_poly3|]. apply poly3_partials.
  destruct j as [|j]; [lia|]. do 6 (destruct j as [|j]; [red_poly; ring|]). destruct j as [|j]; [lia|].
  do 12 (destruct j as [|j]; [red_poly; ring|]). lia.
Qed.

(** ** the lumping constant *)
Lemma lumping_derivative degree x : (0 < degree)%nat ->
  LocalToRightDerivative degree (HuynhLumpingLobatto degree) x = (1 + x) / 2 * dleg degree x.
Proof.
  intros L. unfold LocalToRightDerivative, HuynhLumpingLobatto. rewrite legendre_derivatives_eq. destruct degree as [|d]; [lia|].
  destruct (legendre_identities (S d) x) as (A & _). destruct (legendre_identities d x) as (_ & B).
  rewrite A. assert (dleg d x = x * dleg (S d) x - INR (S d) * legendre (S d) x) as -> by lra.
  rewrite (S_INR (S d)). pose proof (pos_INR (S d)). field. lra.
Qed.

(** ** linear.hpp *)
Lemma mat_vec_nth N a v i : (i < N)%nat -> nth i (mat_vec N a v) 0 = rsum N (fun j => a i j * nth j v 0).
Proof.
  intros L. unfold mat_vec. set (F := fun i => rsum N (fun j => a i j * nth j v 0)).
  rewrite (nth_indep _ 0 (F 0%nat)) by (rewrite map_length, seq_length; exact L).
  rewrite (map_nth F), seq_nth by exact L. reflexivity.
Qed.
Lemma mat_vec_ext N a b v : (forall i j, (i < N)%nat -> (j < N)%nat -> a i j = b i j) -> mat_vec N a v = mat_vec N b v.
Proof.
  intros E. unfold mat_vec. apply map_ext_in. intros i I. apply in_seq in I. apply rsum_ext. intros j L. rewrite E by lia. reflexivity.
Qed.
Lemma mat_vec_mul N a b v : mat_vec N (mat_mul N a b) v = mat_vec N a (mat_vec N b v).
Proof.
  unfold mat_vec at 1 2. apply map_ext_in. intros i I. apply in_seq in I.
  rewrite (rsum_ext N (fun j => a i j * _) (fun k => rsum N (fun j => a i k * (b k j * nth j v 0)))).
  - rewrite rsum_swap. apply rsum_ext. intros j L. unfold mat_mul. rewrite <- rsum_mul_r. apply rsum_ext. intros; ring.
  - intros k L. rewrite mat_vec_nth by exact L. rewrite rsum_mul_l. reflexivity.
Qed.
Lemma lower_mul N a b i j : (i < N)%nat -> (forall i j, (i < j)%nat -> a i j = 0) -> (forall i j, (i < j)%nat -> b i j = 0) ->
  (i < j)%nat -> mat_mul N a b i j = 0.
Proof.
  intros L A B I. apply rsum_zero. intros k K. destruct (Nat.lt_ge_cases i k); [rewrite A by lia; ring|]. rewrite (B k j) by lia. ring.
Qed.
Lemma lower_upper a i j : (i < j)%nat -> lower a i j = 0.
Proof. intros L. unfold lower. destruct (Nat.leb_spec j i); [lia|reflexivity]. Qed.
Lemma lower_id a i j : (forall i j, (i < j)%nat -> a i j = 0) -> lower a i j = a i j.
Proof. intros H. unfold lower. destruct (Nat.leb_spec j i); [reflexivity|]. symmetry. apply H. assumption. Qed.
