(** One-dimensional facts: differentiation on the points of a rule, summation by parts, corrections. *)
From Coq Require Import Reals List Arith Lia Lra.
From Verif Require Import RSum Poly Vec3 Model_Basis Spec_Basis Spec_FR Proof_Lagrange Proof_Vincent.
Import ListNotations.
Open Scope R_scope.

Fixpoint pmul (p q : list R) : list R := match p with [] => [] | a :: p => padd (pscale a q) (0 :: pmul p q) end.
Lemma pmul_eval p q x : peval (pmul p q) x = peval p x * peval q x.
Proof. induction p as [|a p IH]; cbn [pmul peval]; [ring|]. rewrite padd_eval, pscale_eval. cbn [peval]. rewrite IH. ring. Qed.
Lemma pmul_length p q : p <> [] -> q <> [] -> length (pmul p q) = (length p + length q - 1)%nat.
Proof.
  induction p as [|a p IH]; intros P Q; [contradiction|]. cbn [pmul]. rewrite padd_length, pscale_length. cbn [length].
  assert (1 <= length q)%nat by (destruct q; [contradiction|cbn; lia]).
  destruct p as [|b p]; [cbn; lia|]. rewrite IH by (auto; discriminate). cbn [length]. lia.
Qed.
Lemma pderiv_unique p x d : derivable_pt_lim (peval p) x d -> d = peval (pderiv p) x.
Proof. intros H. apply (uniqueness_limite (peval p) x); [exact H|apply pderiv_correct]. Qed.
Lemma pmul_deriv p q x : peval (pderiv (pmul p q)) x = peval (pderiv p) x * peval q x + peval p x * peval (pderiv q) x.
Proof.
  symmetry. apply pderiv_unique. apply (derivable_ext (mult_fct (peval p) (peval q))).
  - intros t. unfold mult_fct. symmetry. apply pmul_eval.
  - apply derivable_pt_lim_mult; apply pderiv_correct.
Qed.

Lemma nth_Line xs x a : (a < length xs)%nat -> nth a (Line_GetValues xs x) 0 = Line_value xs x a.
Proof.
  intros L. unfold Line_GetValues. rewrite (nth_indep _ 0 (Line_value xs x 0)) by (rewrite map_length, seq_length; exact L).
  rewrite (map_nth (Line_value xs x)), seq_nth by exact L. reflexivity.
Qed.

(** Legendre polynomials as lists *)
Lemma legendre_list n : exists p, length p = S n /\ forall x, peval p x = legendre n x.
Proof.
  enough (H : (exists p, length p = S n /\ forall x, peval p x = legendre n x)
    /\ (exists p, length p = S (S n) /\ forall x, peval p x = legendre (S n) x)) by tauto.
  induction n as [|n [(p & Lp & Ep) (q & Lq & Eq)]].
  - split; [exists [1]|exists [0; 1]]; (split; [reflexivity|]); intros x; unfold legendre; cbn; ring.
  - split; [exists q; auto|].
    exists (padd (pscale ((2 * INR (S n) + 1) / INR (S (S n))) (plin 0 q)) (pscale (- (INR (S n) / INR (S (S n)))) p)).
    split; [rewrite padd_length, !pscale_length, plin_length; lia|].
    intros x. rewrite padd_eval, !pscale_eval, plin_eval, Eq, Ep.
    pose proof (legendre_step n x) as HS. assert (NZ : INR (S (S n)) <> 0) by (apply not_0_INR; lia).
    apply (Rmult_eq_reg_l (INR (S (S n)))); [|exact NZ]. rewrite HS. field. exact NZ.
Qed.
Lemma right_list degree c : (0 < degree)%nat -> exists p, length p = S (S degree) /\ forall x, peval p x = LocalToRightValue degree c x.
Proof.
  intros L. destruct (legendre_list degree) as (p & Lp & Ep). destruct (legendre_list (degree - 1)) as (q & Lq & Eq).
  destruct (legendre_list (degree + 1)) as (r & Lr & Er).
  exists (pscale (1 / 2) (padd (padd p (pscale (1 - c) q)) (pscale c r))).
  split; [rewrite pscale_length, !padd_length, !pscale_length; lia|].
  intros x. rewrite pscale_eval, !padd_eval, !pscale_eval, Ep, Eq, Er. unfold LocalToRightValue. ring.
Qed.
Lemma right_derivative_list degree c p x : (0 < degree)%nat -> (forall x, peval p x = LocalToRightValue degree c x) ->
  LocalToRightDerivative degree c x = peval (pderiv p) x.
Proof.
  intros L E. apply pderiv_unique. apply (derivable_ext (LocalToRightValue degree c)); [intros; symmetry; apply E|].
  apply right_derivative. exact L.
Qed.

Section Line.
  Variables xs ws : list R.
  Variable D : nat -> nat -> R.
  Let Q := length xs.
  Notation X i := (nth i xs 0).
  Notation W i := (nth i ws 0).
  Hypothesis E : with_ends xs ws.
  Hypothesis LD : lagrange_derivatives xs D.
  Let ND : NoDup xs := proj1 E.

  Lemma Q_ge_2 : (2 <= Q)%nat. Proof. apply E. Qed.
  Lemma X_first : X 0 = -1. Proof. apply E. Qed.
  Lemma X_last : X (Q - 1) = 1. Proof. apply E. Qed.
  Lemma D_list i a : (i < Q)%nat -> (a < Q)%nat -> D i a = peval (pderiv (lpoly xs a)) (X i).
  Proof.
    intros I A. apply pderiv_unique. apply (derivable_ext (fun x => nth a (Line_GetValues xs x) 0)); [|apply LD; assumption].
    intros t. rewrite nth_Line by exact A. apply lpoly_eval.
  Qed.
  Lemma value_list a i : (a < Q)%nat -> (i < Q)%nat -> peval (lpoly xs a) (X i) = if (a =? i)%nat then 1 else 0.
  Proof. intros A I. rewrite <- lpoly_eval. apply Line_nodal; assumption. Qed.

  Lemma value_right a : (a < Q)%nat -> peval (lpoly xs a) 1 = if (a =? Q - 1)%nat then 1 else 0.
  Proof.
    intros A. pose proof (value_list a (Q - 1) A ltac:(pose proof Q_ge_2; lia)) as H. rewrite X_last in H. exact H.
  Qed.
  Lemma value_left a : (a < Q)%nat -> peval (lpoly xs a) (-1) = if (a =? 0)%nat then 1 else 0.
  Proof.
    intros A. pose proof (value_list a 0 A ltac:(pose proof Q_ge_2; lia)) as H. rewrite X_first in H. exact H.
  Qed.

  (** differentiation is exact on polynomials with as many coefficients as points *)
  Lemma D_exact p i : (length p <= Q)%nat -> (i < Q)%nat -> rsum Q (fun a => D i a * peval p (X a)) = peval (pderiv p) (X i).
  Proof.
    intros L I.
    assert (H : forall n, (n <= Q)%nat -> derivable_pt_lim (fun x => rsum n (fun a => peval p (X a) * Line_value xs x a)) (X i)
                (rsum n (fun a => peval p (X a) * D i a))).
    { induction n as [|n IH]; intros Ln; [apply (derivable_pt_lim_const 0)|]. cbn [rsum].
      apply (derivable_pt_lim_plus (fun x => rsum n (fun a => peval p (X a) * Line_value xs x a)) (fun x => peval p (X n) * Line_value xs x n));
        [apply IH; lia|].
      apply (derivable_pt_lim_scal (fun x => Line_value xs x n)).
      apply (derivable_ext (fun x => nth n (Line_GetValues xs x) 0)); [intros t; apply nth_Line; exact Ln|].
      apply LD; [exact I|exact Ln]. }
    rewrite (rsum_ext Q _ (fun a => peval p (X a) * D i a)) by (intros; ring).
    apply pderiv_unique. apply (derivable_ext (fun x => rsum Q (fun a => peval p (X a) * Line_value xs x a))); [|apply H; lia].
    intros t. symmetry. apply Line_reproduce; assumption.
  Qed.
  Lemma D_const i : (i < Q)%nat -> rsum Q (fun a => D i a) = 0.
  Proof.
    intros I. pose proof (D_exact [1] i) as H. cbn [length peval pderiv tl pderiv_from] in H.
    rewrite <- H; [|pose proof Q_ge_2; lia|exact I]. apply rsum_ext. intros; ring.
  Qed.

  (** the integral of the derivative of a basis function *)
  Lemma W_D a : integrates xs ws Q -> (a < Q)%nat ->
    rsum Q (fun i => W i * D i a) = (if (a =? Q - 1)%nat then 1 else 0) - (if (a =? 0)%nat then 1 else 0).
  Proof.
    intros H A. pose proof Q_ge_2 as Q2. rewrite (rsum_ext Q _ (fun i => W i * peval (pderiv (lpoly xs a)) (X i))).
    - change Q with (length xs) at 1. rewrite H by (rewrite lpoly_length; [unfold Q; lia|exact A]).
      rewrite value_right, value_left by exact A. reflexivity.
    - intros i I. rewrite D_list by assumption. reflexivity.
  Qed.
  (** summation by parts *)
  Lemma by_parts a i : integrates xs ws (2 * Q - 1) -> (a < Q)%nat -> (i < Q)%nat ->
    W a * D a i = - (W i * D i a)
      + (if (a =? i)%nat then (if (i =? Q - 1)%nat then 1 else 0) - (if (i =? 0)%nat then 1 else 0) else 0).
  Proof.
    intros H A I. pose proof Q_ge_2 as Q2.
    pose proof (H (pmul (lpoly xs a) (lpoly xs i))) as HH.
    rewrite pmul_length in HH.
    2,3: intros Z; apply (f_equal (@length R)) in Z; rewrite lpoly_length in Z by assumption; cbn in Z; unfold Q in Q2; lia.
    rewrite !lpoly_length in HH by assumption. specialize (HH ltac:(unfold Q; lia)). fold Q in HH.
    rewrite !pmul_eval in HH. rewrite !value_right, !value_left in HH by assumption.
    rewrite (rsum_ext Q _ (fun m => (if (i =? m)%nat then W m * D m a else 0) + (if (a =? m)%nat then W m * D m i else 0))) in HH.
    - rewrite rsum_add in HH.
      rewrite (rsum_single Q i) in HH; [|exact I|intros m _ N; destruct (Nat.eqb_spec i m); [congruence|reflexivity]].
      rewrite (rsum_single Q a) in HH; [|exact A|intros m _ N; destruct (Nat.eqb_spec a m); [congruence|reflexivity]].
      rewrite !Nat.eqb_refl in HH.
      apply (Rplus_eq_reg_l (W i * D i a)). rewrite HH.
      destruct (Nat.eqb_spec a i) as [->|N1]; [destruct (i =? Q - 1)%nat, (i =? 0)%nat; ring|].
      destruct (Nat.eqb_spec a (Q - 1)), (Nat.eqb_spec i (Q - 1)), (Nat.eqb_spec a 0), (Nat.eqb_spec i 0); try ring; exfalso; lia.
    - intros m M. rewrite pmul_deriv, <- !D_list, !value_list by assumption.
      destruct (i =? m)%nat, (a =? m)%nat; ring.
  Qed.

  (** corrections *)
  Variable c : R.
  Notation gR := (LocalToRightDerivative (Q - 1) c).
  Notation gL := (LocalToLeftDerivative (Q - 1) c).
  Lemma W_right : integrates xs ws (Q + 1) -> rsum Q (fun i => W i * gR (X i)) = 1.
  Proof.
    intros H. pose proof Q_ge_2 as Q2. destruct (right_list (Q - 1) c ltac:(lia)) as (p & Lp & Ep).
    rewrite (rsum_ext Q _ (fun i => W i * peval (pderiv p) (X i))) by (intros; rewrite (right_derivative_list _ _ p) by (auto; lia); reflexivity).
    unfold Q at 1. rewrite H by (rewrite Lp; lia). rewrite !Ep. destruct (right_ends (Q - 1) c ltac:(lia)) as [-> ->]. ring.
  Qed.
  Lemma left_list degree c' : (0 < degree)%nat -> exists p, length p = S (S degree) /\ forall x, peval p x = LocalToLeftValue degree c' x.
  Proof.
    clear. intros L. destruct (right_list degree c' L) as (p & Lp & Ep).
    assert (forall p : list R, exists q, length q = length p /\ forall x, peval q x = peval p (- x)) as H.
    { clear. induction p as [|a p (q & Lq & Eq)]; [exists []; auto|].
      exists (a :: pscale (-1) q). split; [cbn; rewrite pscale_length; lia|]. intros x. cbn [peval]. rewrite pscale_eval, Eq. ring. }
    destruct (H p) as (q & Lq & Eq). exists q. split; [lia|]. intros x. rewrite Eq, Ep. reflexivity.
  Qed.
  Lemma W_left : integrates xs ws (Q + 1) -> rsum Q (fun i => W i * gL (X i)) = -1.
  Proof.
    intros H. pose proof Q_ge_2 as Q2. destruct (left_list (Q - 1) c ltac:(lia)) as (p & Lp & Ep).
    rewrite (rsum_ext Q _ (fun i => W i * peval (pderiv p) (X i))).
    - unfold Q at 1. rewrite H by (rewrite Lp; lia). rewrite !Ep. unfold LocalToLeftValue.
      destruct (right_ends (Q - 1) c ltac:(lia)) as [A B]. replace (- -1) with 1 by ring. replace (- (1)) with (-1) by ring. rewrite A, B. ring.
    - intros i I. f_equal. apply pderiv_unique. apply (derivable_ext (LocalToLeftValue (Q - 1) c)); [intros; symmetry; apply Ep|].
      apply left_derivative. lia.
  Qed.
End Line.

(** ** The corrections that lump *)
Section Lumping.
  Variables xs ws : list R.
  Let Q := length xs.
  Notation X i := (nth i xs 0).
  Notation W i := (nth i ws 0).
  Hypothesis E : with_ends xs ws.
  Hypothesis X' : at_extrema xs.
  Notation c := (HuynhLumpingLobatto (Q - 1)).
  Notation gR := (LocalToRightDerivative (Q - 1) c).
  Notation gL := (LocalToLeftDerivative (Q - 1) c).

  Lemma dleg_zero i : (0 < i < Q - 1)%nat -> dleg (Q - 1) (X i) = 0.
  Proof. intros I. apply (uniqueness_limite (legendre (Q - 1)) (X i)); [apply legendre_derivative|apply X'; exact I]. Qed.
  Lemma dleg_parity n x : dleg n (- x) = - ((-1) ^ n * dleg n x).
  Proof.
    enough (- dleg n (- x) = (-1) ^ n * dleg n x) by lra.
    apply (uniqueness_limite (fun t => legendre n (- t)) x).
    - replace (- dleg n (- x)) with (dleg n (- x) * - (1)) by ring.
      apply (derivable_pt_lim_comp (fun t => - t) (legendre n)); [|apply legendre_derivative].
      apply (derivable_pt_lim_opp id), derivable_pt_lim_id.
    - apply (derivable_ext (fun t => (-1) ^ n * legendre n t)); [intros; symmetry; apply legendre_parity|].
      apply (derivable_pt_lim_scal (legendre n)), legendre_derivative.
  Qed.
  Lemma right_zero i : (i < Q - 1)%nat -> gR (X i) = 0.
  Proof.
    intros I. pose proof (Q_ge_2 xs ws E). rewrite lumping_derivative by lia. destruct i as [|i].
    - rewrite (X_first xs ws E). field.
    - rewrite dleg_zero by lia. ring.
  Qed.
  Lemma left_zero i : (0 < i < Q)%nat -> gL (X i) = 0.
  Proof.
    intros I. pose proof (Q_ge_2 xs ws E). unfold LocalToLeftDerivative. rewrite lumping_derivative by lia.
    destruct (Nat.eq_dec i (Q - 1)) as [->|N].
    - pose proof (X_last xs ws E) as XL. fold Q in XL. rewrite XL. field.
    - rewrite dleg_parity, dleg_zero by lia. ring.
  Qed.
  Lemma left_is_right : gL (-1) = - gR 1.
  Proof. unfold LocalToLeftDerivative. replace (- -1) with 1 by ring. reflexivity. Qed.
  Lemma right_weight : integrates xs ws (Q + 1) -> W (Q - 1) * gR 1 = 1 /\ W 0 * gR 1 = 1.
  Proof.
    intros H. pose proof (Q_ge_2 xs ws E) as Q2. pose proof (W_right xs ws E c H) as A. pose proof (W_left xs ws E c H) as B.
    fold Q in A, B, Q2. rewrite (rsum_single Q (Q - 1)) in A.
    - rewrite (rsum_single Q 0) in B.
      + pose proof (X_last xs ws E) as XL. fold Q in XL. rewrite XL in A.
        rewrite (X_first xs ws E), left_is_right in B. lra.
      + lia.
      + intros i I N. rewrite left_zero by lia. ring.
    - lia.
    - intros i I N. rewrite right_zero by lia. ring.
  Qed.
End Lumping.
