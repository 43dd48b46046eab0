(** Legendre polynomials and the correction functions of the Python package. *)
From Coq Require Import Reals List Lra Lia Arith.
From Coquelicot Require Import Coquelicot.
From Verif Require Import Arrays RSum Spec_Gauss Model_PyEuler Model_PyPoly Spec_PyPoly.
Import ListNotations.
Open Scope R_scope.

Notation P := eval_legendre.

Lemma P_0 x : P 0 x = 1. Proof. reflexivity. Qed.
Lemma P_1 x : P 1 x = x. Proof. unfold P. cbn. field. Qed.
Lemma prev_S n x : eval_legendre_prev (S n) x = P n x.
Proof. unfold eval_legendre_prev, P. cbn. destruct (legendre2 n x). reflexivity. Qed.
Lemma nz n : INR n + 1 <> 0. Proof. pose proof (pos_INR n). lra. Qed.
Lemma P_S n x : P (S n) x = ((2 * INR n + 1) * x * P n x - INR n * eval_legendre_prev n x) / (INR n + 1).
Proof. unfold P, eval_legendre_prev. cbn [legendre2]. destruct (legendre2 n x). reflexivity. Qed.
Lemma P_SS n x : (INR n + 2) * P (S (S n)) x = (2 * INR n + 3) * x * P (S n) x - (INR n + 1) * P n x.
Proof. rewrite (P_S (S n)), prev_S, S_INR. pose proof (pos_INR n). field. lra. Qed.

(** the derivatives *)
Definition D (n : nat) (x : R) : R := snd (Radau_loop n x).
Lemma D_0 x : D 0 x = 0. Proof. reflexivity. Qed.
Lemma D_S n x : D (S n) x = (INR n + 1) * P n x + x * D n x.
Proof. unfold D. cbn [Radau_loop]. destruct (Radau_loop n x). cbn [fst snd]. rewrite S_INR. reflexivity. Qed.
Lemma D_back n x : x * D (S n) x - D n x = (INR n + 1) * P (S n) x.
Proof.
  induction n.
  - rewrite !D_S, D_0, P_0, P_1. cbn. ring.
  - rewrite D_S at 1. rewrite S_INR. rewrite D_S in IHn.
    pose proof (P_SS n x). pose proof (D_S n x) as E.
    assert (x * x * D (S n) x - D (S n) x = (INR n + 1) * (x * P (S n) x - P n x)).
    { rewrite E at 2. rewrite <- D_S in IHn.
      replace (x * x * D (S n) x - ((INR n + 1) * P n x + x * D n x))
        with (x * (x * D (S n) x - D n x) - (INR n + 1) * P n x) by ring. rewrite IHn. ring. }
    nra.
Qed.
Lemma D_ends n x : (x * x - 1) * D (S n) x = (INR n + 1) * (x * P (S n) x - P n x).
Proof.
  replace ((x * x - 1) * D (S n) x) with (x * (x * D (S n) x - D n x) - (D (S n) x - x * D n x)) by ring.
  rewrite D_back, (D_S n x). ring.
Qed.
Lemma P_derive n : forall x, is_derive (P n) x (D n x).
Proof.
  assert (forall x, is_derive (P n) x (D n x) /\ is_derive (P (S n)) x (D (S n) x)) as H; [|intros; apply H].
  induction n; intros x.
  - split.
    + apply (is_derive_ext (fun _ => 1)); [intros; symmetry; apply P_0|]. apply @is_derive_const.
    + apply (is_derive_ext (fun t => t)); [intros; symmetry; apply P_1|].
      replace (D 1 x) with 1 by (rewrite D_S, D_0, P_0; cbn; ring). apply @is_derive_id.
  - destruct (IHn x) as [A B]. split; [exact B|].
    apply (is_derive_ext (fun t => ((2 * INR n + 3) * t * P (S n) t - (INR n + 1) * P n t) / (INR n + 2))).
    { intros t. pose proof (P_SS n t). pose proof (pos_INR n). apply Rmult_eq_reg_l with (INR n + 2); [|lra].
      rewrite H. field. lra. }
    auto_derive; [split; [exists (D (S n) x); exact B|split; [exists (D n x); exact A|auto]]|].
    replace (Derive (fun x0 : R => P n x0) x) with (D n x) by (symmetry; apply is_derive_unique, A).
    replace (Derive (fun x0 : R => P (S n) x0) x) with (D (S n) x) by (symmetry; apply is_derive_unique, B).
    rewrite (D_S (S n)), S_INR. pose proof (D_back n x). pose proof (pos_INR n).
    apply Rmult_eq_reg_r with (INR n + 2); [|lra]. field_simplify; [|lra]. nra.
Qed.
Lemma P_at_1 n : P n 1 = 1.
Proof.
  assert (P n 1 = 1 /\ P (S n) 1 = 1) as H; [|apply H]. induction n; [rewrite P_0, P_1; lra|].
  destruct IHn as [A B]. split; [exact B|]. pose proof (P_SS n 1). pose proof (pos_INR n). rewrite A, B in H.
  apply Rmult_eq_reg_l with (INR n + 2); lra.
Qed.
Lemma P_even n x : P n (- x) = (-1) ^ n * P n x.
Proof.
  assert (P n (- x) = (-1) ^ n * P n x /\ P (S n) (- x) = (-1) ^ (S n) * P (S n) x) as H; [|apply H].
  induction n; [rewrite !P_0, !P_1; cbn; lra|].
  destruct IHn as [A B]. split; [exact B|].
  pose proof (P_SS n x) as U. pose proof (P_SS n (- x)) as V. pose proof (pos_INR n). rewrite A, B in V.
  apply Rmult_eq_reg_l with (INR n + 2); [|lra]. rewrite V. cbn [pow].
  replace ((INR n + 2) * (-1 * (-1 * (-1) ^ n) * P (S (S n)) x)) with ((-1) ^ n * ((INR n + 2) * P (S (S n)) x)) by ring.
  rewrite U. ring.
Qed.
Lemma P_at_m1 n : P n (-1) = (-1) ^ n.
Proof. replace (P n (-1)) with (P n (- (1))) by (f_equal; ring). rewrite P_even, P_at_1. ring. Qed.
Lemma D_even n x : D n (- x) = - (-1) ^ n * D n x.
Proof.
  induction n; [rewrite !D_0; ring|]. rewrite !D_S, IHn, P_even. cbn [pow]. ring.
Qed.

(** integrals *)
Lemma P_continuous n x : continuous (P n) x.
Proof. apply (ex_derive_continuous (P n)). exists (D n x). apply P_derive. Qed.
Lemma is_RInt_val' (f : R -> R) (a b u v : R) : is_RInt f a b u -> u = v -> is_RInt f a b v.
Proof. intros; subst; auto. Qed.
Lemma P_mean n : (0 < n)%nat -> is_RInt (P n) (-1) 1 0.
Proof.
  intros L. destruct n; [lia|]. pose proof (pos_INR n).
  pose (F := fun x => (x * P (S n) x - P n x) / (INR n + 2)).
  apply (is_RInt_val' _ _ _ (minus (F 1) (F (-1)))).
  - apply (is_RInt_derive F (P (S n))); [|intros; apply P_continuous].
    intros x _. unfold F. pose proof (P_derive n x) as A. pose proof (P_derive (S n) x) as B.
    auto_derive; [repeat split; eexists; eassumption|].
    replace (Derive (fun x0 : R => P n x0) x) with (D n x) by (symmetry; apply is_derive_unique, A).
    replace (Derive (fun x0 : R => P (S n) x0) x) with (D (S n) x) by (symmetry; apply is_derive_unique, B).
    pose proof (D_back n x). apply Rmult_eq_reg_r with (INR n + 2); [|lra]. field_simplify; [|lra]. nra.
  - unfold minus, plus, opp, F. cbn. rewrite !P_at_1, !P_at_m1. cbn [pow]. field. lra.
Qed.
Lemma P_monomial j : forall n, (j < n)%nat -> is_RInt (fun x => P n x * x ^ j) (-1) 1 0.
Proof.
  induction j; intros n L.
  - apply (is_RInt_ext (P n)); [intros; cbn; ring|]. apply P_mean; lia.
  - destruct n; [lia|]. pose proof (pos_INR n).
    apply (is_RInt_ext (fun x => plus (scal ((INR n + 2) / (2 * INR n + 3)) (P (S (S n)) x * x ^ j))
        (scal ((INR n + 1) / (2 * INR n + 3)) (P n x * x ^ j)))).
    + intros x _. unfold plus, scal; cbn; unfold mult; cbn. pose proof (P_SS n x).
      apply Rmult_eq_reg_l with (2 * INR n + 3); [|lra].
      transitivity (((INR n + 2) * P (S (S n)) x + (INR n + 1) * P n x) * x ^ j); [field; lra|]. rewrite H0. ring.
    + apply (is_RInt_val' _ _ _ (plus (scal ((INR n + 2) / (2 * INR n + 3)) 0) (scal ((INR n + 1) / (2 * INR n + 3)) 0))).
      * apply @is_RInt_plus; apply @is_RInt_scal; apply IHj; lia.
      * unfold plus, scal; cbn; unfold mult; cbn. ring.
Qed.
Lemma int_sum (f : nat -> R -> R) (v : nat -> R) a b n : (forall i, (i < n)%nat -> is_RInt (f i) a b (v i)) ->
  is_RInt (fun x => rsum n (fun i => f i x)) a b (rsum n v).
Proof.
  induction n; intros H; cbn [rsum].
  - apply (is_RInt_val' _ _ _ (scal (b - a) 0)); [apply @is_RInt_const|]. unfold scal; cbn; unfold mult; cbn; ring.
  - apply (is_RInt_ext (fun x => plus (rsum n (fun i => f i x)) (f n x))); [reflexivity|].
    apply (is_RInt_val' _ _ _ (plus (rsum n v) (v n))); [|reflexivity].
    apply @is_RInt_plus; [apply IHn; intros; apply H; lia|apply H; lia].
Qed.
Lemma P_orthogonal n : orthogonal_below n (P n).
Proof.
  intros e c L. unfold poly1.
  apply (is_RInt_ext (fun x => rsum (S e) (fun i => scal (c i) (P n x * x ^ i)))).
  { intros x _. rewrite <- rsum_mul_l. apply rsum_ext. intros. unfold scal; cbn; unfold mult; cbn. ring. }
  apply (is_RInt_val' _ _ _ (rsum (S e) (fun i => scal (c i) 0))).
  - apply (int_sum (fun i x => scal (c i) (P n x * x ^ i))). intros i Hi. apply @is_RInt_scal. apply P_monomial. lia.
  - apply rsum_zero. intros. unfold scal; cbn; unfold mult; cbn; ring.
Qed.
Lemma orthogonal_weaken d d' f : (d' <= d)%nat -> orthogonal_below d f -> orthogonal_below d' f.
Proof. intros L H e c He. apply H. lia. Qed.
Lemma orthogonal_plus d f g : orthogonal_below d f -> orthogonal_below d g -> orthogonal_below d (fun x => f x + g x).
Proof.
  intros F G e c L. apply (is_RInt_ext (fun x => plus (f x * poly1 e c x) (g x * poly1 e c x))).
  { intros; unfold plus; cbn; ring. }
  apply (is_RInt_val' _ _ _ (plus 0 0)); [|unfold plus; cbn; ring]. apply @is_RInt_plus; [apply F|apply G]; auto.
Qed.
Lemma orthogonal_scal d k f : orthogonal_below d f -> orthogonal_below d (fun x => k * f x).
Proof.
  intros F e c L. apply (is_RInt_ext (fun x => scal k (f x * poly1 e c x))).
  { intros; unfold scal; cbn; unfold mult; cbn; ring. }
  apply (is_RInt_val' _ _ _ (scal k 0)); [|unfold scal; cbn; unfold mult; cbn; ring]. apply @is_RInt_scal. apply F; auto.
Qed.
Lemma orthogonal_ext d f g : (forall x, f x = g x) -> orthogonal_below d f -> orthogonal_below d g.
Proof. intros E F e c L. apply (is_RInt_ext (fun x => f x * poly1 e c x)); [intros; rewrite E; reflexivity|]. apply F; auto. Qed.

(** degrees *)
Lemma poly_mono d e f : (d <= e)%nat -> polynomial d f -> polynomial e f.
Proof.
  intros L [c H]. exists (fun i => if (i <=? d)%nat then c i else 0). intros x. rewrite H. unfold poly1.
  replace (S e) with (S d + (e - d))%nat by lia. rewrite rsum_app.
  rewrite (rsum_zero (e - d)); [rewrite Rplus_0_r|].
  - apply rsum_ext. intros i Hi. destruct (Nat.leb_spec i d); [reflexivity|lia].
  - intros i Hi. destruct (Nat.leb_spec (S d + i) d); [lia|ring].
Qed.
Lemma poly_plus d f g : polynomial d f -> polynomial d g -> polynomial d (fun x => f x + g x).
Proof.
  intros [c H] [c' H']. exists (fun i => c i + c' i). intros x. rewrite H, H'. unfold poly1. rewrite <- rsum_add.
  apply rsum_ext. intros. ring.
Qed.
Lemma poly_scal d k f : polynomial d f -> polynomial d (fun x => k * f x).
Proof.
  intros [c H]. exists (fun i => k * c i). intros x. rewrite H. unfold poly1. rewrite <- rsum_mul_l.
  apply rsum_ext. intros. ring.
Qed.
Lemma poly_x d f : polynomial d f -> polynomial (S d) (fun x => x * f x).
Proof.
  intros [c H]. exists (fun i => match i with O => 0 | S i => c i end). intros x. rewrite H. unfold poly1.
  rewrite (rsum_first (S d)). rewrite <- rsum_mul_l. rewrite Rmult_0_l, Rplus_0_l. apply rsum_ext. intros. cbn [pow]. ring.
Qed.
Lemma poly_const d k : polynomial d (fun _ => k).
Proof.
  apply (poly_mono 0); [lia|]. exists (fun _ => k). intros x. unfold poly1. cbn. ring.
Qed.
Lemma poly_ext d f g : (forall x, f x = g x) -> polynomial d f -> polynomial d g.
Proof. intros E [c H]. exists c. intros. rewrite <- E. apply H. Qed.
Lemma P_poly n : polynomial n (P n).
Proof.
  assert (polynomial n (P n) /\ polynomial (S n) (P (S n))) as H; [|apply H]. induction n.
  - split; [apply (poly_ext _ (fun _ => 1)); [reflexivity|apply poly_const]|]. apply (poly_ext _ (fun x => x * 1)); [intros; rewrite P_1; ring|]. apply poly_x, poly_const.
  - destruct IHn as [A B]. split; [exact B|]. pose proof (pos_INR n).
    apply (poly_ext _ (fun x => (2 * INR n + 3) / (INR n + 2) * (x * P (S n) x) + - ((INR n + 1) / (INR n + 2)) * P n x)).
    + intros x. pose proof (P_SS n x). apply Rmult_eq_reg_l with (INR n + 2); [|lra]. rewrite H0. field. lra.
    + apply poly_plus; apply poly_scal; [apply poly_x, B|]. apply (poly_mono n); [lia|exact A].
Qed.
Lemma orthogonal_poly d e f g : orthogonal_below d f -> polynomial e g -> (e < d)%nat -> is_RInt (fun x => f x * g x) (-1) 1 0.
Proof. intros O [c H] L. apply (is_RInt_ext (fun x => f x * poly1 e c x)); [intros; rewrite H; reflexivity|]. apply O, L. Qed.
Lemma P_norm n : is_RInt (fun x => P n x * P n x) (-1) 1 (2 / (2 * INR n + 1)).
Proof.
  induction n.
  - apply (is_RInt_ext (fun _ => 1)); [intros x _; rewrite P_0; change (1 = 1 * 1); ring|].
    apply (is_RInt_val' _ _ _ (scal (1 - -1) 1)); [apply @is_RInt_const|]. unfold scal; cbn; unfold mult; cbn; field.
  - pose proof (pos_INR n).
    (* P_{n+1} = ((2n+1) x P_n - n P_{n-1})/(n+1), (2n+3) x P_{n+1} = (n+2) P_{n+2} + (n+1) P_n *)
    apply (is_RInt_ext (fun x => plus (plus
       (scal ((2 * INR n + 1) * (INR n + 2) / ((INR n + 1) * (2 * INR n + 3))) (P (S (S n)) x * P n x))
       (scal ((2 * INR n + 1) / (2 * INR n + 3)) (P n x * P n x)))
       (scal (- (INR n / (INR n + 1))) (P (S n) x * eval_legendre_prev n x)))).
    + intros x _. unfold plus, scal; cbn; unfold mult; cbn. rewrite (P_S n x) at 3. pose proof (P_SS n x) as E.
      apply Rmult_eq_reg_l with ((INR n + 1) * (2 * INR n + 3)); [|apply Rmult_integral_contrapositive_currified; lra].
      transitivity ((2 * INR n + 1) * ((INR n + 2) * P (S (S n)) x + (INR n + 1) * P n x) * P n x
         - INR n * (2 * INR n + 3) * (P (S n) x * eval_legendre_prev n x)); [field; lra|]. rewrite E. field. lra.
    + apply (is_RInt_val' _ _ _ (plus (plus
         (scal ((2 * INR n + 1) * (INR n + 2) / ((INR n + 1) * (2 * INR n + 3))) 0)
         (scal ((2 * INR n + 1) / (2 * INR n + 3)) (2 / (2 * INR n + 1)))) (scal (- (INR n / (INR n + 1))) 0))).
      * apply @is_RInt_plus; [apply @is_RInt_plus|]; apply @is_RInt_scal.
        -- apply (orthogonal_poly (S (S n)) n); [apply P_orthogonal|apply P_poly|lia].
        -- exact IHn.
        -- apply (orthogonal_poly (S n) n); [apply P_orthogonal| |lia]. destruct n.
           ++ apply (poly_ext _ (fun _ => 1)); [reflexivity|apply poly_const].
           ++ apply (poly_ext _ (P n)); [intros; symmetry; apply prev_S|]. apply (poly_mono n); [lia|apply P_poly].
      * rewrite S_INR. clear IHn. generalize dependent (INR n). intros m Hm. unfold plus, scal; cbn; unfold mult; cbn.
        match goal with |- @eq _ ?a ?b => change (@eq R a b) end. field. lra.
Qed.
