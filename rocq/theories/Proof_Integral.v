(** Iterated integrals are linear and unique; the integrals of monomials over the reference elements. *)
From Coq Require Import Reals QArith Qreals List Lia Lra.
From Coquelicot Require Import Coquelicot.
From Verif Require Import RSum Spec_Gauss.
Import ListNotations.
Open Scope R_scope.

Lemma is_RInt_val (f : R -> R) (a b I I' : R) : is_RInt (V := R_NormedModule) f a b I -> I = I' -> is_RInt (V := R_NormedModule) f a b I'.
Proof. intros H <-. exact H. Qed.
Lemma is_RInt_fun (f g : R -> R) (a b I : R) : (forall x, f x = g x) -> is_RInt (V := R_NormedModule) f a b I -> is_RInt (V := R_NormedModule) g a b I.
Proof. intros E H. apply (is_RInt_ext f); auto. Qed.
Lemma is_RInt_add f g a b I J : is_RInt f a b I -> is_RInt g a b J ->
  is_RInt (V := R_NormedModule) (fun x => f x + g x) a b (I + J).
Proof. intros. apply (is_RInt_plus (V := R_NormedModule)); auto. Qed.
Lemma is_RInt_mul c f a b I : is_RInt f a b I -> is_RInt (V := R_NormedModule) (fun x => c * f x) a b (c * I).
Proof. intros. apply (is_RInt_scal (V := R_NormedModule) f a b c); auto. Qed.
Lemma is_RInt_zero a b : is_RInt (V := R_NormedModule) (fun _ => 0) a b 0.
Proof. eapply is_RInt_val; [apply (is_RInt_const (V := R_NormedModule))|]. cbv. ring. Qed.
Lemma is_RInt_eq f a b I J : is_RInt (V := R_NormedModule) f a b I -> is_RInt (V := R_NormedModule) f a b J -> I = J.
Proof. intros H K. apply (is_RInt_unique (V := R_CompleteNormedModule)) in H, K. congruence. Qed.
Lemma is_RInt_rsum n (f : nat -> R -> R) a b I : (forall i, (i < n)%nat -> is_RInt (V := R_NormedModule) (f i) a b (I i)) ->
  is_RInt (V := R_NormedModule) (fun x => rsum n (fun i => f i x)) a b (rsum n I).
Proof.
  induction n; intros H; [apply is_RInt_zero|]. cbn [rsum]. apply is_RInt_add; [apply IHn; intros; apply H; lia|apply H; lia].
Qed.

Lemma is_RInt_pow k a b : is_RInt (V := R_NormedModule) (fun x => x ^ k) a b ((b ^ S k - a ^ S k) / INR (S k)).
Proof.
  assert (INR (S k) <> 0) by (apply not_0_INR; lia).
  eapply is_RInt_val; [apply (is_RInt_derive (V := R_CompleteNormedModule) (fun x => x ^ S k / INR (S k)))|].
  - intros x _. auto_derive; auto. cbn [pred]. change (match k with O => 1 | S _ => INR k + 1 end) with (INR (S k)). field. exact H.
  - intros x _. apply (ex_derive_continuous (V := R_NormedModule)). auto_derive. auto.
  - cbv [minus plus opp]; simpl. field. exact H.
Qed.

Section Linear.
Variables (a0 b0 : R) (a b : R -> R) (a' b' : R -> R -> R).

Lemma integral2_val f I J : integral2 a0 b0 a b f I -> I = J -> integral2 a0 b0 a b f J.
Proof. intros H <-. exact H. Qed.
Lemma integral2_fun f g I : (forall x y, f x y = g x y) -> integral2 a0 b0 a b f I -> integral2 a0 b0 a b g I.
Proof.
  intros E [h [Hh HI]]. exists h. split; auto. intros x. apply (is_RInt_fun (f x)); auto.
Qed.
Lemma integral2_add f g I J : integral2 a0 b0 a b f I -> integral2 a0 b0 a b g J ->
  integral2 a0 b0 a b (fun x y => f x y + g x y) (I + J).
Proof.
  intros [h [Hh HI]] [k [Hk HJ]]. exists (fun x => h x + k x). split; [intros x; apply is_RInt_add; auto|apply is_RInt_add; auto].
Qed.
Lemma integral2_mul c f I : integral2 a0 b0 a b f I -> integral2 a0 b0 a b (fun x y => c * f x y) (c * I).
Proof.
  intros [h [Hh HI]]. exists (fun x => c * h x). split; [intros x; apply is_RInt_mul; auto|apply is_RInt_mul; auto].
Qed.
Lemma integral2_zero : integral2 a0 b0 a b (fun _ _ => 0) 0.
Proof. exists (fun _ => 0). split; [intros; apply is_RInt_zero|apply is_RInt_zero]. Qed.
Lemma integral2_rsum n f I : (forall i, (i < n)%nat -> integral2 a0 b0 a b (f i) (I i)) ->
  integral2 a0 b0 a b (fun x y => rsum n (fun i => f i x y)) (rsum n I).
Proof.
  induction n; intros H; [apply integral2_zero|]. cbn [rsum]. apply integral2_add; [apply IHn; intros; apply H; lia|apply H; lia].
Qed.
Lemma integral2_unique f I J : integral2 a0 b0 a b f I -> integral2 a0 b0 a b f J -> I = J.
Proof.
  intros [h [Hh HI]] [k [Hk HJ]]. apply (is_RInt_eq h a0 b0); auto. apply (is_RInt_fun k); auto.
  intros x. apply (is_RInt_eq (f x) (a x) (b x)); auto.
Qed.

Lemma integral3_val f I J : integral3 a0 b0 a b a' b' f I -> I = J -> integral3 a0 b0 a b a' b' f J.
Proof. intros H <-. exact H. Qed.
Lemma integral3_add f g I J : integral3 a0 b0 a b a' b' f I -> integral3 a0 b0 a b a' b' g J ->
  integral3 a0 b0 a b a' b' (fun x y z => f x y z + g x y z) (I + J).
Proof.
  intros [h [Hh HI]] [k [Hk HJ]]. exists (fun x y => h x y + k x y).
  split; [intros x y; apply is_RInt_add; auto|apply integral2_add; auto].
Qed.
Lemma integral3_mul c f I : integral3 a0 b0 a b a' b' f I -> integral3 a0 b0 a b a' b' (fun x y z => c * f x y z) (c * I).
Proof.
  intros [h [Hh HI]]. exists (fun x y => c * h x y). split; [intros x y; apply is_RInt_mul; auto|apply integral2_mul; auto].
Qed.
Lemma integral3_zero : integral3 a0 b0 a b a' b' (fun _ _ _ => 0) 0.
Proof. exists (fun _ _ => 0). split; [intros; apply is_RInt_zero|apply integral2_zero]. Qed.
Lemma integral3_rsum n f I : (forall i, (i < n)%nat -> integral3 a0 b0 a b a' b' (f i) (I i)) ->
  integral3 a0 b0 a b a' b' (fun x y z => rsum n (fun i => f i x y z)) (rsum n I).
Proof.
  induction n; intros H; [apply integral3_zero|]. cbn [rsum]. apply integral3_add; [apply IHn; intros; apply H; lia|apply H; lia].
Qed.
Lemma integral3_unique f I J : integral3 a0 b0 a b a' b' f I -> integral3 a0 b0 a b a' b' f J -> I = J.
Proof.
  intros [h [Hh HI]] [k [Hk HJ]]. apply (integral2_unique h); auto. apply (integral2_fun k); auto.
  intros x y. apply (is_RInt_eq (f x y) (a' x y) (b' x y)); auto.
Qed.
End Linear.

(** ** Monomials *)

(** over [-1, 1] *)
Definition moment (k : nat) : R := (1 ^ S k - (-1) ^ S k) / INR (S k).
Lemma moment_int k : is_RInt (V := R_NormedModule) (fun x => x ^ k) (-1) 1 (moment k).
Proof. apply is_RInt_pow. Qed.
Lemma square_monomial i j : over_square (fun x y => x ^ i * y ^ j) (moment i * moment j).
Proof.
  exists (fun x => x ^ i * moment j). split.
  - intros x. apply is_RInt_mul, moment_int.
  - apply (is_RInt_fun (fun x => moment j * x ^ i)); [intros; ring|]. eapply is_RInt_val; [apply is_RInt_mul, moment_int|ring].
Qed.
Lemma cube_monomial i j k : over_cube (fun x y z => x ^ i * y ^ j * z ^ k) (moment i * moment j * moment k).
Proof.
  exists (fun x y => x ^ i * y ^ j * moment k). split.
  - intros x y. apply is_RInt_mul, moment_int.
  - apply (integral2_fun _ _ _ _ (fun x y => moment k * (x ^ i * y ^ j))); [intros; ring|].
    eapply integral2_val; [apply integral2_mul, square_monomial|ring].
Qed.

(** over [0, 1]: the integral of [x^i (1-x)^m] *)
Definition beta (i m : nat) : R := INR (fact i) * INR (fact m) / INR (fact (i + m + 1)).
Lemma fact_R_neq n : INR (fact n) <> 0.
Proof. apply not_0_INR, fact_neq_0. Qed.
Lemma fact_R_S n : INR (fact (S n)) = INR (S n) * INR (fact n).
Proof. rewrite <- mult_INR. reflexivity. Qed.
Lemma beta_0 i : beta i 0 = / INR (S i).
Proof.
  unfold beta. replace (i + 0 + 1)%nat with (S i) by lia. rewrite fact_R_S. cbn [fact]. change (INR 1) with 1.
  field. repeat split; try apply fact_R_neq; apply not_0_INR; lia.
Qed.
Lemma beta_S i m : beta i (S m) = beta i m - beta (S i) m.
Proof.
  unfold beta. replace (i + S m + 1)%nat with (S (i + m + 1)) by lia. replace (S i + m + 1)%nat with (S (i + m + 1)) by lia.
  rewrite !fact_R_S. pose proof (fact_R_neq (i + m + 1)). assert (INR (S (i + m + 1)) <> 0) by (apply not_0_INR; lia).
  field_simplify_eq; auto. rewrite !S_INR, !plus_INR. change (INR 1) with 1. ring.
Qed.
(** scaled to [0, s] *)
Lemma beta_int s m : forall i, is_RInt (V := R_NormedModule) (fun x => x ^ i * (s - x) ^ m) 0 s (s ^ (i + m + 1) * beta i m).
Proof.
  induction m as [|m IH]; intros i.
  - apply (is_RInt_fun (fun x => x ^ i)); [intros; cbn; ring|]. eapply is_RInt_val; [apply is_RInt_pow|].
    rewrite beta_0. replace (i + 0 + 1)%nat with (S i) by lia. rewrite (pow_ne_zero (S i)) by lia. unfold Rdiv. ring.
  - apply (is_RInt_fun (fun x => s * (x ^ i * (s - x) ^ m) + -1 * (x ^ S i * (s - x) ^ m))); [intros; cbn; ring|].
    eapply is_RInt_val; [apply is_RInt_add; apply is_RInt_mul; apply IH|]. rewrite beta_S.
    replace (i + S m + 1)%nat with (S (i + m + 1)) by lia. replace (S i + m + 1)%nat with (S (i + m + 1)) by lia. cbn [pow]. ring.
Qed.
Lemma beta_int1 i m : is_RInt (V := R_NormedModule) (fun x => x ^ i * (1 - x) ^ m) 0 1 (beta i m).
Proof. eapply is_RInt_val; [apply beta_int|]. rewrite pow1. ring. Qed.

Definition tri_integral (i j : nat) : R := INR (fact i) * INR (fact j) / INR (fact (i + j + 2)).
Lemma tri_beta i j : tri_integral i j = beta i (S j) / INR (S j).
Proof.
  unfold tri_integral, beta. replace (i + S j + 1)%nat with (i + j + 2)%nat by lia. rewrite fact_R_S.
  field. repeat split; try apply fact_R_neq; apply not_0_INR; lia.
Qed.
Lemma triangle_monomial i j : over_triangle (fun x y => x ^ i * y ^ j) (tri_integral i j).
Proof.
  rewrite tri_beta. exists (fun x => x ^ i * ((1 - x) ^ S j / INR (S j))). split.
  - intros x. apply is_RInt_mul. eapply is_RInt_val; [apply is_RInt_pow|]. rewrite (pow_ne_zero (S j)) by lia. rewrite Rminus_0_r. reflexivity.
  - apply (is_RInt_fun (fun x => / INR (S j) * (x ^ i * (1 - x) ^ S j))); [intros; unfold Rdiv; ring|].
    eapply is_RInt_val; [apply is_RInt_mul, beta_int1|unfold Rdiv; ring].
Qed.
Definition tet_integral (i j k : nat) : R := INR (fact i) * INR (fact j) * INR (fact k) / INR (fact (i + j + k + 3)).
Lemma tet_beta i j k : tet_integral i j k = beta i (j + S k + 1) * (beta j (S k) / INR (S k)).
Proof.
  unfold tet_integral, beta. replace (i + (j + S k + 1) + 1)%nat with (i + j + k + 3)%nat by lia. rewrite (fact_R_S k).
  field. repeat split; try apply fact_R_neq; apply not_0_INR; lia.
Qed.
Lemma tetrahedron_monomial i j k : over_tetrahedron (fun x y z => x ^ i * y ^ j * z ^ k) (tet_integral i j k).
Proof.
  rewrite tet_beta.
  exists (fun x y => x ^ i * y ^ j * ((1 - x - y) ^ S k / INR (S k))). split; [|exists (fun x => x ^ i * ((1 - x) ^ (j + S k + 1) * beta j (S k) / INR (S k))); split].
  - intros x y. apply is_RInt_mul. eapply is_RInt_val; [apply is_RInt_pow|]. rewrite (pow_ne_zero (S k)) by lia. rewrite Rminus_0_r. reflexivity.
  - intros x. apply (is_RInt_fun (fun y => x ^ i * / INR (S k) * (y ^ j * (1 - x - y) ^ S k))); [intros; unfold Rdiv; ring|].
    eapply is_RInt_val; [apply is_RInt_mul, beta_int|unfold Rdiv; ring].
  - apply (is_RInt_fun (fun x => beta j (S k) / INR (S k) * (x ^ i * (1 - x) ^ (j + S k + 1)))); [intros; unfold Rdiv; ring|].
    eapply is_RInt_val; [apply is_RInt_mul, beta_int1|unfold Rdiv; ring].
Qed.
Lemma wedge_monomial i j k : over_wedge (fun x y z => x ^ i * y ^ j * z ^ k) (tri_integral i j * moment k).
Proof.
  exists (fun x y => x ^ i * y ^ j * moment k). split.
  - intros x y. apply is_RInt_mul, moment_int.
  - apply (integral2_fun _ _ _ _ (fun x y => moment k * (x ^ i * y ^ j))); [intros; ring|].
    eapply integral2_val; [apply integral2_mul, triangle_monomial|ring].
Qed.

(** ** Polynomials *)
Lemma poly1_int d c : is_RInt (V := R_NormedModule) (poly1 d c) (-1) 1 (rsum (S d) (fun i => c i * moment i)).
Proof. unfold poly1. apply (is_RInt_rsum (S d) (fun i x => c i * x ^ i)). intros. apply is_RInt_mul, moment_int. Qed.
Lemma poly2_int dx dy c : over_square (poly2 dx dy c) (rsum (S dx) (fun i => rsum (S dy) (fun j => c i j * (moment i * moment j)))).
Proof.
  apply (integral2_rsum _ _ _ _ (S dx) (fun i x y => rsum (S dy) (fun j => c i j * (x ^ i * y ^ j)))). intros i _.
  apply (integral2_rsum _ _ _ _ (S dy) (fun j x y => c i j * (x ^ i * y ^ j))). intros j _. apply integral2_mul, square_monomial.
Qed.
Lemma sum3_int a0 b0 a b a' b' n (m : nat -> nat) (l : nat -> nat -> nat) c M :
  (forall i j k, integral3 a0 b0 a b a' b' (fun x y z => x ^ i * y ^ j * z ^ k) (M i j k)) ->
  integral3 a0 b0 a b a' b' (fun x y z => rsum n (fun i => rsum (m i) (fun j => rsum (l i j) (fun k => c i j k * (x ^ i * y ^ j * z ^ k)))))
    (rsum n (fun i => rsum (m i) (fun j => rsum (l i j) (fun k => c i j k * M i j k)))).
Proof.
  intros H. apply (integral3_rsum _ _ _ _ _ _ n (fun i x y z => rsum (m i) (fun j => rsum (l i j) (fun k => c i j k * (x ^ i * y ^ j * z ^ k))))). intros i _.
  apply (integral3_rsum _ _ _ _ _ _ (m i) (fun j x y z => rsum (l i j) (fun k => c i j k * (x ^ i * y ^ j * z ^ k)))). intros j _.
  apply (integral3_rsum _ _ _ _ _ _ (l i j) (fun k x y z => c i j k * (x ^ i * y ^ j * z ^ k))). intros k _.
  apply integral3_mul, H.
Qed.
Lemma total2_int d c : over_triangle (total2 d c) (rsum (S d) (fun i => rsum (S (d - i)) (fun j => c i j * tri_integral i j))).
Proof.
  apply (integral2_rsum _ _ _ _ (S d) (fun i x y => rsum (S (d - i)) (fun j => c i j * (x ^ i * y ^ j)))). intros i _.
  apply (integral2_rsum _ _ _ _ (S (d - i)) (fun j x y => c i j * (x ^ i * y ^ j))). intros j _. apply integral2_mul, triangle_monomial.
Qed.
