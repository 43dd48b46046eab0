(** Finite sums of real numbers. *)
From Coq Require Import Reals List Lra Lia Arith.
Import ListNotations.
Open Scope R_scope.

(** [f 0 + .. + f (n-1)] *)
Fixpoint rsum (n : nat) (f : nat -> R) : R := match n with O => 0 | S m => rsum m f + f m end.

Lemma rsum_ext n f g : (forall i, (i < n)%nat -> f i = g i) -> rsum n f = rsum n g.
Proof. induction n; intros H; cbn; [reflexivity|]. rewrite IHn, (H n); auto with arith. Qed.
Lemma rsum_add n f g : rsum n (fun i => f i + g i) = rsum n f + rsum n g.
Proof. induction n; cbn; [ring|]. rewrite IHn. ring. Qed.
Lemma rsum_sub n f g : rsum n (fun i => f i - g i) = rsum n f - rsum n g.
Proof. induction n; cbn; [ring|]. rewrite IHn. ring. Qed.
Lemma rsum_mul_l n c f : rsum n (fun i => c * f i) = c * rsum n f.
Proof. induction n; cbn; [ring|]. rewrite IHn. ring. Qed.
Lemma rsum_mul_r n c f : rsum n (fun i => f i * c) = rsum n f * c.
Proof. induction n; cbn; [ring|]. rewrite IHn. ring. Qed.
Lemma rsum_0 n : rsum n (fun _ => 0) = 0.
Proof. induction n; cbn; [ring|]. rewrite IHn. ring. Qed.
Lemma rsum_zero n f : (forall i, (i < n)%nat -> f i = 0) -> rsum n f = 0.
Proof. intros H. rewrite (rsum_ext n f (fun _ => 0) H). apply rsum_0. Qed.
Lemma rsum_opp n f : rsum n (fun i => - f i) = - rsum n f.
Proof. induction n; cbn; [ring|]. rewrite IHn. ring. Qed.
Lemma rsum_swap n m f : rsum n (fun i => rsum m (fun j => f i j)) = rsum m (fun j => rsum n (fun i => f i j)).
Proof. induction n; cbn; [symmetry; apply rsum_0|]. rewrite IHn, <- rsum_add. reflexivity. Qed.
Lemma rsum_single n k f : (k < n)%nat -> (forall i, (i < n)%nat -> i <> k -> f i = 0) -> rsum n f = f k.
Proof.
  induction n; intros L H; [lia|]. cbn. destruct (Nat.eq_dec k n) as [->|N].
  - rewrite rsum_zero; [ring|]. intros i Hi. apply H; lia.
  - rewrite (IHn ltac:(lia)) by (intros; apply H; lia). rewrite (H n) by lia. ring.
Qed.
Lemma rsum_first n f : rsum (S n) f = f 0%nat + rsum n (fun i => f (S i)).
Proof. induction n; [cbn; ring|]. cbn [rsum] in *. rewrite IHn. cbn. ring. Qed.
Lemma rsum_app n m f : rsum (n + m) f = rsum n f + rsum m (fun i => f (n + i)%nat).
Proof.
  induction m; [rewrite Nat.add_0_r; cbn; ring|]. rewrite Nat.add_succ_r. cbn. rewrite IHm. ring.
Qed.
Lemma rsum_nonneg n f : (forall i, (i < n)%nat -> 0 <= f i) -> 0 <= rsum n f.
Proof. induction n; intros H; cbn; [lra|]. pose proof (H n). pose proof (IHn ltac:(intros; apply H; lia)). specialize (H0 ltac:(lia)). lra. Qed.
Lemma rsum_pos n f : (0 < n)%nat -> (forall i, (i < n)%nat -> 0 < f i) -> 0 < rsum n f.
Proof.
  intros L H. destruct n; [lia|]. cbn. pose proof (H n ltac:(lia)).
  pose proof (rsum_nonneg n f ltac:(intros i Hi; left; apply H; lia)). lra.
Qed.
Lemma rsum_zero_each n f : (forall i, (i < n)%nat -> 0 <= f i) -> rsum n f = 0 -> forall i, (i < n)%nat -> f i = 0.
Proof.
  induction n; intros P E i L; [lia|]. cbn in E.
  pose proof (rsum_nonneg n f ltac:(intros; apply P; lia)). pose proof (P n ltac:(lia)).
  destruct (Nat.eq_dec i n) as [->|N]; [lra|]. apply IHn; [intros; apply P; lia|lra|lia].
Qed.
Lemma rsum_const n c : rsum n (fun _ => c) = INR n * c.
Proof. induction n; [cbn; ring|]. rewrite S_INR. cbn. rewrite IHn. ring. Qed.
(** products of sums *)
Lemma rsum_mul n m f g : rsum n f * rsum m g = rsum n (fun i => rsum m (fun j => f i * g j)).
Proof.
  rewrite <- rsum_mul_r. apply rsum_ext. intros. rewrite rsum_mul_l. reflexivity.
Qed.
