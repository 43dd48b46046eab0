From Coq Require Import Reals Lra Lia List Arith.
From Verif Require Import Vec3 Arrays RSum Model_Dofs Model_DG Spec_DG Proof_DG Model_Temporal Model_Simulation Spec_Simulation Proof_Simulation.
Import ListNotations.
Open Scope R_scope.

Lemma for_q_value n (body : nat -> value) (m : value) k :
  for_q n (fun (m : value) q => fun k => m k + body q k) m k = m k + rsum n (fun q => body q k).
Proof.
  unfold for_q. induction n as [|n IH]; cbn [rsum]; [cbn; ring|].
  rewrite seq_S, fold_left_app. cbn [fold_left Nat.add]. rewrite IH. ring.
Qed.

Lemma fold_value {A} (f : value -> A -> value) (F : A -> nat -> R) l :
  (forall m a k, f m a k = m k + F a k) -> forall (m : value) k, fold_left f l m k = m k + lsum l (fun a => F a k).
Proof.
  intros H. induction l as [|a l IH]; intros m k; cbn [fold_left lsum]; [ring|]. rewrite IH, H. ring.
Qed.

Section L1.
  Variables K N : nat.
  Variable exact_solution : vec -> R -> value.

  Lemma l1_sum t U r p k : MeasureL1Error K N exact_solution t U r p k
    = lsum (g_local_cells p) (fun g => rsum (g_points g) (fun q =>
        g_weight g q * Rabs (value_of K N U r g (g_coord g q) k - exact_solution (g_coord g q) t k))).
  Proof.
    unfold MeasureL1Error.
    rewrite (fold_value _ (fun g k => rsum (g_points g) (fun q =>
        g_weight g q * Rabs (value_of K N U r g (g_coord g q) k - exact_solution (g_coord g q) t k)))); [ring|].
    intros m g k'. cbv zeta.
    rewrite (for_q_value (g_points g) (fun q k => Rabs (value_of K N U r g (g_coord g q) k - exact_solution (g_coord g q) t k) * g_weight g q)).
    f_equal. apply rsum_ext. intros; ring.
  Qed.
End L1.

Lemma lsum_le {A} (l : list A) f g : (forall x, In x l -> f x <= g x) -> lsum l f <= lsum l g.
Proof.
  induction l as [|a l IH]; intros H; cbn [lsum]; [lra|].
  pose proof (H a (or_introl eq_refl)). assert (lsum l f <= lsum l g) by (apply IH; intros; apply H; right; assumption). lra.
Qed.
Lemma rsum_le n f g : (forall i, (i < n)%nat -> f i <= g i) -> rsum n f <= rsum n g.
Proof.
  induction n as [|n IH]; intros H; cbn [rsum]; [lra|].
  pose proof (H n ltac:(lia)). assert (rsum n f <= rsum n g) by (apply IH; intros; apply H; lia). lra.
Qed.
Lemma rsum_abs n f : Rabs (rsum n f) <= rsum n (fun i => Rabs (f i)).
Proof.
  induction n as [|n IH]; cbn [rsum]; [rewrite Rabs_R0; lra|]. eapply Rle_trans; [apply Rabs_triang|]. lra.
Qed.
Lemma lsum_abs {A} (l : list A) f : Rabs (lsum l f) <= lsum l (fun i => Rabs (f i)).
Proof.
  induction l as [|a l IH]; cbn [lsum]; [rewrite Rabs_R0; lra|]. eapply Rle_trans; [apply Rabs_triang|]. lra.
Qed.
Lemma lsum_zero_each {A} (l : list A) f : (forall x, In x l -> 0 <= f x) -> lsum l f = 0 -> forall x, In x l -> f x = 0.
Proof.
  induction l as [|a l IH]; intros H Z x I; [destruct I|]. cbn [lsum] in Z.
  assert (0 <= lsum l f).
  { rewrite <- (lsum_zero l). apply lsum_le. intros; apply H; right; assumption. }
  pose proof (H a (or_introl eq_refl)). destruct I as [<-|I]; [lra|].
  apply IH; [intros; apply H; right; assumption|lra|exact I].
Qed.
