(** Lemmas about the Lagrange bases. *)
From Coq Require Import Reals List Arith Lia Lra.
From Verif Require Import RSum Poly Model_Basis Spec_Basis.
Import ListNotations.
Open Scope R_scope.

Section Line.
Variable nodes : list R.
Notation N := (length nodes).
Notation X j := (nth j nodes 0).

(** ** the values as a polynomial *)
Definition lstep (i : nat) (p : list R) (j : nat) : list R :=
  if Nat.eqb i j then p else pscale (/ (X i - X j)) (plin (X j) p).
Definition lpoly (i : nat) : list R := fold_left (lstep i) (seq 0 N) [1].

Lemma lpoly_eval_gen i x l : forall p v, peval p x = v ->
  peval (fold_left (lstep i) l p) x =
  fold_left (fun v j => if Nat.eqb i j then v else v * ((x - X j) / (X i - X j))) l v.
Proof.
  induction l as [|j l IH]; intros p v E; cbn; [exact E|]. apply IH. unfold lstep. destruct (Nat.eqb i j); [exact E|].
  rewrite pscale_eval, plin_eval, E. unfold Rdiv. ring.
Qed.
Lemma lpoly_eval i x : Line_value nodes x i = peval (lpoly i) x.
Proof. unfold Line_value, lpoly. symmetry. apply lpoly_eval_gen. cbn. ring. Qed.

Lemma lpoly_length_gen i l : forall p, NoDup l ->
  length (fold_left (lstep i) l p) = (length p + (length l - if in_dec Nat.eq_dec i l then 1 else 0))%nat.
Proof.
  induction l as [|j l IH]; intros p D; cbn [fold_left]; [cbn; lia|]. inversion D as [|? ? Dj Dl]; subst. rewrite IH by exact Dl.
  unfold lstep. destruct (Nat.eqb_spec i j) as [->|E].
  - destruct (in_dec Nat.eq_dec j (j :: l)) as [|C]; [|elim C; left; reflexivity].
    destruct (in_dec Nat.eq_dec j l); [contradiction|]. cbn. lia.
  - rewrite pscale_length, plin_length. destruct (in_dec Nat.eq_dec i l) as [I|I], (in_dec Nat.eq_dec i (j :: l)) as [I'|I']; cbn in *; try lia.
    + destruct l; [destruct I|cbn; lia].
    + intuition congruence.
    + intuition congruence.
Qed.
Lemma lpoly_length i : (i < N)%nat -> length (lpoly i) = N.
Proof.
  intros L. unfold lpoly. rewrite lpoly_length_gen by apply seq_NoDup. rewrite seq_length.
  destruct (in_dec Nat.eq_dec i (seq 0 N)) as [|C]; [cbn [length]; lia|elim C; apply in_seq; lia].
Qed.

(** ** nodal values *)
Hypothesis D : NoDup nodes.
Lemma nodes_diff i j : (i < N)%nat -> (j < N)%nat -> i <> j -> X i - X j <> 0.
Proof. intros Li Lj E H. apply E. apply (proj1 (NoDup_nth nodes 0) D); auto. lra. Qed.

Lemma fold_own i l : forall v, (i < N)%nat -> (forall j, In j l -> (j < N)%nat) ->
  fold_left (fun v j => if Nat.eqb i j then v else v * ((X i - X j) / (X i - X j))) l v = v.
Proof.
  induction l as [|j l IH]; intros v Li Lj; cbn; [reflexivity|]. rewrite IH by (intros; auto; apply Lj; right; auto).
  destruct (Nat.eqb_spec i j); [reflexivity|]. unfold Rdiv. rewrite Rinv_r; [ring|]. apply nodes_diff; auto. apply Lj. left; auto.
Qed.
Lemma fold_other i m x l : i <> m -> x = X m ->
  forall v, (In m l \/ v = 0) ->
  fold_left (fun v j => if Nat.eqb i j then v else v * ((x - X j) / (X i - X j))) l v = 0.
Proof.
  intros E ->. induction l as [|j l IH]; intros v H; cbn; [destruct H as [[]|H]; exact H|]. apply IH.
  destruct H as [[->|H]|H]; [|left; exact H|].
  - right. destruct (Nat.eqb_spec i m); [contradiction|]. unfold Rdiv, Rminus. rewrite Rplus_opp_r. ring.
  - right. rewrite H. destruct (Nat.eqb i j); ring.
Qed.
Lemma Line_nodal i m : (i < N)%nat -> (m < N)%nat -> Line_value nodes (X m) i = if Nat.eqb i m then 1 else 0.
Proof.
  intros Li Lm. unfold Line_value. destruct (Nat.eqb_spec i m) as [->|E].
  - apply fold_own; [exact Lm|]. intros j I. apply in_seq in I. lia.
  - apply (fold_other i m); auto. left. apply in_seq. lia.
Qed.

(** ** reproduction *)
Fixpoint interp (p : list R) (n : nat) : list R :=
  match n with O => [] | S n => padd (interp p n) (pscale (peval p (X n)) (lpoly n)) end.
Lemma interp_eval p n x : peval (interp p n) x = rsum n (fun i => peval p (X i) * Line_value nodes x i).
Proof. induction n; cbn; [reflexivity|]. rewrite padd_eval, pscale_eval, IHn, lpoly_eval. reflexivity. Qed.
Lemma interp_length p n : (n <= N)%nat -> (length (interp p n) <= N)%nat.
Proof. induction n; intros L; cbn; [lia|]. rewrite padd_length, pscale_length, lpoly_length by lia. specialize (IHn ltac:(lia)). lia. Qed.
Lemma Line_reproduce p x : (length p <= N)%nat ->
  peval p x = rsum N (fun i => peval p (X i) * Line_value nodes x i).
Proof.
  intros L. rewrite <- interp_eval. revert x. apply (agree_everywhere nodes); auto.
  - apply interp_length. lia.
  - intros r I. destruct (In_nth nodes r 0 I) as (m & Lm & <-). rewrite interp_eval.
    rewrite (rsum_single N m); auto.
    + rewrite Line_nodal by auto. rewrite Nat.eqb_refl. ring.
    + intros i Li E. rewrite Line_nodal by auto. destruct (Nat.eqb_spec i m); [contradiction|]. ring.
Qed.
Lemma Line_unity x : (0 < N)%nat -> rsum N (Line_value nodes x) = 1.
Proof.
  intros L. pose proof (Line_reproduce [1] x ltac:(cbn; lia)) as H. cbn [peval] in H. rewrite (rsum_ext _ (Line_value nodes x) (fun i => (1 + X i * 0) * Line_value nodes x i)); [lra|].
  intros; ring.
Qed.

(** ** the Taylor rows *)
Lemma powers_nth x n : forall v k, (k < n)%nat -> nth k (powers x v n) 0 = v * x ^ S k.
Proof.
  induction n; intros v k L; [lia|]. destruct k; cbn [powers nth]; [cbn; ring|]. rewrite IHn by lia. cbn. ring.
Qed.
Lemma powers_length x n : forall v, length (powers x v n) = n.
Proof. induction n; intros; cbn; auto. Qed.
Lemma Taylor1_values_nth P x k : (k <= P)%nat -> nth k (Taylor1_GetValues P x) 0 = x ^ k.
Proof. intros L. unfold Taylor1_GetValues. destruct k; [reflexivity|]. cbn [nth]. rewrite powers_nth by lia. ring. Qed.

(** the [k]-th derivative of the [j]-th power *)
Definition dpow (k j : nat) (x : R) : R := if Nat.ltb j k then 0 else INR (fact j) / INR (fact (j - k)) * x ^ (j - k).

Lemma deriv_loop_nth k x n : forall j v m, (k < j)%nat -> (m < n)%nat -> v = x ^ (j - 1 - k) ->
  nth m (deriv_loop k x n j (INR (fact (j - 1))) (INR (fact (j - 1 - k))) v) 0 = dpow k (j + m) x.
Proof.
  induction n; intros j v m K L E; [lia|]. cbn [deriv_loop].
  assert (INR (fact (j - 1)) * INR j = INR (fact (S j - 1))) as F1.
  { rewrite <- mult_INR. f_equal. destruct j; [lia|]. rewrite !Nat.sub_succ, !Nat.sub_0_r. cbn. lia. }
  assert (INR (fact (j - 1 - k)) * INR (j - k) = INR (fact (S j - 1 - k))) as F2.
  { rewrite <- mult_INR. f_equal. replace (S j - 1 - k)%nat with (S (j - 1 - k)) by lia. replace (j - k)%nat with (S (j - 1 - k)) by lia. cbn [fact]. lia. }
  rewrite F1, F2. destruct m; cbn [nth].
  - unfold dpow. rewrite Nat.add_0_r. destruct (Nat.ltb_spec j k); [lia|].
    replace (S j - 1)%nat with j by lia. rewrite E.
    replace (j - k)%nat with (S (j - 1 - k)) by lia. cbn [pow]. unfold Rdiv. ring.
  - rewrite IHn; try lia.
    + f_equal. lia.
    + rewrite E. replace (S j - 1 - k)%nat with (S (j - 1 - k)) by lia. cbn. ring.
Qed.
Lemma deriv_loop_length k x n : forall j a b v, length (deriv_loop k x n j a b v) = n.
Proof. induction n; intros; cbn; auto. Qed.
Lemma Taylor1_derivatives_nth P k x j : (k <= P)%nat -> (j <= P)%nat -> nth j (Taylor1_GetDerivatives P k x) 0 = dpow k j x.
Proof.
  intros K J. unfold Taylor1_GetDerivatives. destruct (Nat.lt_ge_cases j k) as [L|L].
  - rewrite app_nth1 by (rewrite repeat_length; exact L). rewrite nth_repeat. unfold dpow.
    destruct (Nat.ltb_spec j k); [reflexivity|lia].
  - rewrite app_nth2 by (rewrite repeat_length; exact L). rewrite repeat_length.
    destruct (j - k)%nat eqn:E.
    + cbn [nth]. unfold dpow. destruct (Nat.ltb_spec j k); [lia|]. assert (j = k) as -> by lia. rewrite Nat.sub_diag. cbn. field.
    + cbn [nth]. pose proof (deriv_loop_nth k x (P - k) (S k) 1 n ltac:(lia) ltac:(lia)) as H.
      replace (S k - 1)%nat with k in H by lia. rewrite Nat.sub_diag in H. cbn [fact pow] in H. change (INR 1) with 1 in H.
      rewrite H by reflexivity. f_equal. lia.
Qed.

(** ** derivatives of polynomials *)
Lemma pderiv_from_nth p : forall k j, nth j (pderiv_from k p) 0 = INR (k + j) * nth j p 0.
Proof.
  induction p as [|a p IH]; intros k j; cbn [pderiv_from]; [destruct j; cbn [nth]; ring|].
  destruct j; cbn [nth]; [rewrite Nat.add_0_r; reflexivity|]. rewrite IH. f_equal. f_equal. lia.
Qed.
Lemma pderiv_nth p j : nth j (pderiv p) 0 = INR (S j) * nth (S j) p 0.
Proof. unfold pderiv. rewrite pderiv_from_nth. destruct p; [destruct j; reflexivity|reflexivity]. Qed.
Lemma pderiv_from_length p : forall k, length (pderiv_from k p) = length p.
Proof. induction p; intros; cbn; auto. Qed.

Lemma dpow_succ k j x : dpow (S k) (S j) x = dpow k j x * INR (S j).
Proof.
  unfold dpow. change (S j <? S k)%nat with (j <? k)%nat. destruct (Nat.ltb_spec j k); [ring|].
  rewrite Nat.sub_succ. change (fact (S j)) with (S j * fact j)%nat. rewrite mult_INR. unfold Rdiv. ring.
Qed.
Lemma peval_deriv_n k : forall p x, is_deriv_n k (peval p) x (rsum (length p) (fun j => dpow k j x * nth j p 0)).
Proof.
  induction k; intros p x; cbn [is_deriv_n].
  - rewrite peval_sum. apply rsum_ext. intros j L. unfold dpow. cbn. rewrite Nat.sub_0_r.
    pose proof (INR_fact_neq_0 j). field. assumption.
  - exists (peval (pderiv p)). split; [intros; apply pderiv_correct|].
    destruct p as [|a p]; [exact (IHk [] x)|].
    cbn [length]. rewrite rsum_first. specialize (IHk (pderiv (a :: p)) x).
    replace (length (pderiv (a :: p))) with (length p) in IHk by (unfold pderiv; cbn [tl]; rewrite pderiv_from_length; reflexivity).
    replace (dpow (S k) 0 x * nth 0 (a :: p) 0 + rsum (length p) (fun i => dpow (S k) (S i) x * nth (S i) (a :: p) 0))
      with (rsum (length p) (fun j => dpow k j x * nth j (pderiv (a :: p)) 0)); [exact IHk|].
    unfold dpow at 2. cbn [Nat.ltb Nat.leb]. rewrite Rmult_0_l, Rplus_0_l. apply rsum_ext. intros j L.
    rewrite pderiv_nth, dpow_succ. ring.
Qed.
Lemma is_deriv_n_ext k : forall f g x d, (forall t, f t = g t) -> is_deriv_n k f x d -> is_deriv_n k g x d.
Proof.
  destruct k; intros f g x d E H; cbn in *; [rewrite <- E; exact H|].
  destruct H as (h & Hh & H). exists h. split; [|exact H]. intros t eps He. destruct (Hh t eps He) as (delta & Hd).
  exists delta. intros s. rewrite <- !E. apply Hd.
Qed.

(** ** the derivatives *)
Variable M : nat -> nat -> R.
Hypothesis MI : forall i j, (i < N)%nat -> (j < N)%nat ->
  rsum N (fun k => taylor_to_lagrange nodes i k * M k j) = if Nat.eqb i j then 1 else 0.

Definition mcol (i : nat) : list R := map (fun k => M k i) (seq 0 N).
Lemma mcol_nth i k : (k < N)%nat -> nth k (mcol i) 0 = M k i.
Proof.
  intros L. unfold mcol. rewrite (nth_indep _ 0 (M 0%nat i)) by (rewrite map_length, seq_length; exact L).
  rewrite (map_nth (fun k => M k i)), seq_nth by exact L. reflexivity.
Qed.
Lemma mcol_lpoly i : (i < N)%nat -> mcol i = lpoly i.
Proof.
  intros L. apply (agree_coefficients nodes); auto.
  - unfold mcol. rewrite map_length, seq_length. reflexivity.
  - apply lpoly_length, L.
  - intros r I. destruct (In_nth nodes r 0 I) as (m & Lm & <-). rewrite <- lpoly_eval, Line_nodal by auto.
    rewrite Nat.eqb_sym, <- (MI m i Lm L), peval_sum. unfold mcol at 1. rewrite map_length, seq_length.
    apply rsum_ext. intros k Lk. rewrite mcol_nth by exact Lk. unfold taylor_to_lagrange. rewrite Taylor1_values_nth by lia. ring.
Qed.
Lemma Line_derivatives k x i : (k < N)%nat -> (i < N)%nat ->
  is_deriv_n k (fun t => Line_value nodes t i) x (nth i (Line_GetDerivatives nodes M k x) 0).
Proof.
  intros K L. apply (is_deriv_n_ext _ (peval (mcol i))).
  { intros t. rewrite lpoly_eval, mcol_lpoly by exact L. reflexivity. }
  pose proof (peval_deriv_n k (mcol i) x) as H. unfold mcol in H at 2. rewrite map_length, seq_length in H.
  replace (nth i (Line_GetDerivatives nodes M k x) 0) with (rsum N (fun j => dpow k j x * nth j (mcol i) 0)); [exact H|].
  unfold Line_GetDerivatives.
  set (F := fun i => rsum N (fun j => nth j (Taylor1_GetDerivatives (N - 1) k x) 0 * M j i)).
  rewrite (nth_indep _ 0 (F 0%nat)) by (rewrite map_length, seq_length; exact L).
  rewrite (map_nth F), seq_nth by exact L. unfold F. apply rsum_ext. intros j Lj.
  rewrite mcol_nth by exact Lj. rewrite Taylor1_derivatives_nth by lia. reflexivity.
Qed.
End Line.

(** the inverse of line 76 exists *)
Lemma inverse_exists nodes : NoDup nodes -> exists M, forall i j, (i < length nodes)%nat -> (j < length nodes)%nat ->
  rsum (length nodes) (fun k => taylor_to_lagrange nodes i k * M k j) = if Nat.eqb i j then 1 else 0.
Proof.
  intros D. exists (fun k i => nth k (lpoly nodes i) 0). intros i j Li Lj.
  rewrite Nat.eqb_sym, <- (Line_nodal nodes D j i Lj Li), lpoly_eval, peval_sum, lpoly_length by exact Lj.
  apply rsum_ext. intros k Lk. unfold taylor_to_lagrange. rewrite Taylor1_values_nth by lia. ring.
Qed.

Lemma Line_GetValues_nth nodes x i : (i < length nodes)%nat -> nth i (Line_GetValues nodes x) 0 = Line_value nodes x i.
Proof.
  intros L. unfold Line_GetValues. rewrite (nth_indep _ 0 (Line_value nodes x 0)) by (rewrite map_length, seq_length; exact L).
  rewrite map_nth, seq_nth by exact L. reflexivity.
Qed.
Lemma Line_GetValues_length nodes x : length (Line_GetValues nodes x) = length nodes.
Proof. unfold Line_GetValues. rewrite map_length, seq_length. reflexivity. Qed.

(** ** hexahedra *)
Lemma flat_map_length_const {A} (f : A -> list R) n l : (forall a, length (f a) = n) -> length (flat_map f l) = (length l * n)%nat.
Proof. intros H. induction l; cbn; [reflexivity|]. rewrite app_length, H, IHl. lia. Qed.
Lemma flat_map_nth {A} (f : A -> list R) n (d : A) l : (forall a, length (f a) = n) ->
  forall i k, (i < length l)%nat -> (k < n)%nat -> nth (i * n + k) (flat_map f l) 0 = nth k (f (nth i l d)) 0.
Proof.
  intros H. induction l as [|a l IH]; intros i k Li Lk; cbn in Li; [lia|]. cbn [flat_map]. destruct i; cbn [nth].
  - rewrite app_nth1 by (rewrite H; lia). reflexivity.
  - rewrite app_nth2 by (rewrite H; cbn; lia). rewrite H. replace (S i * n + k - n)%nat with (i * n + k)%nat by (cbn; lia).
    apply IH; lia.
Qed.
Lemma Hexa_products_nth vx vy vz i j k : (i < length vx)%nat -> (j < length vy)%nat -> (k < length vz)%nat ->
  nth (Hexa_index (length vy) (length vz) i j k) (Hexa_products vx vy vz) 0 = nth i vx 0 * nth j vy 0 * nth k vz 0.
Proof.
  intros Li Lj Lk. unfold Hexa_index, Hexa_products.
  replace (i * length vy * length vz + j * length vz + k)%nat with (i * (length vy * length vz) + (j * length vz + k))%nat by ring.
  rewrite (flat_map_nth _ (length vy * length vz) 0); [|intros; apply flat_map_length_const; intros; apply map_length|exact Li|nia].
  rewrite (flat_map_nth _ (length vz) 0); [|intros; apply map_length|exact Lj|exact Lk]. cbv zeta.
  set (g := fun z => nth i vx 0 * nth j vy 0 * z).
  rewrite (nth_indep _ 0 (g 0)) by (rewrite map_length; exact Lk). rewrite (map_nth g). reflexivity.
Qed.
Lemma Hexa_products_length vx vy vz : length (Hexa_products vx vy vz) = (length vx * length vy * length vz)%nat.
Proof.
  unfold Hexa_products. rewrite (flat_map_length_const _ (length vy * length vz)); [lia|].
  intros; apply flat_map_length_const; intros; apply map_length.
Qed.
Lemma Hexa_index_range I J K i j k : (i < I)%nat -> (j < J)%nat -> (k < K)%nat -> (Hexa_index J K i j k < I * J * K)%nat.
Proof. unfold Hexa_index. intros. assert (i * J * K + j * K + k < i * J * K + J * K)%nat by nia. nia. Qed.
Lemma Hexa_inv_index I J K i j k : (i < I)%nat -> (j < J)%nat -> (k < K)%nat -> Hexa_index_inv J K (Hexa_index J K i j k) = (i, j, k).
Proof.
  intros Li Lj Lk. unfold Hexa_index_inv, Hexa_index.
  replace (i * J * K + j * K + k)%nat with (k + (i * J + j) * K)%nat by ring.
  rewrite Nat.mod_add, Nat.div_add by lia. rewrite (Nat.mod_small k K Lk), (Nat.div_small k K Lk). cbn [plus].
  replace (i * J + j)%nat with (j + i * J)%nat by ring. rewrite Nat.mod_add, Nat.div_add by lia.
  rewrite (Nat.mod_small j J Lj), (Nat.div_small j J Lj). reflexivity.
Qed.
Lemma Hexa_index_inv_range I J K n : (n < I * J * K)%nat ->
  let '(i, j, k) := Hexa_index_inv J K n in (i < I)%nat /\ (j < J)%nat /\ (k < K)%nat /\ Hexa_index J K i j k = n.
Proof.
  intros L. unfold Hexa_index_inv, Hexa_index.
  assert (K <> 0)%nat as K0 by nia. assert (J <> 0)%nat as J0 by nia.
  pose proof (Nat.div_mod n K K0). pose proof (Nat.div_mod (n / K) J J0).
  pose proof (Nat.mod_upper_bound n K K0). pose proof (Nat.mod_upper_bound (n / K) J J0).
  repeat split; auto; [|nia].
  apply Nat.div_lt_upper_bound; [exact J0|]. apply Nat.div_lt_upper_bound; [exact K0|]. nia.
Qed.
