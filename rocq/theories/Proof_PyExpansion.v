(** Taylor and Legendre expansions of the Python package. *)
From Coq Require Import Reals List Arith Bool Lra Lia.
From Coquelicot Require Import Coquelicot.
From Verif Require Import Arrays RSum Spec_Gauss Proof_Gauss Model_PyEuler Model_PyPoly Spec_PyPoly Proof_PyPoly Proof_PyCorrect.
From Verif Require Import Model_PyIntegrator Proof_PyIntegrator Model_PyExpansion Spec_PyExpansion.
Import ListNotations.
Open Scope R_scope.

(** ** Taylor *)
Lemma factorial_is k : factorial k = INR (fact k).
Proof. induction k; cbn [factorial]; [reflexivity|]. rewrite IHk, fact_simpl, mult_INR. ring. Qed.
Lemma x_power_is y k : x_power y k = y ^ k.
Proof. induction k; cbn [x_power pow]; [reflexivity|]. rewrite IHk. ring. Qed.
Lemma derivatives_0 c x l : taylor_derivatives c x 0 l = taylor_values c x l. Proof. reflexivity. Qed.
Lemma derivatives_is c x k l : taylor_derivatives c x k l =
  if (l <? k)%nat then 0 else INR (fact l) / INR (fact (l - k)) * (x - c) ^ (l - k).
Proof.
  destruct k; cbn [taylor_derivatives].
  - unfold taylor_values. rewrite x_power_is, Nat.sub_0_r. cbn. pose proof (INR_fact_neq_0 l). field. assumption.
  - rewrite !factorial_is. destruct (l <? S k)%nat; ring.
Qed.
Lemma derivatives_1 c x l : taylor_derivatives c x 1 l = taylor_gradients c x l.
Proof.
  rewrite derivatives_is. destruct l; [reflexivity|]. cbn [Nat.ltb Nat.leb taylor_gradients]. rewrite x_power_is.
  replace (S l - 1)%nat with l by lia. rewrite fact_simpl, mult_INR. pose proof (INR_fact_neq_0 l). field. assumption.
Qed.
Lemma derivatives_2 c x l : taylor_derivatives c x 2 l = taylor_hessians c x l.
Proof.
  rewrite derivatives_is. destruct l as [|[|l]]; try reflexivity. cbn [Nat.ltb Nat.leb taylor_hessians]. rewrite x_power_is.
  replace (S (S l) - 2)%nat with l by lia. rewrite !fact_simpl, !mult_INR. pose proof (INR_fact_neq_0 l). field. assumption.
Qed.
Lemma taylor_derive c l k x : is_derive (fun x => taylor_derivatives c x k l) x (taylor_derivatives c x (S k) l).
Proof.
  apply (is_derive_ext (fun x => if (l <? k)%nat then 0 else INR (fact l) / INR (fact (l - k)) * (x - c) ^ (l - k))).
  { intros. rewrite derivatives_is. reflexivity. }
  rewrite derivatives_is. destruct (Nat.ltb_spec l k) as [A|A]; destruct (Nat.ltb_spec l (S k)) as [B|B]; try lia.
  - apply @is_derive_const.
  - replace (l - k)%nat with O by lia. cbn [pow]. apply (is_derive_ext (fun _ => INR (fact l) / INR (fact 0) * 1)); [reflexivity|]. apply @is_derive_const.
  - replace (l - k)%nat with (S (l - S k)) by lia. set (m := (l - S k)%nat). rewrite fact_simpl, mult_INR.
    pose proof (INR_fact_neq_0 m). pose proof (pos_INR m).
    replace (INR (fact l) / INR (fact m) * (x - c) ^ m) with (INR (fact l) / (INR (S m) * INR (fact m)) * (INR (S m) * 1 * (x - c) ^ m))
      by (rewrite S_INR; field; lra).
    apply @is_derive_scal. apply (is_derive_pow (fun x => x - c) (S m) x 1).
    apply (is_derive_ext (fun x => minus x c)); [reflexivity|].
    replace 1 with (minus 1 0) by (unfold minus, plus, opp; cbn; ring).
    apply @is_derive_minus; [apply @is_derive_id|apply @is_derive_const].
Qed.
Lemma sum_derive (f f' : nat -> R -> R) m y : (forall i, (i < m)%nat -> is_derive (f i) y (f' i y)) ->
  is_derive (fun t => rsum m (fun i => f i t)) y (rsum m (fun i => f' i y)).
Proof.
  induction m; intros H; cbn [rsum]; [apply @is_derive_const|].
  apply (is_derive_plus (fun t => rsum m (fun i => f i t)) (f m)); [apply IHm; intros; apply H; lia|apply H; lia].
Qed.
(** sums of basis functions *)
Definition tsum (n : nat) (c : R) (a : nat -> R) (k : nat) (x : R) : R := rsum n (fun l => a l * taylor_derivatives c x k l).
Lemma tsum_derive n c a k x : is_derive (tsum n c a k) x (tsum n c a (S k) x).
Proof.
  unfold tsum. apply (sum_derive (fun l x => a l * taylor_derivatives c x k l) (fun l x => a l * taylor_derivatives c x (S k) l)).
  intros l _. apply @is_derive_scal. apply taylor_derive.
Qed.
Lemma tsum_high n c a k x : (n <= k)%nat -> tsum n c a k x = 0.
Proof.
  intros H. unfold tsum. apply rsum_zero. intros l Hl. rewrite derivatives_is. destruct (Nat.ltb_spec l k); [ring|lia].
Qed.
Lemma value_tsum n c a x : global_to_value n c a x = tsum n c a 0 x. Proof. reflexivity. Qed.
Lemma gradient_tsum n c a x : global_to_gradient n c a x = tsum n c a 1 x.
Proof. unfold global_to_gradient, dot, tsum. apply rsum_ext. intros. rewrite derivatives_1. reflexivity. Qed.
Lemma fold_rsum (f : nat -> R) m : forall k s, fold_left (fun value l => value + f l) (seq k m) s = s + rsum m (fun i => f (k + i)%nat).
Proof.
  induction m as [|m IH]; intros k s; cbn [seq fold_left].
  - cbn. ring.
  - rewrite IH, rsum_first. rewrite Nat.add_0_r.
    rewrite (rsum_ext m (fun i => f (S k + i)%nat) (fun i => f (k + S i)%nat)) by (intros; f_equal; lia). ring.
Qed.
Lemma derivatives_tsum n c a x k : global_to_derivatives n c a x k = if (k =? 0)%nat || (k <? n)%nat then Some (tsum n c a k x) else None.
Proof.
  destruct k; [reflexivity|]. cbn [Nat.eqb orb]. unfold global_to_derivatives. destruct (Nat.ltb_spec (S k) n) as [H|H]; [|reflexivity].
  f_equal. rewrite (fold_rsum (fun l => taylor_derivatives c x (S k) l * a l)). unfold tsum.
  replace (rsum n (fun l => a l * taylor_derivatives c x (S k) l))
    with (rsum (S k + S (n - (S k + 1))) (fun l => a l * taylor_derivatives c x (S k) l)) by (f_equal; lia).
  rewrite rsum_app, (rsum_zero (S k)).
  - rewrite Rplus_0_l, rsum_first. replace (S k + 0)%nat with (S k) by lia. rewrite Rmult_comm. f_equal. apply rsum_ext. intros i _.
    replace (S k + S i)%nat with (S k + 1 + i)%nat by lia. ring.
  - intros l Hl. rewrite derivatives_is. destruct (Nat.ltb_spec l (S k)); [ring|lia].
Qed.
Lemma taylor_object n c a : exists d, derivatives_of (global_to_value n c a) d /\
  (forall x, global_to_gradient n c a x = d 1%nat x) /\
  (forall k x, (k < n)%nat -> global_to_derivatives n c a x k = Some (d k x)) /\
  (forall k x, (n <= k)%nat -> d k x = 0 /\ ((0 < k)%nat -> global_to_derivatives n c a x k = None)).
Proof.
  exists (tsum n c a). split; [split; [reflexivity|apply tsum_derive]|]. split; [apply gradient_tsum|]. split.
  - intros k x H. rewrite derivatives_tsum. destruct (Nat.ltb_spec k n); [|lia]. rewrite orb_true_r. reflexivity.
  - intros k x H. split; [apply tsum_high, H|]. intros K. rewrite derivatives_tsum. destruct (Nat.ltb_spec k n); [lia|].
    destruct (Nat.eqb_spec k 0); [lia|reflexivity].
Qed.

(** ** The matrix *)
Definition good (a : nat -> nat -> R) (j : nat) : Prop :=
  (forall i, (j < i)%nat -> a i j = 0) /\ forall y, rsum (S j) (fun i => a i j * y ^ i) = P j y.
Lemma good_longer a j n y : good a j -> (j < n)%nat -> rsum n (fun i => a i j * y ^ i) = P j y.
Proof.
  intros [Z G] L. rewrite <- G. replace n with (S j + (n - S j))%nat by lia. rewrite rsum_app. rewrite (rsum_zero (n - S j)); [ring|].
  intros i _. rewrite Z by lia. ring.
Qed.
Lemma good_eye j : (j < 2)%nat -> good eye j.
Proof.
  intros H. split.
  - intros i Hi. unfold eye. destruct (Nat.eqb_spec i j); [lia|reflexivity].
  - intros y. assert (j = 0 \/ j = 1)%nat as [-> | ->] by lia; [rewrite P_0|rewrite P_1]; cbn [rsum pow]; unfold eye; cbn [Nat.eqb]; ring.
Qed.
Lemma round_other a k j : j <> k -> forall i, legendre_round a k i j = a i j.
Proof. intros H i. unfold legendre_round. destruct (Nat.eqb_spec j k); [congruence|]. reflexivity. Qed.
Lemma round_good a k : good a k -> good a (S k) -> (forall i, a i (S (S k)) = eye i (S (S k))) -> good (legendre_round a (S (S k))) (S (S k)).
Proof.
  intros [Z0 G0] [Z1 G1] E. set (r := legendre_round a (S (S k))). pose proof (pos_INR k) as K.
  set (p := (2 * INR k + 3) / (INR k + 2)). set (q := (INR k + 1) / (INR k + 2)).
  assert (V : forall i, r i (S (S k)) = (match i with O => 0 | S i => if (i <=? S k)%nat then p * a i (S k) else 0 end) - (if (i <=? k)%nat then q * a i k else 0)).
  { intros i. unfold r, legendre_round. rewrite Nat.eqb_refl. cbn [andb].
    replace ((2 * INR (S (S k)) - 1) / INR (S (S k))) with p by (unfold p; rewrite !S_INR; f_equal; lra).
    replace ((INR (S (S k)) - 1) / INR (S (S k))) with q by (unfold q; rewrite !S_INR; f_equal; lra).
    replace (S (S k) - 1)%nat with (S k) by lia. replace (S (S k) - 2)%nat with k by lia.
    destruct (Nat.eqb_spec k (S (S k))); [lia|]. cbn [andb].
    destruct i as [|i].
    - cbn [Nat.leb]. destruct (Nat.ltb_spec 0 (S k)); [|lia]. rewrite E. unfold eye. cbn. reflexivity.
    - replace (S i - 1)%nat with i by lia.
      destruct (Nat.leb_spec 1 (S i)); [|lia]. destruct (Nat.leb_spec (S i) (S (S k))); destruct (Nat.ltb_spec (S i) (S k));
        destruct (Nat.leb_spec i (S k)); destruct (Nat.leb_spec (S i) k); try lia; cbn [andb]; try ring.
      rewrite E. unfold eye. destruct (Nat.eqb_spec (S i) (S (S k))); [lia|ring]. }
  split.
  - intros i Hi. rewrite V. destruct i as [|i]; [lia|]. destruct (Nat.leb_spec i (S k)); [lia|]. destruct (Nat.leb_spec (S i) k); [lia|ring].
  - intros y.
    transitivity (p * (y * P (S k) y) - q * P k y).
    + rewrite (rsum_ext _ (fun i => r i (S (S k)) * y ^ i)
        (fun i => (match i with O => 0 | S i => p * (y * ((if (i <=? S k)%nat then a i (S k) else 0) * y ^ i)) end) - q * ((if (i <=? k)%nat then a i k else 0) * y ^ i))).
      2: { intros i _. rewrite V. destruct i as [|i].
           - cbn [Nat.leb]. ring.
           - cbn [pow]. destruct (i <=? S k)%nat; destruct (S i <=? k)%nat; ring. }
      rewrite rsum_sub. f_equal.
      * rewrite rsum_first, Rplus_0_l, rsum_mul_l, rsum_mul_l. rewrite <- G1. f_equal. f_equal. apply rsum_ext. intros i Hi.
        destruct (Nat.leb_spec i (S k)); [reflexivity|lia].
      * rewrite rsum_mul_l. f_equal. replace (S (S (S k))) with (S k + 2)%nat by lia. rewrite rsum_app, (rsum_zero 2).
        -- rewrite Rplus_0_r, <- G0. apply rsum_ext. intros i Hi. destruct (Nat.leb_spec i k); [reflexivity|lia].
        -- intros i Hi. destruct (Nat.leb_spec (S k + i) k); [lia|ring].
    + pose proof (P_SS k y) as R. unfold p, q. apply Rmult_eq_reg_l with (INR k + 2); [|lra]. rewrite R. field. lra.
Qed.
Lemma matrix_good m : forall j, ((j < m + 2)%nat -> good (fold_left legendre_round (seq 2 m) eye) j) /\
  ((m + 2 <= j)%nat -> forall i, fold_left legendre_round (seq 2 m) eye i j = eye i j).
Proof.
  induction m as [|m IH]; intros j.
  - cbn [seq fold_left]. split; intros H; [apply good_eye; lia|reflexivity].
  - rewrite seq_S, fold_left_app. cbn [fold_left]. set (a := fold_left legendre_round (seq 2 m) eye) in *. split.
    + intros H. destruct (Nat.eq_dec j (2 + m)) as [->|N].
      * apply (round_good a m); [apply IH; lia|apply IH; lia|]. intros i. apply (proj2 (IH (2 + m)%nat)). lia.
      * destruct (proj1 (IH j) ltac:(lia)) as [Z G]. split; [intros i Hi; rewrite round_other by lia; auto|].
        intros y. rewrite <- G. apply rsum_ext. intros i _. rewrite round_other by lia. reflexivity.
    + intros H i. rewrite round_other by lia. apply (proj2 (IH j)). lia.
Qed.
Lemma legendre_good n j : (j < n)%nat -> good (legendre_matrix n) j.
Proof. intros H. unfold legendre_matrix. apply (proj1 (matrix_good (n - 2) j)). lia. Qed.
Lemma to_taylor_is n J c x k : J <> 0 -> (k < n)%nat ->
  rsum n (fun i => taylor_values c x i * legendre_to_taylor n J i k) = P k ((x - c) / J).
Proof.
  intros N H. rewrite <- (good_longer (legendre_matrix n) k n) by (apply legendre_good || idtac; exact H).
  apply rsum_ext. intros i _. unfold taylor_values, legendre_to_taylor. rewrite x_power_is.
  replace (((x - c) / J) ^ i) with ((x - c) ^ i / J ^ i) by (unfold Rdiv; rewrite Rpow_mult_distr, pow_inv; reflexivity).
  pose proof (pow_nonzero J i N). destruct i; cbn [Nat.leb].
  - cbn [pow]. field.
  - field. assumption.
Qed.

(** ** Legendre objects *)
Lemma tsum_matrix n c a (A : nat -> nat -> R) k x : tsum n c (mat_dot n A a) k x = rsum n (fun j => a j * row_dot n (taylor_derivatives c x k) A j).
Proof.
  unfold tsum, mat_dot, row_dot.
  rewrite (rsum_ext n (fun l => rsum n (fun j => A l j * a j) * taylor_derivatives c x k l)
    (fun l => rsum n (fun j => a j * (taylor_derivatives c x k l * A l j)))).
  - rewrite rsum_swap. apply rsum_ext. intros j _. rewrite <- rsum_mul_l. reflexivity.
  - intros l _. rewrite <- rsum_mul_r. apply rsum_ext. intros. ring.
Qed.
Lemma row_derive n c (A : nat -> nat -> R) j k x : is_derive (fun x => row_dot n (taylor_derivatives c x k) A j) x (row_dot n (taylor_derivatives c x (S k)) A j).
Proof.
  unfold row_dot. apply (sum_derive (fun l x => taylor_derivatives c x k l * A l j) (fun l x => taylor_derivatives c x (S k) l * A l j)).
  intros l _. apply (is_derive_ext (fun x => A l j * taylor_derivatives c x k l)).
  - intros t. match goal with |- @eq _ ?a ?b => change (@eq R a b) end. ring.
  - rewrite Rmult_comm. apply @is_derive_scal. apply taylor_derive.
Qed.

Section Object.
  Variables (roots : nat -> list R * list R) (inv : nat -> (nat -> nat -> R) -> option (nat -> nat -> R)).
  Variables (degree : nat) (c : Coordinate).
  Hypothesis (X : x_left c <> x_right c).
  Let n := (degree + 1)%nat.
  Let J := (x_right c - x_left c) / 2.
  Let m := (x_left c + x_right c) / 2.
  Lemma J_nz : J <> 0. Proof. unfold J. lra. Qed.
  (** the parts that do not change *)
  Definition frame (e : Legendre) : Prop :=
    l_n e = n /\ i_coordinate (l_integrator e) = c /\
    Integrator_init c (fst (roots n)) (snd (roots n)) = Some (l_integrator e) /\ inv n (legendre_to_taylor n J) = Some (l_inverse e).
  Lemma init_frame e : Legendre_init roots inv degree c = Some e -> frame e.
  Proof.
    unfold Legendre_init. destruct (degree <? 100)%nat; [|discriminate]. destruct (jacobian_degree c =? 0)%nat; [|discriminate].
    cbn [negb]. fold n. destruct (Integrator_init c _ _) as [i|] eqn:I; [|discriminate]. cbn [bind]. rewrite jacobian_is. fold J.
    destruct (inv n (legendre_to_taylor n J)) as [v|] eqn:V; [|discriminate]. cbn [bind]. intros E. injection E as <-.
    repeat split; cbn; auto. unfold Integrator_init in I. destruct (fst (roots n)); [discriminate|]. injection I as <-. reflexivity.
  Qed.
  Lemma frame_parts e : frame e -> l_coordinate e = c /\ l_center e = m /\ l_jacobian e = J /\ l_matrix e = legendre_to_taylor n J.
  Proof.
    intros (N & C & _). unfold l_matrix, l_jacobian, l_center, l_coordinate. rewrite C, N, jacobian_is, center_is. auto.
  Qed.
  Definition xi (x : R) : R := (x - m) / J.
  Lemma local_is x : global_to_local c x = Some (xi x).
  Proof. apply inverse_is, X. Qed.
  Lemma values_are e x : frame e -> l_basis_values e x = Some (fun k => P k (xi x)).
  Proof. intros F. destruct (frame_parts e F) as (C & _). unfold l_basis_values. rewrite C, local_is. reflexivity. Qed.
  Lemma basis_row e k x : frame e -> (k < n)%nat -> l_basis_derivatives e x 0 k = P k (xi x).
  Proof.
    intros F K. destruct (frame_parts e F) as (_ & M & _ & A). destruct F as (N & _). unfold l_basis_derivatives, row_dot. rewrite M, A, N.
    apply (to_taylor_is n J m x k J_nz K).
  Qed.
  Lemma basis_derive e j k x : is_derive (fun x => l_basis_derivatives e x k j) x (l_basis_derivatives e x (S k) j).
  Proof. unfold l_basis_derivatives. apply row_derive. Qed.
  Lemma basis_first e j x : l_basis_gradients e x j = l_basis_derivatives e x 1 j.
  Proof. unfold l_basis_gradients, l_basis_derivatives, row_dot. apply rsum_ext. intros. rewrite derivatives_1. reflexivity. Qed.
  Lemma basis_second e j x : l_basis_hessians e x j = l_basis_derivatives e x 2 j.
  Proof. unfold l_basis_hessians, l_basis_derivatives, row_dot. apply rsum_ext. intros. rewrite derivatives_2. reflexivity. Qed.
  Lemma to_element f (I : R) : is_RInt f (-1) 1 I -> is_RInt (fun x => f (xi x)) (x_left c) (x_right c) (J * I).
  Proof.
    intros H. apply (change_variable c (fun x => f (xi x))); [|exact X].
    apply (is_RInt_ext f); [|exact H]. intros y _. unfold xi. rewrite map_is. fold m J. f_equal. pose proof J_nz. field. assumption.
  Qed.
  Lemma P_pair j k : is_RInt (fun y => P j y * P k y) (-1) 1 (if (j =? k)%nat then 2 / (2 * INR k + 1) else 0).
  Proof.
    destruct (Nat.eqb_spec j k) as [->|N]; [apply P_norm|].
    destruct (Nat.lt_ge_cases k j) as [L|L]; [apply (orthogonal_poly j k); [apply P_orthogonal|apply P_poly|exact L]|].
    apply (is_RInt_ext (fun y => P k y * P j y)); [intros y _; match goal with |- @eq _ ?a ?b => change (@eq R a b) end; ring|].
    apply (orthogonal_poly k j); [apply P_orthogonal|apply P_poly|lia].
  Qed.
  Lemma basis_orthogonal e j k : frame e ->
    is_RInt (fun x => P j (xi x) * P k (xi x)) (x_left c) (x_right c) (if (j =? k)%nat then l_weight e k else 0).
  Proof.
    intros F. destruct (frame_parts e F) as (_ & _ & JJ & _).
    apply (is_RInt_val' _ _ _ (J * (if (j =? k)%nat then 2 / (2 * INR k + 1) else 0))).
    - apply (to_element (fun y => P j y * P k y)), P_pair.
    - unfold l_weight, mode_weight. rewrite JJ. destruct (j =? k)%nat; [unfold Rdiv; ring|ring].
  Qed.

  (** what is represented *)
  Definition represents (e : Legendre) : Prop := forall k x, tsum n m (l_taylor e) k x = rsum n (fun j => l_modes e j * l_basis_derivatives e x k j).
  Lemma set_represents e : frame e -> represents (l_set_taylor e).
  Proof.
    intros F k x. destruct (frame_parts e F) as (_ & M & _ & A). destruct F as (N & _). unfold l_set_taylor. cbn [l_taylor l_modes].
    rewrite N, tsum_matrix. apply rsum_ext. intros j _. unfold l_basis_derivatives, l_set_taylor, l_center, l_matrix, l_jacobian, l_coordinate. cbn [l_n l_integrator].
    fold (l_coordinate e). unfold l_coordinate. fold (l_center e). rewrite N.
    change (x_center (i_coordinate (l_integrator e))) with (l_center e). rewrite M. unfold l_matrix in A. rewrite N in A.
    unfold l_jacobian, l_coordinate in A. rewrite A. reflexivity.
  Qed.
  Lemma value_modes e x : frame e -> represents e -> l_value e x = rsum n (fun j => l_modes e j * P j (xi x)).
  Proof.
    intros F Rp. unfold l_value. destruct (frame_parts e F) as (_ & M & _). destruct F as (N & F). rewrite N, M, value_tsum, Rp.
    apply rsum_ext. intros j Hj. rewrite basis_row; auto. split; auto.
  Qed.
  Lemma boundary_is e k left : frame e -> represents e ->
    l_boundary e k left = tsum n m (l_taylor e) k (if left then x_left c else x_right c).
  Proof.
    intros F Rp. rewrite Rp. unfold l_boundary, dot, l_boundary_basis. destruct (frame_parts e F) as (C & _). destruct F as (N & F).
    rewrite N, C. reflexivity.
  Qed.
  Lemma mean_is e : frame e -> represents e -> mean (x_left c) (x_right c) (l_value e) (l_average e).
  Proof.
    intros F Rp. unfold mean.
    apply (is_RInt_ext (fun x => rsum n (fun j => l_modes e j * P j (xi x)))); [intros x _; symmetry; apply value_modes; auto|].
    apply (is_RInt_val' _ _ _ (rsum n (fun j => l_modes e j * (J * (if (j =? 0)%nat then 2 else 0))))).
    - apply (int_sum (fun j x => l_modes e j * P j (xi x))). intros j _. apply (@is_RInt_scal R_NormedModule).
      apply (to_element (P j)). destruct j as [|j].
      + apply (is_RInt_val' _ _ _ (scal (1 - -1) 1)); [apply @is_RInt_const|]. cbn. unfold scal; cbn; unfold mult; cbn; ring.
      + apply P_mean. lia.
    - rewrite (rsum_single n 0); [|lia|intros i _ Hi; destruct (Nat.eqb_spec i 0); [lia|ring]]. cbn. unfold l_average, J. field.
  Qed.
  Lemma energy_is e : frame e -> represents e -> is_RInt (fun x => l_value e x * l_value e x) (x_left c) (x_right c) (rsum n (l_energy e)).
  Proof.
    intros F Rp.
    apply (is_RInt_ext (fun x => rsum n (fun j => rsum n (fun k => (l_modes e j * l_modes e k) * (P j (xi x) * P k (xi x)))))).
    { intros x _. rewrite value_modes by auto. rewrite rsum_mul. apply rsum_ext. intros j _. apply rsum_ext. intros k _.
      match goal with |- @eq _ ?a ?b => change (@eq R a b) end. ring. }
    apply (is_RInt_val' _ _ _ (rsum n (fun j => rsum n (fun k => (l_modes e j * l_modes e k) * (if (j =? k)%nat then l_weight e k else 0))))).
    - apply (int_sum (fun j x => rsum n (fun k => (l_modes e j * l_modes e k) * (P j (xi x) * P k (xi x))))). intros j _.
      apply (int_sum (fun k x => (l_modes e j * l_modes e k) * (P j (xi x) * P k (xi x)))). intros k _.
      apply (@is_RInt_scal R_NormedModule). apply basis_orthogonal, F.
    - apply rsum_ext. intros j Hj. rewrite (rsum_single n j); [|exact Hj|intros i _ Hi; destruct (Nat.eqb_spec j i); [lia|ring]].
      rewrite Nat.eqb_refl. unfold l_energy. ring.
  Qed.
  Lemma inverse_represents e a : inverts inv -> frame e -> represents (l_set_taylor_coeff e a).
  Proof.
    unfold inverts. intros V F k x. destruct (frame_parts e F) as (_ & M & _ & A). destruct F as (N & C & I & W).
    unfold l_set_taylor_coeff. cbn [l_taylor l_modes]. rewrite N.
    transitivity (tsum n m (mat_dot n (legendre_to_taylor n J) (mat_dot n (l_inverse e) a)) k x).
    - unfold tsum. apply rsum_ext. intros i Hi. f_equal. unfold mat_dot.
      rewrite (rsum_ext n _ (fun j => rsum n (fun l => (legendre_to_taylor n J i j * l_inverse e j l) * a l))).
      + rewrite rsum_swap. rewrite (rsum_single n i); [|exact Hi|].
        * rewrite rsum_mul_r, (proj1 (V _ _ _ W i i Hi Hi)), Nat.eqb_refl. ring.
        * intros l Hl Ne. rewrite rsum_mul_r, (proj1 (V _ _ _ W i l Hi Hl)). destruct (Nat.eqb_spec i l); [congruence|ring].
      + intros j _. rewrite <- rsum_mul_l. apply rsum_ext. intros. ring.
    - rewrite tsum_matrix. apply rsum_ext. intros j _. f_equal.
      unfold l_basis_derivatives, l_center, l_matrix, l_jacobian, l_coordinate. cbn [l_n l_integrator]. rewrite C, jacobian_is, center_is. reflexivity.
  Qed.

  (** approximation *)
  Lemma quad_combine f : forall ps ws, length ps = length ws -> quad f ps ws = quadr f (combine ps ws).
  Proof.
    induction ps as [|p ps IH]; intros [|w ws] H; cbn [quad combine length] in *; try discriminate; [reflexivity|].
    unfold quadr. cbn [map fold_right fst snd]. rewrite IH by lia. unfold quadr. ring.
  Qed.
  Hypothesis (G : gauss roots n).
  Lemma rule_is e f : frame e -> integrate (l_integrator e) f = J * quadr (fun y => f (local_to_global c y)) (combine (fst (roots n)) (snd (roots n))).
  Proof.
    intros (N & C & I & _). destruct G as (L & Q & _).
    destruct (init_is c (fst (roots n)) (snd (roots n)) Q ltac:(unfold n in *; lia)) as (i & E & _ & _ & _ & K).
    rewrite I in E. injection E as <-. rewrite K. fold J. f_equal. apply quad_combine, Q.
  Qed.
  Lemma rule_exact d f : (d <= 2 * n - 1)%nat -> polynomial d f -> is_RInt f (-1) 1 (quadr f (combine (fst (roots n)) (snd (roots n)))).
  Proof.
    intros D. destruct G as (_ & Q). apply (exact_poly n 1 _ _ ltac:(unfold n; lia) Q). exact D.
  Qed.
  Lemma modes_of e f a : frame e -> (forall y, f (local_to_global c y) = rsum n (fun j => a j * P j y)) ->
    forall k, (k < n)%nat -> integrate (l_integrator e) (fun x => P k (xi x) * f x) / l_weight e k = a k.
  Proof.
    intros F E k K. rewrite rule_is by exact F. destruct (frame_parts e F) as (_ & _ & JJ & _).
    rewrite (quadr_ext _ (fun y => rsum n (fun j => a j * (P k y * P j y)))).
    2: { intros y. replace (xi (local_to_global c y)) with y.
         - rewrite E, <- rsum_mul_l. apply rsum_ext. intros. ring.
         - unfold xi. rewrite map_is. fold m J. pose proof J_nz. field. assumption. }
    rewrite quadr_sum.
    rewrite (rsum_ext n _ (fun j => a j * (if (k =? j)%nat then 2 / (2 * INR k + 1) else 0))).
    - rewrite (rsum_single n k); [|exact K|intros i _ Hi; destruct (Nat.eqb_spec k i); [lia|ring]]. rewrite Nat.eqb_refl.
      unfold l_weight, mode_weight. rewrite JJ. pose proof J_nz. pose proof (pos_INR k). field. split; lra.
    - intros j Hj. rewrite quadr_scal. f_equal.
      assert (U := rule_exact (k + j) (fun y => P k y * P j y) ltac:(lia)
        (poly_mult 1 1 (conj (le_n 1) (le_n 1)) k j _ _ (P_poly k) (P_poly j))).
      pose proof (P_pair k j) as W. transitivity (RInt (fun y => P k y * P j y) (-1) 1).
      + symmetry. apply is_RInt_unique, U.
      + rewrite (is_RInt_unique _ _ _ _ W). destruct (Nat.eqb_spec k j) as [->|]; reflexivity.
  Qed.
  (** polynomials are sums of Legendre polynomials *)
  Definition spanned (d : nat) (g : R -> R) : Prop := exists a, forall y, g y = rsum (S d) (fun j => a j * P j y).
  Lemma spanned_mono d d' g : (d <= d')%nat -> spanned d g -> spanned d' g.
  Proof.
    intros L [a H]. exists (fun j => if (j <=? d)%nat then a j else 0). intros y. rewrite H. replace (S d') with (S d + (d' - d))%nat by lia.
    rewrite rsum_app, (rsum_zero (d' - d)).
    - rewrite Rplus_0_r. apply rsum_ext. intros j Hj. destruct (Nat.leb_spec j d); [reflexivity|lia].
    - intros j _. destruct (Nat.leb_spec (S d + j) d); [lia|ring].
  Qed.
  Lemma spanned_plus d f g : spanned d f -> spanned d g -> spanned d (fun y => f y + g y).
  Proof. intros [a H] [b K]. exists (fun j => a j + b j). intros y. rewrite H, K, <- rsum_add. apply rsum_ext. intros. ring. Qed.
  Lemma spanned_scal d k f : spanned d f -> spanned d (fun y => k * f y).
  Proof. intros [a H]. exists (fun j => k * a j). intros y. rewrite H, <- rsum_mul_l. apply rsum_ext. intros. ring. Qed.
  Lemma spanned_ext d f g : (forall y, f y = g y) -> spanned d f -> spanned d g.
  Proof. intros E [a H]. exists a. intros. rewrite <- E. apply H. Qed.
  Lemma spanned_P d j : (j <= d)%nat -> spanned d (P j).
  Proof.
    intros L. exists (fun i => if (i =? j)%nat then 1 else 0). intros y. rewrite (rsum_single (S d) j); [rewrite Nat.eqb_refl; ring|lia|].
    intros i _ Hi. destruct (Nat.eqb_spec i j); [lia|ring].
  Qed.
  Lemma spanned_sum d k (f : nat -> R -> R) : (forall i, (i < k)%nat -> spanned d (f i)) -> spanned d (fun y => rsum k (fun i => f i y)).
  Proof.
    induction k; intros H; cbn [rsum].
    - exists (fun _ => 0). intros y. symmetry. apply rsum_zero. intros. ring.
    - apply (spanned_plus d (fun y => rsum k (fun i => f i y)) (f k)); [apply IHk; intros; apply H; lia|apply H; lia].
  Qed.
  Lemma spanned_x d g : spanned d g -> spanned (S d) (fun y => y * g y).
  Proof.
    intros [a H]. apply (spanned_ext _ (fun y => rsum (S d) (fun j => a j * (y * P j y)))).
    { intros y. rewrite H, <- rsum_mul_l. apply rsum_ext. intros. ring. }
    apply (spanned_sum (S d) (S d) (fun j y => a j * (y * P j y))). intros j Hj. apply spanned_scal. pose proof (pos_INR j).
    destruct j as [|j].
    - apply (spanned_ext _ (P 1)); [intros y; rewrite P_0, P_1; ring|]. apply spanned_P. lia.
    - apply (spanned_ext _ (fun y => (INR j + 2) / (2 * INR j + 3) * P (S (S j)) y + (INR j + 1) / (2 * INR j + 3) * P j y)).
      + intros y. pose proof (P_SS j y) as E. rewrite S_INR in H0.
        apply Rmult_eq_reg_l with (2 * INR j + 3); [|pose proof (pos_INR j); lra].
        transitivity ((INR j + 2) * P (S (S j)) y + (INR j + 1) * P j y); [field; pose proof (pos_INR j); lra|]. rewrite E. ring.
      + apply spanned_plus; apply spanned_scal; apply spanned_P; lia.
  Qed.
  Lemma poly_spanned d g : polynomial d g -> spanned d g.
  Proof.
    intros [k H]. revert g k H. induction d; intros g k H.
    - exists k. intros y. rewrite H. unfold poly1. cbn [rsum pow]. rewrite P_0. ring.
    - apply (spanned_ext _ (fun y => k O * P 0 y + y * poly1 d (fun i => k (S i)) y)).
      + intros y. rewrite H. unfold poly1. rewrite (rsum_first (S d)), <- rsum_mul_l, P_0. cbn [pow]. f_equal. apply rsum_ext. intros. cbn [pow]. ring.
      + apply spanned_plus; [apply spanned_scal, spanned_P; lia|]. apply spanned_x. apply (IHd _ (fun i => k (S i))). reflexivity.
  Qed.
  Lemma poly_affine d g p q : polynomial d g -> polynomial d (fun y => g (p + y * q)).
  Proof.
    intros [k H]. revert g k H. induction d; intros g k H.
    - apply (poly_ext _ (fun _ => k O)); [intros y; rewrite H; unfold poly1; cbn; ring|]. apply poly_const.
    - apply (poly_ext _ (fun y => (k O + p * poly1 d (fun i => k (S i)) (p + y * q)) + q * (y * poly1 d (fun i => k (S i)) (p + y * q)))).
      + intros y. rewrite H. unfold poly1 at 3. rewrite (rsum_first (S d)). cbn [pow].
        rewrite (rsum_ext (S d) (fun i => k (S i) * ((p + y * q) * (p + y * q) ^ i)) (fun i => (p + y * q) * (k (S i) * (p + y * q) ^ i))) by (intros; ring).
        rewrite rsum_mul_l. unfold poly1. ring.
      + assert (Q := IHd (poly1 d (fun i => k (S i))) (fun i => k (S i)) (fun _ => eq_refl)). apply poly_plus.
        * apply poly_plus; [apply poly_const|]. apply poly_scal. apply (poly_mono d); [lia|exact Q].
        * apply poly_scal. apply (poly_x d (fun y => poly1 d (fun i => k (S i)) (p + y * q))). exact Q.
  Qed.
  Lemma approximate_frame e f : frame e -> exists e', l_approximate e f = Some e' /\ frame e' /\ represents e' /\
    forall k, l_modes e' k = integrate (l_integrator e) (fun x => P k (xi x) * f x) / l_weight e k.
  Proof.
    intros F. destruct (frame_parts e F) as (C & _ & _ & _). unfold l_approximate. rewrite C, local_is. cbn [bind].
    eexists. split; [reflexivity|]. split; [exact F|]. split.
    - set (e0 := mkLegendre (l_n e) (l_integrator e) (l_inverse e) _ (l_taylor e)). apply (set_represents e0). exact F.
    - intros k. cbn [l_set_taylor l_modes]. f_equal. f_equal. apply FunctionalExtensionality.functional_extensionality. intros x. rewrite local_is. reflexivity.
  Qed.
  Lemma reproduces e f : frame e -> polynomial degree f -> exists e', l_approximate e f = Some e' /\ frame e' /\ represents e' /\ forall x, l_value e' x = f x.
  Proof.
    intros F D. destruct (approximate_frame e f F) as (e' & E & F' & Rp & M). exists e'. split; [exact E|]. split; [exact F'|]. split; [exact Rp|]. intros x.
    assert (D' : polynomial degree (fun y => f (local_to_global c y))).
    { apply (poly_ext _ (fun y => f (m + y * J))); [intros y; rewrite map_is; reflexivity|]. apply poly_affine, D. }
    destruct (poly_spanned _ _ D') as [a A].
    assert (A' : forall y, f (local_to_global c y) = rsum n (fun j => a j * P j y)) by (intros y; rewrite A; f_equal; unfold n; lia).
    rewrite value_modes by assumption. transitivity (rsum n (fun j => a j * P j (xi x))).
    - apply rsum_ext. intros j Hj. rewrite M, (modes_of e f a F A' j Hj). reflexivity.
    - rewrite <- A'. f_equal. unfold xi. rewrite map_is. fold m J. pose proof J_nz. field. assumption.
  Qed.
End Object.

(** ** Truncation *)
Lemma to_taylor_part N n J c x k : J <> 0 -> (k < N)%nat -> (k < n)%nat ->
  rsum N (fun i => taylor_values c x i * legendre_to_taylor n J i k) = P k ((x - c) / J).
Proof.
  intros Z L H. rewrite <- (good_longer (legendre_matrix n) k N _ (legendre_good n k H) L).
  apply rsum_ext. intros i _. unfold taylor_values, legendre_to_taylor. rewrite x_power_is.
  replace (((x - c) / J) ^ i) with ((x - c) ^ i / J ^ i) by (unfold Rdiv; rewrite Rpow_mult_distr, pow_inv; reflexivity).
  pose proof (pow_nonzero J i Z). destruct i; cbn [Nat.leb].
  - cbn [pow]. field.
  - field. assumption.
Qed.
Lemma truncated_is roots inv degree c e d x : x_left c <> x_right c -> frame roots inv degree c e ->
  truncated_value d e x = if (d <=? degree)%nat then Some (rsum (d + 1) (fun j => l_modes e j * P j (xi c x))) else None.
Proof.
  intros X F. destruct (frame_parts _ _ _ _ _ F) as (_ & M & _ & A). destruct F as (N & _). unfold truncated_value, Truncated_init.
  rewrite N. replace (degree + 1 - 1)%nat with degree by lia. destruct (Nat.leb_spec d degree); [|reflexivity]. cbn [bind]. f_equal.
  rewrite value_tsum, tsum_matrix. apply rsum_ext. intros j Hj. f_equal. rewrite M, A. apply to_taylor_part; [lra|lia|lia].
Qed.
