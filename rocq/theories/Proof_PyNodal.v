From Coq Require Import Reals List Arith Lra Lia Bool.
From Coquelicot Require Import Coquelicot.
From Verif Require Import Arrays RSum Spec_Gauss Model_PyEuler Model_PyPoly Spec_PyPoly Proof_PyPoly Proof_PyCorrect Proof_PyLagrange.
From Verif Require Import Model_PyIntegrator Proof_PyIntegrator Model_PyExpansion Spec_PyExpansion Proof_PyExpansion Model_PyNodal.
Import ListNotations.
Open Scope R_scope.

(** a rule that integrates powers up to [d] integrates polynomials of that degree *)
Lemma rule_poly D ps ws d f : integrates D ps ws -> (d <= D)%nat -> polynomial d f -> is_RInt f (-1) 1 (quadr f (combine ps ws)).
Proof.
  intros [_ Q'] Hd [k H].
  apply (is_RInt_ext (fun y => rsum (S d) (fun i => scal (k i) (y ^ i)))); [intros y _; rewrite H; reflexivity|].
  apply (is_RInt_val' _ _ _ (rsum (S d) (fun i => scal (k i) (quadr (fun y => y ^ i) (combine ps ws))))).
  - apply (int_sum (fun i y => scal (k i) (y ^ i))). intros i Hi. apply @is_RInt_scal. apply Q'. lia.
  - rewrite (quadr_ext f (poly1 d k)) by exact H. unfold poly1. rewrite quadr_sum. apply rsum_ext. intros i _.
    rewrite quadr_scal. reflexivity.
Qed.
Lemma quadr_rsum f : forall ps ws, length ps = length ws -> quadr f (combine ps ws) = rsum (length ps) (fun i => nth i ws 0 * f (nth i ps 0)).
Proof.
  induction ps as [|p ps IH]; intros [|w ws] H; try discriminate; [reflexivity|].
  unfold quadr in *. cbn [combine map fold_right length fst snd]. rewrite rsum_first. cbn [nth]. rewrite IH by (cbn in H; lia). reflexivity.
Qed.
Lemma high_row n c a x k j : (n <= k)%nat -> row_dot n (taylor_derivatives c x k) a j = 0.
Proof.
  intros K. unfold row_dot. apply rsum_zero. intros i Hi. unfold taylor_derivatives. destruct k; [lia|].
  destruct (Nat.ltb_spec i (S k)); [ring|lia].
Qed.

Section Object.
  Variables (ps ws roots : list R) (inv : nat -> (nat -> nat -> R) -> option (nat -> nat -> R)) (gauss : bool) (degree : nat) (c : Coordinate).
  Hypothesis (X : x_left c <> x_right c) (V : inverts inv).
  Let n := (degree + 1)%nat.
  Let J := (x_right c - x_left c) / 2.
  Let m := (x_left c + x_right c) / 2.
  Let points k := local_to_global c (nth k roots 0).
  Definition nodal (e : Lagrange) : Prop :=
    g_n e = n /\ i_coordinate (g_integrator e) = c /\ Integrator_init c ps ws = Some (g_integrator e) /\ g_gauss e = gauss /\
    g_roots e = roots /\ length roots = n /\ g_points e = points /\ inv n (base_rows m points) = Some (g_inverse e) /\
    g_cached e = (fun i k => basis_derivatives n m (g_inverse e) (points i) k).
  Lemma nodal_init i e : Integrator_init c ps ws = Some i -> Lagrange_init inv gauss degree i roots = Some e -> nodal e.
  Proof.
    intros I E. unfold Lagrange_init in E. destruct (degree <? 100)%nat; [|discriminate]. cbn [negb] in E. fold n in E.
    destruct (Nat.eqb_spec (length roots) n) as [L|]; [|discriminate]. cbn [negb] in E.
    assert (C : i_coordinate i = c). { unfold Integrator_init in I. destruct ps; [discriminate|]. injection I as <-. reflexivity. }
    rewrite C, center_is in E. fold m in E. fold points in E. destruct (inv n (base_rows m points)) as [a|] eqn:W; [|discriminate].
    cbn [bind] in E. injection E as <-. unfold nodal. cbn. rewrite W. repeat split; auto.
  Qed.
  Lemma nodal_update e v t : nodal e -> nodal (g_update e v t).
  Proof. exact (fun H => H). Qed.

  Section Frame.
    Variable (e : Lagrange).
    Hypothesis (F : nodal e).
    Let a := g_inverse e.
    Lemma center_m : g_center e = m.
    Proof. destruct F as (_ & C & _). unfold g_center, g_coordinate. rewrite C. apply center_is. Qed.
    Lemma rows_inverse i j : (i < n)%nat -> (j < n)%nat -> rsum n (fun l => base_rows m points i l * a l j) = if (i =? j)%nat then 1 else 0.
    Proof. intros Hi Hj. destruct F as (_ & _ & _ & _ & _ & _ & _ & W & _). apply (V _ _ _ W i j Hi Hj). Qed.
    Lemma inverse_rows i j : (i < n)%nat -> (j < n)%nat -> rsum n (fun l => a i l * base_rows m points l j) = if (i =? j)%nat then 1 else 0.
    Proof. intros Hi Hj. destruct F as (_ & _ & _ & _ & _ & _ & _ & W & _). apply (V _ _ _ W i j Hi Hj). Qed.
    Lemma roots_length : length roots = n. Proof. apply F. Qed.
    Lemma roots_distinct : NoDup roots.
    Proof.
      apply (NoDup_nth roots 0). intros i j Hi Hj E. rewrite roots_length in *. destruct (Nat.eq_dec i j) as [|Ne]; [assumption|exfalso].
      pose proof (rows_inverse i i Hi Hi) as A. pose proof (rows_inverse j i Hj Hi) as B.
      assert (points i = points j) as Q by (unfold points; rewrite E; reflexivity).
      unfold base_rows in *. rewrite Q in A. rewrite A, Nat.eqb_refl in B. destruct (Nat.eqb_spec j i); [congruence|lra].
    Qed.
    Lemma point_is k : points k = m + nth k roots 0 * J.
    Proof. unfold points. rewrite map_is. reflexivity. Qed.
    Let Jnz : J <> 0. Proof. unfold J. lra. Qed.
    Lemma xi_point k : xi c (points k) = nth k roots 0.
    Proof. rewrite point_is. unfold xi. fold m J. field. exact Jnz. Qed.
    Lemma row_ell x j : (j < n)%nat -> row_dot n (taylor_derivatives m x 0) a j = ell roots j (xi c x).
    Proof.
      intros Hj. unfold row_dot.
      rewrite (rsum_ext n _ (fun i => rsum n (fun k => ell roots k (xi c x) * (base_rows m points k i * a i j)))).
      - rewrite rsum_swap. rewrite (rsum_single n j); [|exact Hj|].
        + rewrite rsum_mul_l, rows_inverse by assumption. rewrite Nat.eqb_refl. ring.
        + intros k Hk Ne. rewrite rsum_mul_l, rows_inverse by assumption. destruct (Nat.eqb_spec k j); [congruence|ring].
      - intros i Hi. assert (U : taylor_values m x i = rsum n (fun k => base_rows m points k i * ell roots k (xi c x))).
        { assert (PF : polynomial i (fun y => (J * y) ^ i)).
          { exists (fun l => if (l =? i)%nat then J ^ i else 0). intros y. unfold poly1. rewrite (rsum_single (S i) i); [|lia|].
            - rewrite Nat.eqb_refl. apply Rpow_mult_distr.
            - intros l _ Ne. destruct (Nat.eqb_spec l i); [congruence|ring]. }
          pose proof (reproduce roots roots_distinct i _ ltac:(rewrite roots_length; exact Hi) PF (xi c x)) as W. unfold interpolate in W.
          rewrite roots_length in W. unfold taylor_values at 1. rewrite x_power_is.
          replace (x - m) with (J * xi c x) by (unfold xi; fold m J; field; exact Jnz). rewrite <- W. apply rsum_ext. intros k _. f_equal.
          unfold base_rows, taylor_values. rewrite x_power_is, point_is. f_equal. ring. }
        rewrite derivatives_0, U, <- rsum_mul_r. apply rsum_ext. intros. ring.
    Qed.
    Lemma g_basis_row x j : (j < n)%nat -> g_basis_derivatives e x 0 j = ell roots j (xi c x).
    Proof. intros Hj. unfold g_basis_derivatives, basis_derivatives. rewrite center_m, (proj1 F). apply row_ell, Hj. Qed.
    Lemma g_values_list x : g_basis_values e x = Some (map (fun j => ell roots j (xi c x)) (seq 0 n)).
    Proof.
      unfold g_basis_values, g_coordinate. rewrite (proj1 (proj2 F)), (local_is c X). cbn [bind].
      destruct F as (_ & _ & _ & _ & G & L & _). rewrite G. unfold LagrangeBasis_value.
      rewrite (basis_list (fun i => IthLagrange_value i roots (xi c x)) (fun i => ell roots i (xi c x))).
      - rewrite L. reflexivity.
      - intros i Hi. apply value_ell; [exact roots_distinct|lia].
    Qed.
    Lemma g_basis_derive j k x : is_derive (fun x => g_basis_derivatives e x k j) x (g_basis_derivatives e x (S k) j).
    Proof. apply row_derive. Qed.
    Lemma g_basis_high k j x : (n <= k)%nat -> g_basis_derivatives e x k j = 0.
    Proof. intros K. unfold g_basis_derivatives, basis_derivatives. rewrite (proj1 F). apply high_row, K. Qed.
    Lemma g_basis_first j x : g_basis_gradients e x j = g_basis_derivatives e x 1 j.
    Proof. unfold g_basis_gradients, g_basis_derivatives, basis_derivatives, row_dot. apply rsum_ext. intros. rewrite derivatives_1. reflexivity. Qed.
    Lemma g_basis_second j x : g_basis_hessians e x j = g_basis_derivatives e x 2 j.
    Proof. unfold g_basis_hessians, g_basis_derivatives, basis_derivatives, row_dot. apply rsum_ext. intros. rewrite derivatives_2. reflexivity. Qed.
    Lemma node_is i k j : (i < n)%nat -> g_node_basis e i k j = g_basis_derivatives e (g_points e i) k j.
    Proof.
      intros Hi. unfold g_node_basis. rewrite (proj1 F).
      assert (A : forall k, g_cached e i k j = g_basis_derivatives e (g_points e i) k j).
      { intros q. unfold g_basis_derivatives. rewrite center_m, (proj1 F). destruct F as (_ & _ & _ & _ & _ & _ & -> & _ & ->). reflexivity. }
      destruct (Nat.eqb_spec k 0); [apply A|]. destruct (Nat.ltb_spec (n - 1) k); [|apply A]. symmetry. apply g_basis_high. lia.
    Qed.
    (** the Taylor coefficients represent the values *)
    Definition nodal_represents : Prop := forall k x, tsum n m (g_taylor e) k x = rsum n (fun j => g_values e j * g_basis_derivatives e x k j).
    Lemma g_value_is x : nodal_represents -> g_value e x = rsum n (fun j => g_values e j * ell roots j (xi c x)).
    Proof.
      intros H. unfold g_value. rewrite value_tsum, center_m, (proj1 F), H. apply rsum_ext. intros j Hj. rewrite g_basis_row by exact Hj. reflexivity.
    Qed.
    Lemma g_value_node i : (i < n)%nat -> nodal_represents -> g_value e (g_points e i) = g_values e i.
    Proof.
      intros Hi H. rewrite g_value_is by exact H. destruct F as (_ & _ & _ & _ & _ & L & -> & _). rewrite xi_point.
      rewrite (rsum_single n i); [|exact Hi|].
      - rewrite (ell_cardinal roots roots_distinct) by lia. rewrite Nat.eqb_refl. ring.
      - intros j Hj Ne. rewrite (ell_cardinal roots roots_distinct) by lia. destruct (Nat.eqb_spec j i); [congruence|ring].
    Qed.
    Lemma node_value_is i k : (i < n)%nat -> nodal_represents -> g_node_value e i k = tsum n m (g_taylor e) k (g_points e i).
    Proof.
      intros Hi H. unfold g_node_value. destruct (Nat.eqb_spec k 0) as [->|].
      - rewrite <- (g_value_node i Hi H). unfold g_value. rewrite value_tsum, center_m, (proj1 F). reflexivity.
      - rewrite H. unfold dot. rewrite (proj1 F). apply rsum_ext. intros j _. rewrite node_is by exact Hi. reflexivity.
    Qed.
    (** the mean value *)
    Lemma g_value_poly : nodal_represents -> polynomial degree (fun y => g_value e (local_to_global c y)).
    Proof.
      intros H. apply (poly_ext _ (fun y => rsum n (fun j => g_values e j * ell roots j y))).
      - intros y. rewrite g_value_is by exact H. apply rsum_ext. intros j _. f_equal. f_equal. unfold xi. rewrite map_is. fold m J. field. exact Jnz.
      - apply (sum_poly roots degree (ell roots) (g_values e) n). intros i Hi. replace degree with (length roots - 1)%nat by (rewrite roots_length; unfold n; lia).
        apply ell_poly; rewrite roots_length; exact Hi.
    Qed.
    Lemma g_rule f : length ps = length ws -> integrate (g_integrator e) f = J * quadr (fun y => f (local_to_global c y)) (combine ps ws).
    Proof.
      intros Q. destruct F as (_ & _ & I & _).
      assert (L : (1 <= length ps)%nat) by (unfold Integrator_init in I; destruct ps; [discriminate|cbn; lia]).
      destruct (init_is c ps ws Q L) as (i & E & _ & _ & _ & K). rewrite I in E. injection E as <-. rewrite K. fold J. f_equal.
      apply (quad_combine 0 _ ps ws). exact Q.
    Qed.
    Lemma value_mean q : nodal_represents -> integrates degree ps ws ->
      q = integrate (g_integrator e) (g_value e) / length_of c -> mean (x_left c) (x_right c) (g_value e) q.
    Proof.
      intros H Q ->. rewrite g_rule by apply Q. unfold mean. rewrite length_is.
      replace ((x_right c - x_left c) * (J * quadr (fun y => g_value e (local_to_global c y)) (combine ps ws) / (x_right c - x_left c)))
        with (J * quadr (fun y => g_value e (local_to_global c y)) (combine ps ws)) by (field; lra).
      apply (is_RInt_ext (fun x => g_value e (local_to_global c (xi c x)))).
      - intros x _. f_equal. rewrite map_is. unfold xi. fold m J. field. exact Jnz.
      - apply (to_element c X (fun y => g_value e (local_to_global c y))). apply (rule_poly degree ps ws degree); [exact Q|lia|apply g_value_poly, H].
    Qed.
  End Frame.

  (** the setters *)
  Lemma set_values_represents e v : nodal e -> nodal_represents (g_set_values e v).
  Proof.
    intros F. unfold nodal_represents. intros k x. unfold g_set_values, g_update, g_update_average. cbn [g_taylor g_values]. rewrite (proj1 F), tsum_matrix. apply rsum_ext.
    intros j _. f_equal. unfold g_basis_derivatives, basis_derivatives, g_center, g_coordinate. cbn [g_n g_inverse g_integrator].
    rewrite ?(proj1 F), (proj1 (proj2 F)), center_is. reflexivity.
  Qed.
  Lemma set_taylor_represents e t : nodal e -> nodal_represents (g_set_taylor_coeff e t).
  Proof.
    intros F. unfold nodal_represents. intros k x. unfold g_set_taylor_coeff, g_update, g_update_average. cbn [g_taylor g_values]. rewrite (center_m e F), (proj1 F).
    assert (PT : g_points e = points) by apply F. rewrite PT.
    transitivity (tsum n m (mat_dot n (g_inverse e) (mat_dot n (base_rows m points) t)) k x).
    - unfold tsum. apply rsum_ext. intros i Hi. f_equal. unfold mat_dot.
      rewrite (rsum_ext n _ (fun j => rsum n (fun l => (g_inverse e i j * base_rows m points j l) * t l))).
      + rewrite rsum_swap. rewrite (rsum_single n i); [|exact Hi|].
        * rewrite rsum_mul_r, (inverse_rows e F i i Hi Hi), Nat.eqb_refl. ring.
        * intros l Hl Ne. rewrite rsum_mul_r, (inverse_rows e F i l Hi Hl). destruct (Nat.eqb_spec i l); [congruence|ring].
      + intros j _. rewrite <- rsum_mul_l. apply rsum_ext. intros. ring.
    - rewrite tsum_matrix. apply rsum_ext. intros j _. f_equal.
      unfold g_basis_derivatives, basis_derivatives, g_center, g_coordinate. cbn [g_n g_inverse g_integrator].
      rewrite ?(proj1 F), (proj1 (proj2 F)), center_is. reflexivity.
  Qed.
  Lemma seq_sum (f : nat -> R) k : (1 <= k)%nat -> fold_left (fun value i => value + f i) (seq 1 (k - 1)) (f 0%nat) = rsum k f.
  Proof. intros K. rewrite fold_rsum. destruct k; [lia|]. rewrite rsum_first. replace (S k - 1)%nat with k by lia. reflexivity. Qed.
  Lemma update_average e v t : nodal e -> nodal_represents (g_update e v t) -> integrates degree ps ws -> (gauss = true -> ps = roots) ->
    exists q, g_average (g_update e v t) = Some q /\ mean (x_left c) (x_right c) (g_value (g_update e v t)) q.
  Proof.
    intros F H Q P.
    assert (F' : nodal (g_update e v t)) by exact F.
    set (e' := g_update e v t) in *.
    assert (A : exists q, g_average e' = Some q /\ q = integrate (g_integrator e') (g_value e') / length_of c).
    2: { destruct A as (q & A & B). exists q. split; [exact A|]. apply (value_mean e' F' q H Q B). }
    assert (Ln : length_of c <> 0) by (rewrite length_is; lra).
    destruct F as (N & C & I & G & Rt & L & PT & W & Ca).
    assert (AV : g_average e' = if g_gauss e
       then div (fold_left (fun value i => value + v i * g_weight e i) (seq 1 (g_n e - 1)) (v 0%nat * g_weight e 0)) (length_of (g_coordinate e))
       else taylor_average (g_n e) (g_integrator e) t) by reflexivity.
    rewrite AV, G. change (g_integrator e') with (g_integrator e). unfold g_coordinate. rewrite C.
    destruct gauss eqn:GB.
    - unfold div. destruct (Req_EM_T (length_of c) 0); [contradiction|].
      eexists. split; [reflexivity|]. f_equal. rewrite N.
      rewrite (seq_sum (fun i => v i * g_weight e i)) by (unfold n; lia).
      change (g_integrator e) with (g_integrator e'). rewrite (g_rule e' F') by apply Q. rewrite quadr_rsum by apply Q.
      pose proof (P eq_refl) as PR. rewrite PR, L. rewrite <- rsum_mul_l. apply rsum_ext.
      intros i Hi.
      assert (VN : g_value e' (points i) = v i).
      { rewrite <- PT. apply (g_value_node e' F' i Hi H). }
      unfold points in VN. rewrite VN.
      assert (WS : g_weight e i = nth i ws 0 * J).
      { assert (LP : (1 <= length ps)%nat) by (rewrite PR, L; unfold n; lia). unfold g_weight.
        destruct (init_is c ps ws (proj1 Q) LP) as (i0 & E & _ & _ & GW & _).
        rewrite I in E. injection E as <-. rewrite GW. replace 0 with (0 * J) at 1 by ring. apply (map_nth (fun w => w * J)). }
      rewrite WS. ring.
    - unfold taylor_average, average. rewrite C. unfold div. destruct (Req_EM_T (length_of c) 0); [contradiction|].
      eexists. split; [reflexivity|]. f_equal. f_equal. unfold e', g_value, g_update, g_update_average, g_center, g_coordinate.
      cbn [g_integrator g_n g_taylor]. rewrite C. reflexivity.
  Qed.
  (** polynomials are reproduced *)
  Lemma nodal_reproduces e f : nodal e -> polynomial degree f -> forall x, g_value (g_approximate e f) x = f x.
  Proof.
    intros F D x. rewrite (g_value_is (g_approximate e f) F); [|apply set_values_represents, F]. unfold g_approximate, g_set_values, g_update, g_update_average. cbn [g_values].
    assert (PT : g_points e = points) by apply F. rewrite PT.
    pose proof (reproduce roots (roots_distinct e F) degree (fun y => f (m + y * J)) ltac:(rewrite (roots_length e F); unfold n; lia)
      (poly_affine 0 degree f m J D) (xi c x)) as W.
    unfold interpolate in W. rewrite (roots_length e F) in W.
    replace (m + xi c x * J) with x in W by (unfold xi; fold m J; field; unfold J; lra). rewrite <- W. apply rsum_ext. intros i _.
    rewrite point_is. reflexivity.
  Qed.
End Object.
