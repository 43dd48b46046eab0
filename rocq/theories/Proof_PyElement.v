(** Weak forms of conservation laws for polynomials. *)
From Coq Require Import Reals List Arith Bool Lra Lia.
From Coquelicot Require Import Coquelicot.
From Verif Require Import Arrays RSum Spec_Gauss Proof_Gauss Model_PyEuler Model_PyPoly Spec_PyPoly Proof_PyPoly Proof_PyCorrect Proof_PyLagrange.
From Verif Require Import Model_PyIntegrator Proof_PyIntegrator Model_PyExpansion Spec_PyExpansion Proof_PyExpansion Model_PyNodal Proof_PyNodal.
From Verif Require Import Model_PyElement Spec_PyElement.
Import ListNotations.
Open Scope R_scope.

(** ** Polynomials *)
Lemma poly_derive : forall d f, polynomial d f -> exists f', polynomial (d - 1) f' /\ forall x, is_derive f x (f' x).
Proof.
  intros d f [k H]. destruct d.
  - exists (fun _ => 0). split; [apply poly_const|]. intros x. apply (is_derive_ext (fun _ => k O)).
    + intros t. rewrite H. unfold poly1. assert (Z : rsum 1 (fun i => k i * t ^ i) = k O) by (cbn; ring). rewrite Z. reflexivity.
    + auto_derive; reflexivity.
  - exists (fun x => rsum (S d) (fun i => (INR (S i) * k (S i)) * x ^ i)). split.
    + exists (fun i => INR (S i) * k (S i)). intros x. replace (S d - 1)%nat with d by lia. reflexivity.
    + intros x. apply (is_derive_ext (fun x => k O + rsum (S d) (fun i => k (S i) * x ^ S i))).
      * intros t. rewrite H. unfold poly1. rewrite (rsum_first (S d)). assert (Z : k O * t ^ 0 = k O) by (cbn; ring). rewrite Z. reflexivity.
      * evar_last; [apply @is_derive_plus; [apply is_derive_const|apply (sum_derive (fun i x => k (S i) * x ^ S i) (fun i x => INR (S i) * k (S i) * x ^ i) (S d) x)]|].
        { intros i _. auto_derive; [trivial|]. cbn [pred]. change (match i with 0%nat => 1 | S _ => INR i + 1 end) with (INR (S i)). generalize (INR (S i)). intros v. match goal with |- @eq _ ?a ?b => change (@eq R a b) end. ring. }
        unfold plus, zero. cbn -[rsum INR]. ring.
Qed.
Lemma poly_continuous d f x : polynomial d f -> continuous f x.
Proof. intros P. destruct (poly_derive d f P) as (f' & _ & D). apply (@ex_derive_continuous R_AbsRing R_NormedModule). exists (f' x). apply D. Qed.
Lemma ftc d (f f' : R -> R) a b : polynomial d f' -> (forall x, is_derive f x (f' x)) -> is_RInt f' a b (f b - f a).
Proof. intros P D. apply (is_RInt_derive f f'); [intros; apply D|intros; apply (poly_continuous d), P]. Qed.
Lemma poly_product d e f g : polynomial d f -> polynomial e g -> polynomial (d + e) (fun x => f x * g x).
Proof. exact (poly_mult 1 1 (conj (le_n 1) (le_n 1)) d e f g). Qed.
(** integration by parts under a rule that is exact for both products *)
Lemma by_parts (I : (R -> R) -> R) a b D p (phi phi' f f' : R -> R) :
  (forall g, polynomial D g -> is_RInt g a b (I g)) -> (2 * p - 1 <= D)%nat ->
  polynomial p phi -> polynomial (p - 1) phi' -> (forall x, is_derive phi x (phi' x)) ->
  polynomial p f -> polynomial (p - 1) f' -> (forall x, is_derive f x (f' x)) ->
  I (fun x => phi x * f' x) = - (I (fun x => phi' x * f x) + phi a * f a - phi b * f b).
Proof.
  intros E L P P' DP Q Q' DQ.
  assert (A : polynomial D (fun x => phi x * f' x)) by (apply (poly_mono (p + (p - 1))); [lia|apply poly_product; assumption]).
  assert (B : polynomial D (fun x => phi' x * f x)) by (apply (poly_mono (p - 1 + p)); [lia|apply poly_product; assumption]).
  assert (S : is_RInt (fun x => phi x * f' x + phi' x * f x) a b (phi b * f b - phi a * f a)).
  { apply (ftc D (fun x => phi x * f x)); [apply poly_plus; assumption|]. intros x.
    evar_last; [apply @is_derive_mult; [apply DP|apply DQ|intros; apply Rmult_comm]|]. unfold plus, mult. cbn. ring. }
  assert (T : is_RInt (fun x => phi x * f' x + phi' x * f x) a b (I (fun x => phi x * f' x) + I (fun x => phi' x * f x))).
  { apply (is_RInt_plus (fun x => phi x * f' x) (fun x => phi' x * f x)); apply E; assumption. }
  apply (@is_RInt_unique R_CompleteNormedModule) in S. apply (@is_RInt_unique R_CompleteNormedModule) in T. rewrite S in T. lra.
Qed.
(** the rule of an integrator *)
Lemma rule_linear i (n : nat) (f : nat -> R -> R) : integrate i (fun x => rsum n (fun j => f j x)) = rsum n (fun j => integrate i (f j)).
Proof.
  assert (S : forall g, integrate i g = quadr g (combine (global_points i) (global_weights i))).
  { intros g. unfold integrate. destruct (combine _ _) as [|[x w] rest]; [reflexivity|]. cbn [quadr map fold_right fst snd].
    assert (F : forall l s, fold_left (fun value pw => value + snd pw * g (fst pw)) l s = s + quadr g l).
    { induction l as [|q l IH]; intros s; cbn [fold_left]; [unfold quadr; cbn; ring|]. rewrite IH. unfold quadr. cbn [map fold_right]. ring. }
    rewrite F. unfold quadr. cbn [map fold_right fst snd]. ring. }
  rewrite S. rewrite (rsum_ext n _ (fun j => quadr (f j) (combine (global_points i) (global_weights i)))) by (intros; apply S).
  apply (quadr_sum f n).
Qed.
(** a polynomial whose square has integral zero is zero *)
Lemma square_zero p f : polynomial p f -> is_RInt (fun y => f y * f y) (-1) 1 0 -> forall y, f y = 0.
Proof.
  intros Pf Z y. destruct (poly_spanned 0 p f Pf) as (a & A).
  assert (S : is_RInt (fun y => f y * f y) (-1) 1 (rsum (S p) (fun j => a j * a j * (2 / (2 * INR j + 1))))).
  { apply (is_RInt_ext (fun y => rsum (S p) (fun j => rsum (S p) (fun k => scal (a j * a k) (P j y * P k y))))).
    - intros t _. rewrite A. rewrite <- rsum_mul_r. apply rsum_ext. intros j _. rewrite <- rsum_mul_l. apply rsum_ext. intros k _. unfold scal. cbn. unfold mult. cbn. ring.
    - apply (is_RInt_val' _ _ _ (rsum (S p) (fun j => rsum (S p) (fun k => scal (a j * a k) (if (j =? k)%nat then 2 / (2 * INR k + 1) else 0))))).
      + apply int_sum. intros j _. apply int_sum. intros k _. apply (is_RInt_scal (fun y => P j y * P k y)). apply (P_pair 0).
      + apply rsum_ext. intros j Hj. rewrite (rsum_single (S p) j); [|exact Hj|].
        * rewrite Nat.eqb_refl. unfold scal. cbn. unfold mult. cbn. ring.
        * intros k _ Ne. destruct (Nat.eqb_spec j k); [congruence|]. unfold scal. cbn. unfold mult. cbn. ring. }
  apply (@is_RInt_unique R_CompleteNormedModule) in S. apply (@is_RInt_unique R_CompleteNormedModule) in Z. rewrite Z in S.
  assert (Q : forall n, 0 = rsum n (fun j => a j * a j * (2 / (2 * INR j + 1))) -> forall j, (j < n)%nat -> a j = 0).
  { assert (Pos : forall j, 0 < 2 / (2 * INR j + 1)) by (intros j; pose proof (pos_INR j); apply Rdiv_lt_0_compat; lra).
    assert (NN : forall n, 0 <= rsum n (fun j => a j * a j * (2 / (2 * INR j + 1)))).
    { induction n as [|n IH]; cbn [rsum]; [lra|]. pose proof (Pos n). pose proof (Rle_0_sqr (a n)) as Q. unfold Rsqr in Q.
      pose proof (Rmult_le_pos _ _ Q (Rlt_le _ _ (Pos n))). lra. }
    induction n as [|n IH]; intros E j Hj; [lia|]. cbn [rsum] in E. pose proof (NN n). pose proof (Pos n). pose proof (Rle_0_sqr (a n)) as Q. unfold Rsqr in Q.
    pose proof (Rmult_le_pos _ _ Q (Rlt_le _ _ (Pos n))).
    assert (E1 : a n * a n * (2 / (2 * INR n + 1)) = 0) by lra. assert (E2 : 0 = rsum n (fun j => a j * a j * (2 / (2 * INR j + 1)))) by lra.
    destruct (Nat.eq_dec j n) as [->|]; [|apply IH; [exact E2|lia]].
    apply Rmult_integral in E1. destruct E1 as [E1|E1]; [|lra]. apply Rmult_integral in E1. destruct E1; assumption. }
  rewrite A. apply rsum_zero. intros j Hj. rewrite (Q (Datatypes.S p) S j Hj). ring.
Qed.

(** ** Lagrange expansions *)
Section Nodal.
  Variables (ps ws roots : list R) (inv : nat -> (nat -> nat -> R) -> option (nat -> nat -> R)) (gauss : bool) (degree : nat) (c : Coordinate).
  Hypothesis (X : x_left c <> x_right c) (V : inverts inv).
  Let n := (degree + 1)%nat.
  Let J := (x_right c - x_left c) / 2.
  Let m := (x_left c + x_right c) / 2.
  Notation nodal := (nodal ps ws roots inv gauss degree c).
  Variable (e : Lagrange).
  Hypothesis (F : nodal e).
  Notation dphi := (fun k j x => g_basis_derivatives e x k j).
  Lemma basis_poly j : polynomial degree (fun x => g_basis_derivatives e x 0 j).
  Proof.
    apply (poly_ext _ (fun x => (fun y => rsum n (fun i => g_inverse e i j * y ^ i)) (- m + x * 1))).
    - intros x. unfold g_basis_derivatives, basis_derivatives, row_dot. rewrite (center_m ps ws roots inv gauss degree c e F), (proj1 F).
      apply rsum_ext. intros i _. rewrite derivatives_0. unfold taylor_values. rewrite x_power_is. fold m. replace (- m + x * 1) with (x - m) by ring. ring.
    - apply (poly_affine 0 degree (fun y => rsum n (fun i => g_inverse e i j * y ^ i)) (- m) 1).
      exists (fun i => g_inverse e i j). intros y. unfold poly1, n. rewrite Nat.add_1_r. reflexivity.
  Qed.
  Lemma basis_derive' k j x : is_derive (fun x => g_basis_derivatives e x k j) x (g_basis_derivatives e x (S k) j).
  Proof. apply g_basis_derive. Qed.
  Lemma basis_poly' j : polynomial (degree - 1) (fun x => g_basis_derivatives e x 1 j).
  Proof.
    destruct (poly_derive _ _ (basis_poly j)) as (f' & Pf & D). apply (poly_ext _ f'); [|exact Pf].
    intros x. rewrite <- (is_derive_unique _ _ _ (D x)). apply is_derive_unique, basis_derive'.
  Qed.
  Lemma basis_one x : rsum n (fun j => g_basis_derivatives e x 0 j) = 1.
  Proof.
    pose proof (nodal_reproduces ps ws roots inv gauss degree c X V e (fun _ => 1) F (poly_const _ 1) x) as H.
    rewrite (g_value_is ps ws roots inv gauss degree c X V (g_approximate e (fun _ => 1)) F) in H by (apply (set_values_represents ps ws roots inv gauss degree c e _ F)).
    rewrite <- H. apply rsum_ext. intros j Hj. rewrite (g_basis_row ps ws roots inv gauss degree c X V e F x j Hj). unfold g_approximate, g_set_values, g_update, g_update_average. cbn [g_values]. ring.
  Qed.
  Lemma basis_zero x : rsum n (fun j => g_basis_derivatives e x 1 j) = 0.
  Proof.
    assert (D : is_derive (fun x => rsum n (fun j => g_basis_derivatives e x 0 j)) x (rsum n (fun j => g_basis_derivatives e x 1 j))).
    { apply (sum_derive (fun j x => g_basis_derivatives e x 0 j) (fun j x => g_basis_derivatives e x 1 j)). intros j _. apply basis_derive'. }
    assert (Z : is_derive (fun x => rsum n (fun j => g_basis_derivatives e x 0 j)) x 0).
    { apply (is_derive_ext (fun _ => 1)); [intros t; symmetry; apply basis_one|]. auto_derive; reflexivity. }
    apply is_derive_unique in D. apply is_derive_unique in Z. rewrite Z in D. symmetry. exact D.
  Qed.
  Lemma nodal_exact D g : integrates D ps ws -> polynomial D g -> is_RInt g (x_left c) (x_right c) (integrate (g_integrator e) g).
  Proof.
    intros Q Pg. rewrite (g_rule ps ws roots inv gauss degree c e F) by apply Q.
    apply (is_RInt_ext (fun x => g (local_to_global c (xi c x)))).
    - intros x _. f_equal. rewrite map_is. unfold xi. fold m J. field. unfold J. lra.
    - apply (to_element c X (fun y => g (local_to_global c y))). apply (rule_poly D ps ws D); [exact Q|lia|].
      apply (poly_ext _ (fun y => g (m + y * J))); [intros y; rewrite map_is; reflexivity|]. apply (poly_affine 0 D g m J Pg).
  Qed.
  Lemma weight_is k : length ps = length ws -> g_weight e k = nth k ws 0 * J.
  Proof.
    intros Q. assert (I : Integrator_init c ps ws = Some (g_integrator e)) by apply F.
    assert (LP : (1 <= length ps)%nat) by (unfold Integrator_init in I; destruct ps; [discriminate|cbn; lia]).
    unfold g_weight. destruct (init_is c ps ws Q LP) as (i0 & E & _ & _ & GW & _).
    rewrite I in E. injection E as <-. rewrite GW. replace 0 with (0 * J) at 1 by ring. apply (map_nth (fun w => w * J)).
  Qed.
  Lemma index_is f : length ps = length ws -> integrate_index (g_integrator e) f = rsum (length ps) (fun k => g_weight e k * f k).
  Proof.
    intros Q. assert (I : Integrator_init c ps ws = Some (g_integrator e)) by apply F. unfold integrate_index.
    assert (LG : length (global_points (g_integrator e)) = length ps).
    { unfold Integrator_init in I. destruct ps as [|p l]; [discriminate|]. injection I as <-. cbn [global_points length]. f_equal. apply map_length. }
    assert (LP : (1 <= length ps)%nat) by (unfold Integrator_init in I; destruct ps; [discriminate|cbn; lia]).
    rewrite LG. apply (seq_sum 0 (fun k => g_weight e k * f k)). exact LP.
  Qed.
  (** at the sample points *)
  Lemma rule_nodes f : length ps = length ws -> ps = roots -> integrate (g_integrator e) f = rsum n (fun k => g_weight e k * f (g_points e k)).
  Proof.
    intros Q E. rewrite (g_rule ps ws roots inv gauss degree c e F) by exact Q. rewrite quadr_rsum by exact Q. rewrite E, (roots_length ps ws roots inv gauss degree c e F).
    rewrite <- rsum_mul_l. apply rsum_ext. intros k _. rewrite weight_is by exact Q. assert (PT : g_points e = fun k => local_to_global c (nth k roots 0)) by apply F.
    rewrite PT. unfold J. ring.
  Qed.
  (** what is represented by given values *)
  Lemma set_value r e' : g_set_coeff e n r = Some e' -> forall x, g_value e' x = rsum n (fun j => r j * g_basis_derivatives e x 0 j).
  Proof.
    intros E x. unfold g_set_coeff in E. destruct (_ =? _)%nat; [|discriminate]. injection E as <-.
    rewrite (g_value_is ps ws roots inv gauss degree c X V (g_set_values e r) F) by (apply (set_values_represents ps ws roots inv gauss degree c e r F)).
    apply rsum_ext. intros j Hj. rewrite (g_basis_row ps ws roots inv gauss degree c X V e F x j Hj). reflexivity.
  Qed.
  Lemma values_reproduce f x : polynomial degree f -> rsum n (fun j => f (g_points e j) * g_basis_derivatives e x 0 j) = f x.
  Proof.
    intros Pf. rewrite <- (nodal_reproduces ps ws roots inv gauss degree c X V e f F Pf x).
    rewrite (g_value_is ps ws roots inv gauss degree c X V (g_approximate e f) F) by (apply (set_values_represents ps ws roots inv gauss degree c e _ F)).
    apply rsum_ext. intros j Hj. rewrite (g_basis_row ps ws roots inv gauss degree c X V e F x j Hj). reflexivity.
  Qed.
  Lemma cardinal i j : (i < n)%nat -> (j < n)%nat -> g_basis_derivatives e (g_points e i) 0 j = if (j =? i)%nat then 1 else 0.
  Proof.
    intros Hi Hj. rewrite (g_basis_row ps ws roots inv gauss degree c X V e F _ j Hj). assert (PT : g_points e = fun k => local_to_global c (nth k roots 0)) by apply F.
    rewrite PT, (xi_point roots c X i). apply (ell_cardinal roots (roots_distinct ps ws roots inv gauss degree c V e F)); rewrite (roots_length ps ws roots inv gauss degree c e F); assumption.
  Qed.
  (** weights of Gauss rules are not zero *)
  Lemma gauss_weight k : integrates (2 * degree) ps ws -> ps = roots -> (k < n)%nat -> nth k ws 0 <> 0.
  Proof.
    intros Q E Hk Z. pose proof (roots_length ps ws roots inv gauss degree c e F) as L. fold n in L.
    assert (Pl : polynomial degree (ell roots k)) by (replace degree with (length roots - 1)%nat by (rewrite L; unfold n; lia); apply ell_poly; rewrite L; exact Hk).
    assert (I : is_RInt (fun y => ell roots k y * ell roots k y) (-1) 1 0).
    { apply (is_RInt_val' _ _ _ (quadr (fun y => ell roots k y * ell roots k y) (combine ps ws))).
      - apply (rule_poly (2 * degree) ps ws (degree + degree)); [exact Q|lia|]. apply poly_product; exact Pl.
      - rewrite quadr_rsum by apply Q. rewrite E, L. apply rsum_zero. intros i Hi.
        rewrite (ell_cardinal roots (roots_distinct ps ws roots inv gauss degree c V e F)) by (rewrite L; assumption).
        destruct (Nat.eqb_spec k i) as [<-|]; [rewrite Z|]; ring. }
    pose proof (square_zero degree _ Pl I (nth k roots 0)) as W.
    rewrite (ell_cardinal roots (roots_distinct ps ws roots inv gauss degree c V e F)), Nat.eqb_refl in W by (rewrite L; exact Hk). lra.
  Qed.
End Nodal.
