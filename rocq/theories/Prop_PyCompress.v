(** C174: the limiter by compression of the Python package *)
From Coq Require Import Reals List Arith Lra Lia String.
From Coquelicot Require Import Coquelicot.
From Verif Require Import Arrays RSum Model_PyEuler Model_PyIntegrator Proof_PyIntegrator Model_PyPoly Spec_PyPoly Proof_PyPoly Proof_PyCorrect Model_PyExpansion Spec_PyExpansion Proof_PyExpansion Prop_PyExpansion Model_PyCompress.
Import ListNotations.
Open Scope R_scope.

Lemma tanh_bound x : -1 < tanh x < 1.
Proof.
  unfold tanh, sinh, cosh. pose proof (exp_pos x) as P. pose proof (exp_pos (- x)) as Q. assert (D : 0 < (exp x + exp (- x)) / 2) by lra. split; apply (Rmult_lt_reg_r ((exp x + exp (- x)) / 2)); try exact D;
  (replace ((exp x - exp (- x)) / 2 / ((exp x + exp (- x)) / 2) * ((exp x + exp (- x)) / 2)) with ((exp x - exp (- x)) / 2) by (field; lra)); lra.
Qed.
Lemma max_spec l : forall c, c <= u_max c l /\ (forall a, In (Some a) l -> a <= u_max c l) /\ (u_max c l = c \/ In (Some (u_max c l)) l).
Proof.
  unfold u_max. induction l as [|b l IH]; intros c; cbn [fold_left]; [split; [lra|split; [intros a []|left; reflexivity]]|].
  destruct b as [b|]; [destruct (IH (Rmax c b)) as (A & B & C)|destruct (IH c) as (A & B & C)].
  - pose proof (Rmax_l c b). pose proof (Rmax_r c b). split; [lra|]. split; [intros a [E|H']; [injection E as ->; lra|apply B, H']|]. destruct C as [C|C]; [|right; right; exact C]. rewrite C. unfold Rmax. destruct (Rle_dec c b); [right; left; reflexivity|left; reflexivity].
  - split; [lra|]. split; [intros a [E|H']; [discriminate|apply B, H']|]. destruct C as [C|C]; [left; exact C|right; right; exact C].
Qed.
Lemma min_spec l : forall c, u_min c l <= c /\ (forall a, In (Some a) l -> u_min c l <= a) /\ (u_min c l = c \/ In (Some (u_min c l)) l).
Proof.
  unfold u_min. induction l as [|b l IH]; intros c; cbn [fold_left]; [split; [lra|split; [intros a []|left; reflexivity]]|].
  destruct b as [b|]; [destruct (IH (Rmin c b)) as (A & B & C)|destruct (IH c) as (A & B & C)].
  - pose proof (Rmin_l c b). pose proof (Rmin_r c b). split; [lra|]. split; [intros a [E|H']; [injection E as ->; lra|apply B, H']|]. destruct C as [C|C]; [|right; right; exact C]. rewrite C. unfold Rmin. destruct (Rle_dec c b); [left; reflexivity|right; left; reflexivity].
  - split; [lra|]. split; [intros a [E|H']; [discriminate|apply B, H']|]. destruct C as [C|C]; [left; exact C|right; right; exact C].
Qed.
(** the compressed function lies between the least and the greatest of the averages *)
Theorem py_compressed alpha value c neighbors m lo hi : 0 <= alpha <= 1 -> (forall a, In (Some a) neighbors -> lo <= a <= hi) -> lo <= c <= hi -> big_a alpha c neighbors <> 0 ->
  forall x, lo <= compressed value c (big_a alpha c neighbors) m x <= hi.
Proof.
  intros A N C Nz x. destruct (max_spec neighbors c) as (M1 & _ & M2). destruct (min_spec neighbors c) as (L1 & _ & L2).
  assert (Hi : u_max c neighbors <= hi) by (destruct M2 as [->|M2]; [lra|apply (N _ M2)]). assert (Lo : lo <= u_min c neighbors) by (destruct L2 as [->|L2]; [lra|apply (N _ L2)]).
  pose proof (Rmin_l (u_max c neighbors - c) (c - u_min c neighbors)) as R1. pose proof (Rmin_r (u_max c neighbors - c) (c - u_min c neighbors)) as R2. assert (R0 : 0 <= Rmin (u_max c neighbors - c) (c - u_min c neighbors)) by (apply Rmin_glb; lra).
  set (r := Rmin _ _) in *. assert (B : big_a alpha c neighbors = alpha * r) by reflexivity. set (g := big_a alpha c neighbors) in *. assert (G : 0 <= g <= r) by (rewrite B; nra).
  unfold compressed. pose proof (tanh_bound ((value x - c) / g)) as T. fold (monotone value c g x) in T. set (t := monotone value c g x) in *. clearbody t g r.
  assert (D : 0 < 1 + Rabs m) by (pose proof (Rabs_pos m); lra). assert (Q : -1 <= (t - m) / (1 + Rabs m) <= 1).
  { pose proof (Rle_abs m). pose proof (Rle_abs (- m)) as H'. rewrite Rabs_Ropp in H'. split; apply (Rmult_le_reg_r (1 + Rabs m)); try exact D; (replace ((t - m) / (1 + Rabs m) * (1 + Rabs m)) with (t - m) by (field; lra)); lra. }
  replace ((t - m) * g / (1 + Rabs m)) with ((t - m) / (1 + Rabs m) * g) by (field; lra). set (q := (t - m) / (1 + Rabs m)) in *. clearbody q. split; nra.
Qed.
Print Assumptions py_compressed.
Lemma tanh_increasing x y : x < y -> tanh x < tanh y.
Proof.
  intros H. unfold tanh, sinh, cosh. assert (A := exp_increasing _ _ H). assert (B : exp (- y) < exp (- x)) by (apply exp_increasing; lra). pose proof (exp_pos x) as P1. pose proof (exp_pos (- x)) as P2. pose proof (exp_pos y) as P3. pose proof (exp_pos (- y)) as P4.
  set (a := exp x) in *. set (b := exp (- x)) in *. set (u := exp y) in *. set (v := exp (- y)) in *. clearbody a b u v. apply (Rmult_lt_reg_r ((a + b) / 2 * ((u + v) / 2))); [nra|].
  replace ((a - b) / 2 / ((a + b) / 2) * ((a + b) / 2 * ((u + v) / 2))) with ((a - b) / 2 * ((u + v) / 2)) by (field; lra). replace ((u - v) / 2 / ((u + v) / 2) * ((a + b) / 2 * ((u + v) / 2))) with ((u - v) / 2 * ((a + b) / 2)) by (field; lra). nra.
Qed.
(** compression keeps the order of values, changes nothing at the average if the average of the compressed deviations is zero, and is odd about it *)
Theorem py_compressed_shape value c g m : 0 < g ->
  (forall x y, value x < value y <-> compressed value c g m x < compressed value c g m y) /\
  (forall x, value x = c -> compressed value c g 0 x = c) /\
  (forall x y, value x - c = c - value y -> compressed value c g 0 x - c = c - compressed value c g 0 y).
Proof.
  intros G. assert (D : 0 < 1 + Rabs m) by (pose proof (Rabs_pos m); lra). assert (L : forall x y, value x < value y -> compressed value c g m x < compressed value c g m y).
  { intros x y H. unfold compressed, monotone. assert (T : tanh ((value x - c) / g) < tanh ((value y - c) / g)) by (apply tanh_increasing, Rmult_lt_compat_r; [apply Rinv_0_lt_compat, G|lra]). apply Rplus_lt_compat_l. apply Rmult_lt_compat_r; [apply Rinv_0_lt_compat, D|]. apply Rmult_lt_compat_r; [exact G|lra]. }
  split; [|split].
  - intros x y. split; [apply L|]. intros H. destruct (Rtotal_order (value x) (value y)) as [K|[K|K]]; [exact K| |apply L in K; lra]. unfold compressed, monotone in H. rewrite K in H. lra.
  - intros x E. unfold compressed, monotone. rewrite E. replace ((c - c) / g) with 0 by (field; lra). rewrite Rabs_R0. unfold tanh. rewrite sinh_0. field. rewrite cosh_0. lra.
  - intros x y E. unfold compressed, monotone. rewrite Rabs_R0. replace ((value y - c) / g) with (- ((value x - c) / g)) by (rewrite E; field; lra). set (t := (value x - c) / g). unfold tanh, sinh, cosh. rewrite Ropp_involutive. pose proof (exp_pos t). pose proof (exp_pos (- t)). field. lra.
Qed.
Print Assumptions py_compressed_shape.

Section Average.
  Variables (roots : nat -> list R * list R) (inv : nat -> (nat -> nat -> R) -> option (nat -> nat -> R)) (degree : nat) (c : Coordinate) (e : Legendre).
  Hypotheses (X : x_left c <> x_right c) (G : gauss roots (degree + 1)) (F : frame roots inv degree c e).
  Let J := (x_right c - x_left c) / 2.
  Lemma sum_affine f a b : forall l, quadr (fun y => a + b * f y) l = a * quadr (fun _ => 1) l + b * quadr f l.
  Proof. unfold quadr. induction l as [|q l IH]; cbn [map fold_right]; [ring|]. rewrite IH. ring. Qed.
  Lemma integrate_affine f a b : integrate (l_integrator e) (fun x => a + b * f x) = a * (2 * J) + b * integrate (l_integrator e) f.
  Proof.
    rewrite !(rule_is roots inv degree c G e _ F). rewrite (sum_affine (fun y => f (local_to_global c y))). fold J.
    replace (quadr (fun _ => 1) (combine (fst (roots (degree + 1)%nat)) (snd (roots (degree + 1)%nat)))) with 2; [ring|].
    assert (U := rule_exact roots degree G 0 (fun _ => 1) ltac:(lia) (poly_const 0 1)). apply (@is_RInt_unique R_CompleteNormedModule) in U. rewrite <- U. rewrite RInt_const. unfold scal. cbn. unfold mult. cbn. ring.
  Qed.
  Lemma zeroth f : exists e', l_approximate e f = Some e' /\ l_modes e' 0%nat = integrate (l_integrator e) f / (2 * J).
  Proof.
    destruct (approximate_frame roots inv degree c X e f F) as (e' & E & _ & _ & M). exists e'. split; [exact E|]. rewrite M. f_equal.
    - f_equal. apply FunctionalExtensionality.functional_extensionality. intros x. change (eval_legendre 0 (xi c x)) with 1. ring.
    - unfold l_weight, mode_weight. destruct (frame_parts _ _ _ _ _ F) as (_ & _ & -> & _). fold J. cbn [INR]. field.
  Qed.
  Lemma constant_modes m : exists e', l_approximate e (fun _ => m) = Some e' /\ forall k, (k <= degree)%nat -> l_modes e' k = if (k =? 0)%nat then m else 0.
  Proof.
    destruct (approximate_frame roots inv degree c X e (fun _ => m) F) as (e' & E & _ & _ & M). exists e'. split; [exact E|]. intros k K. rewrite M.
    apply (modes_of roots inv degree c X G e (fun _ => m) (fun k => if (k =? 0)%nat then m else 0) F); [|lia]. intros y. rewrite (rsum_single (degree + 1) 0); [|lia|].
    - change (eval_legendre 0 y) with 1. cbn [Nat.eqb]. ring.
    - intros i _ Hi. destruct (Nat.eqb_spec i 0); [contradiction|ring].
  Qed.
  Lemma average_is f : average (l_integrator e) f = Some (integrate (l_integrator e) f / (2 * J)).
  Proof.
    unfold average, div. rewrite (proj1 (proj2 F)), length_is. replace (x_right c - x_left c) with (2 * J) by (unfold J; lra). destruct (Req_EM_T (2 * J) 0) as [Z|_]; [exfalso; unfold J in Z; lra|reflexivity].
  Qed.
  Lemma compress_average alpha neighbors : exists a, xxr_with 0 alpha e neighbors = Some a /\ a 0%nat = l_average e /\
    (big_a alpha (l_average e) neighbors = 0 -> forall k, (1 <= k <= degree)%nat -> a k = 0).
  Proof.
    unfold xxr_with. set (g := big_a _ _ _). destruct (Req_EM_T g 0) as [Z|Nz].
    - destruct (constant_modes (l_average e)) as (e' & -> & M). cbn [bind]. eexists. split; [reflexivity|]. split; [rewrite M by lia; reflexivity|]. intros _ k K. rewrite M by lia. destruct k; [lia|reflexivity].
    - unfold call_average. cbn [Nat.eqb]. rewrite average_is. cbn [bind]. set (M := integrate _ _ / _). destruct (zeroth (compressed (l_value e) (l_average e) g M)) as (e' & -> & K). cbn [bind].
      eexists. split; [reflexivity|]. split; [|intros Z; contradiction]. rewrite K. assert (D : 1 + Rabs M <> 0) by (pose proof (Rabs_pos M); lra). assert (J0 : J <> 0) by (unfold J; lra).
      replace (compressed (l_value e) (l_average e) g M) with (fun x => (l_average e - M * g / (1 + Rabs M)) + g / (1 + Rabs M) * monotone (l_value e) (l_average e) g x) by (apply FunctionalExtensionality.functional_extensionality; intros x; unfold compressed; field; exact D).
      rewrite integrate_affine. replace (integrate (l_integrator e) (monotone (l_value e) (l_average e) g)) with (M * (2 * J)) by (unfold M; field; exact J0). clearbody M g. field. split; assumption.
  Qed.
End Average.
(** with the surplus argument left out, the average is kept, and extreme cells become constant *)
Theorem py_compress_average roots inv degree c e alpha neighbors : x_left c <> x_right c -> gauss roots (degree + 1) -> ready roots inv degree c e ->
  exists a, xxr_with 0 alpha e neighbors = Some a /\ a 0%nat = l_average e /\
    (big_a alpha (l_average e) neighbors = 0 -> forall k, (1 <= k <= degree)%nat -> a k = 0).
Proof. intros X G Rd. apply (compress_average roots inv degree c e X G). apply (proj2 (made_frame roots inv degree c X)), Rd. Qed.
Print Assumptions py_compress_average.
(** as written: an extreme cell becomes constant, and for any other cell the call raises *)
Theorem py_compress_iff roots inv degree c e alpha neighbors : x_left c <> x_right c -> gauss roots (degree + 1) -> ready roots inv degree c e -> 0 < alpha ->
  (xxr_new_coeff alpha e neighbors = None <-> exists a b, In (Some a) neighbors /\ In (Some b) neighbors /\ a < l_average e < b).
Proof.
  intros X G Rd A. destruct (py_compress_average roots inv degree c e alpha neighbors X G Rd) as (a & E & _). unfold xxr_new_coeff, xxr_with in *. unfold call_average in *. cbn [Nat.eqb bind] in *. unfold big_a in *. set (u := l_average e) in *.
  destruct (max_spec neighbors u) as (M1 & M2 & M3). destruct (min_spec neighbors u) as (L1 & L2 & L3). destruct (Req_EM_T (alpha * _) 0) as [Z|Nz].
  - split; [intros N; rewrite N in E; discriminate|]. intros (x & y & Hx & Hy & O). exfalso. apply M2 in Hy. apply L2 in Hx. apply Rmult_integral in Z. destruct Z as [Z|Z]; [lra|]. revert Z. unfold Rmin. destruct (Rle_dec _ _); lra.
  - split; [intros _|reflexivity]. exists (u_min u neighbors), (u_max u neighbors). assert (u_max u neighbors <> u) by (intros K; apply Nz; rewrite K; unfold Rmin; destruct (Rle_dec _ _); [ring|replace (u - u_min u neighbors) with 0 by lra; ring]).
    assert (u_min u neighbors <> u) by (intros K; apply Nz; rewrite K; unfold Rmin; destruct (Rle_dec _ _); [replace (u_max u neighbors - u) with 0 by lra; ring|ring]). destruct M3; [contradiction|]. destruct L3; [contradiction|]. repeat split; try assumption; lra.
Qed.
Print Assumptions py_compress_iff.
(** the object cannot be made at all, whatever the parameter, unlike those of the other two limiters *)
Theorem py_compress_init : (forall alpha, xxr_init alpha = None) /\ (forall alpha : R, make (compact_methods ++ zxh_methods) alpha = Some alpha) /\ (forall alpha : R, make (compact_methods ++ lwa_methods) alpha = Some alpha).
Proof. repeat split. Qed.
Print Assumptions py_compress_init.
Theorem py_compress_refuted : exists alpha, 0 <= alpha <= 1 /\ xxr_init alpha = None.
Proof. exists 1. split; [lra|reflexivity]. Qed.
Print Assumptions py_compress_refuted.

(** the line [3 x + 2] on [1, 5] has the average 11; between 7 and 14, it becomes a compressed function, and beside 7 only, a constant *)
Example py_compress_example : exists e, ready two_roots inv2 1 (Linear 1 5) e /\ l_average e = 11 /\
  big_a 1 (l_average e) [Some 7; Some 14] = 3 /\ big_a 1 (l_average e) [Some 7; None] = 0 /\
  xxr_new_coeff 1 e [Some 7; Some 14] = None /\ (exists a, xxr_new_coeff 1 e [Some 7; None] = Some a /\ a 0%nat = 11 /\ a 1%nat = 0) /\
  (forall m x, 7 <= compressed (l_value e) 11 3 m x <= 14).
Proof.
  destruct py_legendre_example as (X & V & G & e0 & e & _ & _ & Rd & _ & Av & _). exists e. split; [exact Rd|]. split; [exact Av|].
  assert (B1 : big_a 1 11 [Some 7; Some 14] = 3) by (unfold big_a, u_max, u_min; cbn [fold_left]; rewrite (Rmax_left 11 7), (Rmax_right 11 14), (Rmin_right 11 7), (Rmin_left 7 14), Rmin_left by lra; lra).
  assert (B2 : big_a 1 11 [Some 7; None] = 0) by (unfold big_a, u_max, u_min; cbn [fold_left]; rewrite (Rmax_left 11 7), (Rmin_right 11 7), Rmin_left by lra; lra).
  rewrite Av. split; [exact B1|]. split; [exact B2|]. split; [|split].
  - apply (py_compress_iff two_roots inv2 1 (Linear 1 5) e 1 _ X G Rd); [lra|]. exists 7, 14. rewrite Av. cbn. repeat split; auto; lra.
  - destruct (py_compress_average two_roots inv2 1 (Linear 1 5) e 1 [Some 7; None] X G Rd) as (a & E & A0 & A1). exists a. rewrite Av in *. split; [|split; [exact A0|apply A1; [exact B2|lia]]].
    revert E. unfold xxr_new_coeff, xxr_with. rewrite Av, B2. destruct (Req_EM_T 0 0); [|congruence]. auto.
  - intros m x. rewrite <- B1. apply py_compressed; [lra| |lra|lra]. intros a [E|[E|[]]]; injection E as <-; lra.
Qed.
