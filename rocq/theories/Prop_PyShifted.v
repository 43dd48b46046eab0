(** C175: shifted expansions of the Python package *)
From Coq Require Import Reals List Arith Lra Lia.
From Coquelicot Require Import Coquelicot.
From Verif Require Import Arrays RSum Model_PyEuler Model_PyPoly Spec_PyPoly Proof_PyPoly Proof_PyCorrect Model_PyIntegrator Proof_PyIntegrator Model_PyExpansion Spec_PyExpansion Proof_PyExpansion Prop_PyExpansion Model_PyShifted.
Import ListNotations.
Open Scope R_scope.

Lemma frame_points roots inv degree c e : gauss roots (degree + 1) -> frame roots inv degree c e -> length (global_points (l_integrator e)) = (degree + 1)%nat.
Proof.
  intros (L & Q & _) (_ & _ & I & _). destruct (Proof_PyIntegrator.init_is c (fst (roots (degree + 1)%nat)) (snd (roots (degree + 1)%nat)) Q ltac:(lia)) as (i & E & _ & P & _). rewrite I in E. injection E as <-. rewrite P, map_length. exact L.
Qed.
Lemma shift_derive (f : R -> R) (s x l : R) : is_derive f (x - s) l -> is_derive (fun x => f (x - s)) x l.
Proof. intros D. evar_last; [apply (is_derive_comp f (fun x => x - s) x l 1 D); auto_derive; [trivial|ring]|]. unfold scal. cbn. unfold mult. cbn. ring. Qed.
(** a shifted expansion is the function moved to the right: values, derivatives, averages, integrals and boundary values *)
Theorem py_shifted roots inv degree c e s : x_left c <> x_right c -> inverts inv -> gauss roots (degree + 1) -> ready roots inv degree c e ->
  exists w, Shifted_init roots e s = Some w /\ sh_n w = (degree + 1)%nat /\
    x_left (sh_coordinate w) = x_left c + s /\ x_right (sh_coordinate w) = x_right c + s /\ x_center (sh_coordinate w) = x_center c + s /\
    (forall x, sh_value w (x + s) = l_value e x) /\
    (exists d, derivatives_of (sh_value w) d /\ (forall x, sh_gradient w x = d 1%nat x) /\ (forall k x, (k <= degree)%nat -> sh_derivatives w x k = Some (d k x)) /\
       (forall k, rsum (degree + 1) (fun j => sh_coeff w j * sh_boundary_basis w k true j) = d k (x_left (sh_coordinate w)) /\
                  rsum (degree + 1) (fun j => sh_coeff w j * sh_boundary_basis w k false j) = d k (x_right (sh_coordinate w)))) /\
    mean (x_left (sh_coordinate w)) (x_right (sh_coordinate w)) (sh_value w) (sh_average w) /\
    (forall f, integrate (sh_integrator w) f = integrate (l_integrator e) (fun x => f (x + s))).
Proof.
  intros X V G Rd. assert (F := proj2 (made_frame roots inv degree c X) e Rd). destruct (py_legendre_values roots inv degree c e X V Rd) as (_ & (d & (D0 & DS) & Gr & Dk & Bd) & Me & _).
  unfold Shifted_init. rewrite (frame_points roots inv degree c e G F). destruct (frame_parts _ _ _ _ _ F) as (C & _). rewrite C. destruct G as (L & Q & G2).
  destruct (Proof_PyIntegrator.init_is (Shifted c s) (fst (roots (degree + 1)%nat)) (snd (roots (degree + 1)%nat)) Q ltac:(lia)) as (i & -> & Ci & _ & _ & I). cbn [bind]. eexists. split; [reflexivity|].
  unfold sh_n, sh_coordinate, sh_value, sh_gradient, sh_derivatives, sh_coeff, sh_boundary_basis, sh_average. cbn [sh_expansion sh_shift sh_integrator]. rewrite Ci. cbn [x_left x_right x_center]. assert (N := proj1 F).
  split; [exact N|]. split; [reflexivity|]. split; [reflexivity|]. split; [reflexivity|]. split; [intros x; f_equal; ring|]. split; [|split].
  - exists (fun k x => d k (x - s)). split; [split|split; [|split]].
    + intros x. apply D0.
    + intros k x. apply (shift_derive (d k)). apply DS.
    + intros x. apply Gr.
    + intros k x K. apply Dk, K.
    + intros k. replace (x_left c + s - s) with (x_left c) by ring. replace (x_right c + s - s) with (x_right c) by ring. destruct (Bd k) as (<- & <-). unfold l_boundary, dot. rewrite N. split; reflexivity.
  - unfold mean in *. replace ((x_right c + s - (x_left c + s)) * l_average e) with ((x_right c - x_left c) * l_average e) by ring.
    apply (@is_RInt_ext R_NormedModule (fun x => scal 1 (l_value e (1 * x + - s)))); [intros x _; unfold scal; cbn; unfold mult; cbn; rewrite Rmult_1_l; f_equal; ring|].
    apply (@is_RInt_comp_lin R_NormedModule (l_value e) 1 (- s) (x_left c + s) (x_right c + s)). replace (1 * (x_left c + s) + - s) with (x_left c) by ring. replace (1 * (x_right c + s) + - s) with (x_right c) by ring. exact Me.
  - intros f. rewrite I. cbn [x_left x_right]. rewrite (rule_is roots inv degree c (conj L (conj Q G2)) e _ F), <- (quad_combine degree _ _ _ Q). replace (x_right c + s - (x_left c + s)) with (x_right c - x_left c) by ring. f_equal.
Qed.
Print Assumptions py_shifted.
(** the shifted expansion of a function has the coefficients and the values of the expansion of the shifted function, for all functions *)
Theorem py_shifted_consistent roots inv degree c c' e e' s : x_left c <> x_right c -> inverts inv -> gauss roots (degree + 1) ->
  x_left c' = x_left c + s -> x_right c' = x_right c + s -> made roots inv degree c e -> made roots inv degree c' e' ->
  forall f, exists e1 e2 w, l_approximate e f = Some e1 /\ Shifted_init roots e1 s = Some w /\ l_approximate e' (fun x => f (x - s)) = Some e2 /\
    (forall k, sh_coeff w k = l_modes e2 k) /\ (forall x, sh_value w x = l_value e2 x) /\ (forall x, exists v, sh_basis_values w x = Some v /\ l_basis_values e' x = Some v) /\
    (forall x k j, (j <= degree)%nat -> sh_basis_derivatives w x k j = l_basis_derivatives e' x k j) /\
    (forall x j, (j <= degree)%nat -> sh_basis_gradients w x j = l_basis_derivatives e' x 1 j /\ sh_basis_hessians w x j = l_basis_derivatives e' x 2 j).
Proof.
  intros X V G El Er M M' f. assert (X' : x_left c' <> x_right c') by lra. assert (F := proj1 (made_frame roots inv degree c X) e M). assert (F' := proj1 (made_frame roots inv degree c' X') e' M').
  destruct (approximate_frame roots inv degree c X e f F) as (e1 & E1 & F1 & R1 & M1). destruct (approximate_frame roots inv degree c' X' e' (fun x => f (x - s)) F') as (e2 & E2 & F2 & R2 & M2).
  assert (Rd1 : ready roots inv degree c e1) by (econstructor 3; eassumption). destruct (py_shifted roots inv degree c e1 s X V G Rd1) as (w & W & _). exists e1, e2, w. split; [exact E1|]. split; [exact W|]. split; [exact E2|].
  assert (We : sh_expansion w = e1 /\ sh_shift w = s) by (unfold Shifted_init in W; destruct (Integrator_init _ _ _); [|discriminate]; cbn [bind] in W; injection W as <-; split; reflexivity). destruct We as (We & Ws).
  assert (J0 : (x_right c - x_left c) / 2 <> 0) by lra. assert (Jj : (x_right c' - x_left c') / 2 = (x_right c - x_left c) / 2) by lra.
  assert (Xi : forall x, xi c' x = xi c (x - s)) by (intros x; unfold xi; rewrite El, Er; f_equal; lra).
  assert (Mo : forall k, l_modes e1 k = l_modes e2 k).
  { intros k. rewrite M1, M2. rewrite (rule_is roots inv degree c G e _ F), (rule_is roots inv degree c' G e' _ F'). unfold l_weight. destruct (frame_parts _ _ _ _ _ F) as (_ & _ & -> & _). destruct (frame_parts _ _ _ _ _ F') as (_ & _ & -> & _). rewrite Jj. f_equal. f_equal. apply quadr_ext. intros y.
    rewrite Xi. replace (local_to_global c' y - s) with (local_to_global c y) by (rewrite !map_is, El, Er; field). reflexivity. }
  unfold sh_coeff, sh_value, sh_basis_values, sh_basis_gradients, sh_basis_hessians, sh_basis_derivatives. rewrite We, Ws. split; [exact Mo|].
  assert (Dr : forall x k j, (j <= degree)%nat -> l_basis_derivatives e1 (x - s) k j = l_basis_derivatives e' x k j).
  { intros x k j Hj. unfold l_basis_derivatives. destruct (frame_parts _ _ _ _ _ F1) as (_ & -> & _ & ->). destruct (frame_parts _ _ _ _ _ F') as (_ & -> & _ & ->). rewrite (proj1 F1), (proj1 F'), Jj. unfold row_dot. apply rsum_ext. intros l _. f_equal. rewrite !derivatives_is. replace (x - (x_left c' + x_right c') / 2) with (x - s - (x_left c + x_right c) / 2) by (rewrite El, Er; field). reflexivity. }
  split; [|split; [|split]].
  - intros x. rewrite (value_modes roots inv degree c X e1 _ F1 R1), (value_modes roots inv degree c' X' e2 _ F2 R2). apply rsum_ext. intros j _. rewrite Mo, Xi. reflexivity.
  - intros x. eexists. rewrite (values_are roots inv degree c X e1 _ F1), (values_are roots inv degree c' X' e' _ F'). split; [reflexivity|]. rewrite Xi. reflexivity.
  - exact Dr.
  - intros x j Hj. rewrite basis_first, basis_second. split; apply Dr, Hj.
Qed.
Print Assumptions py_shifted_consistent.
(** what would change the given expansion is refused *)
Theorem py_shifted_banned w : (forall f, sh_approximate w f = None) /\ (forall n a, sh_set_coeff w n a = None).
Proof. split; reflexivity. Qed.
Print Assumptions py_shifted_banned.

(** the line [3 x + 2] on [1, 5], moved by 10 *)
Example py_shifted_example : exists e w, ready two_roots inv2 1 (Linear 1 5) e /\ Shifted_init two_roots e 10 = Some w /\
  sh_value w 14 = 14 /\ sh_average w = 11 /\ x_left (sh_coordinate w) = 11 /\ x_right (sh_coordinate w) = 15 /\ integrate (sh_integrator w) (fun x => x) = 52.
Proof.
  destruct py_legendre_example as (X & V & G & e0 & e & _ & _ & Rd & V4 & Av & _). destruct (py_shifted two_roots inv2 1 (Linear 1 5) e 10 X V G Rd) as (w & W & _ & Wl & Wr & _ & Wv & _ & _ & Wi). exists e, w.
  split; [exact Rd|]. split; [exact W|]. split; [replace 14 with (4 + 10) at 1 by lra; rewrite Wv; exact V4|]. split.
  { unfold Shifted_init in W. destruct (Integrator_init _ _ _); [|discriminate]. cbn [bind] in W. injection W as <-. exact Av. }
  rewrite Wl, Wr. cbn [x_left x_right]. split; [lra|]. split; [lra|]. rewrite Wi. assert (F := proj2 (made_frame two_roots inv2 1 (Linear 1 5) X) e Rd). rewrite (rule_is two_roots inv2 1 (Linear 1 5) G e _ F).
  unfold quadr. cbn [two_roots fst snd combine map fold_right Nat.add]. rewrite !map_is. cbn [x_left x_right]. set (q := sqrt (1 / 3)). lra.
Qed.
