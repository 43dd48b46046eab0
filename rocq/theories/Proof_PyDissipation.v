(** The dissipation matrices of elements for flux reconstruction. *)
From Coq Require Import Reals List Arith Bool Lra Lia FunctionalExtensionality.
From Coquelicot Require Import Coquelicot.
From Verif Require Import Arrays RSum Spec_Gauss Proof_Gauss Model_PyEuler Model_PyPoly Spec_PyPoly Proof_PyPoly Proof_PyCorrect Proof_PyLagrange.
From Verif Require Import Model_PyIntegrator Proof_PyIntegrator Model_PyExpansion Spec_PyExpansion Proof_PyExpansion Model_PyNodal Proof_PyNodal.
From Verif Require Import Prop_PyNodal Model_PyElement Spec_PyElement Proof_PyElement Proof_PyDG Model_PyFR Spec_PyFR Proof_PyFR Spec_PyDissipation.
From Verif Require Model_PyRiemann.
Import ListNotations.
Open Scope R_scope.

Section One.
  Variables (kind : Kind) (roots : nat -> list R * list R) (inv : nat -> (nat -> nat -> R) -> option (nat -> nat -> R)) (degree : nat) (c : Coordinate) (e : Lagrange).
  Hypothesis (X : x_left c <> x_right c) (V : inverts inv) (Rd : ready kind roots inv degree c e).
  Let n := (degree + 1)%nat.
  (** derivatives of the approximation in terms of the sample values *)
  Lemma derivatives_sum d : derivatives_of (g_value e) d -> forall k x, d k x = rsum n (fun j => g_values e j * g_basis_derivatives e x k j).
  Proof.
    intros (D0 & DS). destruct (py_nodal_basis kind roots inv degree c e X V (Ready _ _ _ _ _ _ Rd)) as (basis & BV & _ & BD & _).
    destruct (py_nodal_values kind roots inv degree c e X V Rd) as (VS & _).
    induction k as [|k IH]; intros x.
    - rewrite D0. destruct (BV x) as (v & Ev & _ & Nv). rewrite (VS x v Ev). apply rsum_ext. intros j Hj. rewrite Nv by (unfold n in Hj; lia).
      f_equal. symmetry. apply (proj1 (BD j ltac:(unfold n in Hj; lia))).
    - rewrite <- (is_derive_unique _ _ _ (DS k x)). apply is_derive_unique.
      apply (is_derive_ext (fun x => rsum n (fun j => g_values e j * g_basis_derivatives e x k j))); [intros t; symmetry; apply IH|].
      apply (sum_derive (fun j x => g_values e j * g_basis_derivatives e x k j) (fun j x => g_values e j * g_basis_derivatives e x (S k) j)).
      intros j _. apply (is_derive_scal (fun x => g_basis_derivatives e x k j)). apply basis_derive'.
  Qed.
  Lemma boundary_sum k left : g_boundary kind e k left = rsum n (fun j => g_values e j * g_boundary_basis kind e k left j).
  Proof.
    destruct (py_nodal_values kind roots inv degree c e X V Rd) as (_ & _ & (d & DO & _ & _ & _ & DB) & _).
    destruct (py_nodal_basis kind roots inv degree c e X V (Ready _ _ _ _ _ _ Rd)) as (basis & _ & _ & _ & _ & _ & _ & BB).
    destruct left; [rewrite (proj1 (DB k))|rewrite (proj2 (DB k))]; rewrite (derivatives_sum d DO); apply rsum_ext; intros j _; f_equal; symmetry; apply BB.
  Qed.
  Lemma gradient_sum x : g_gradient e x = rsum n (fun j => g_values e j * g_basis_derivatives e x 1 j).
  Proof.
    destruct (py_nodal_values kind roots inv degree c e X V Rd) as (_ & _ & (d & DO & DG & _) & _). rewrite DG. apply (derivatives_sum d DO).
  Qed.
  Lemma gradient_poly : polynomial degree (g_gradient e).
  Proof.
    destruct (proj2 (made_object kind roots inv degree c) e Rd) as (ps & ws & rts & b & F & _).
    apply (poly_ext _ (fun x => rsum n (fun j => g_values e j * g_basis_derivatives e x 1 j))); [intros x; rewrite gradient_sum; reflexivity|].
    apply (sum_poly rts degree (fun j x => g_basis_derivatives e x 1 j) (g_values e) n). intros j _. apply (poly_mono (degree - 1)); [lia|]. apply (basis_poly' ps ws rts inv b degree c e F).
  Qed.
  Lemma value_polynomial : polynomial degree (g_value e).
  Proof.
    destruct (proj2 (made_object kind roots inv degree c) e Rd) as (ps & ws & rts & b & F & _).
    destruct (py_nodal_values kind roots inv degree c e X V Rd) as (_ & _ & (d & DO & _) & _).
    apply (poly_ext _ (fun x => rsum n (fun j => g_values e j * g_basis_derivatives e x 0 j))); [intros x; rewrite <- (derivatives_sum d DO 0 x); apply (proj1 DO)|].
    apply (sum_poly rts degree (fun j x => g_basis_derivatives e x 0 j) (g_values e) n). intros j _. apply (basis_poly ps ws rts inv b degree c e F).
  Qed.
  (** derivatives above the degree *)
  Lemma boundary_zero k left : (degree < k)%nat -> g_boundary kind e k left = 0.
  Proof.
    intros Hk. destruct (py_nodal_values kind roots inv degree c e X V Rd) as (_ & _ & (d & (D0 & DS) & _ & _ & _ & DB) & _).
    assert (H : forall i, (i <= degree)%nat -> polynomial (degree - i) (d i)).
    { induction i as [|i IH]; intros Hi; [rewrite Nat.sub_0_r; apply (poly_ext _ (g_value e)); [intros x; symmetry; apply D0|apply value_polynomial]|].
      destruct (poly_derive _ _ (IH ltac:(lia))) as (h & Ph & Dh). replace (degree - S i)%nat with (degree - i - 1)%nat by lia. apply (poly_ext _ h); [|exact Ph].
      intros x. rewrite <- (is_derive_unique _ _ _ (DS i x)). symmetry. apply is_derive_unique, Dh. }
    assert (Z : forall i x, d (degree + 1 + i)%nat x = 0).
    { induction i as [|i IH]; intros x.
      - destruct (poly_derive _ _ (H degree (le_n _))) as (h & (kk & Ph) & Dh). rewrite Nat.add_0_r, Nat.add_1_r.
        rewrite <- (is_derive_unique _ _ _ (DS degree x)). apply is_derive_unique.
        destruct (H degree (le_n _)) as (k0 & K0). rewrite Nat.sub_diag in K0. apply (is_derive_ext (fun _ => k0 O)).
        + intros t. rewrite K0. unfold poly1. cbn [rsum pow]. match goal with |- @eq _ ?a ?b => change (@eq R a b) end. ring.
        + auto_derive; reflexivity.
      - rewrite Nat.add_succ_r. rewrite <- (is_derive_unique _ _ _ (DS (degree + 1 + i)%nat x)). apply is_derive_unique.
        apply (is_derive_ext (fun _ => 0)); [intros t; symmetry; apply IH|]. auto_derive; reflexivity. }
    replace k with (degree + 1 + (k - degree - 1))%nat by lia. destruct left; [rewrite (proj1 (DB _))|rewrite (proj2 (DB _))]; apply Z.
  Qed.
End One.

(** the gradient at the interface of two elements, as in riemann.py 66-98 *)
Definition interface_gradient (kind : Kind) (left right : Lagrange) : R :=
  Model_PyRiemann.get_interface_gradient (g_length left) (g_length right)
    (g_boundary kind right 0 true - g_boundary kind left 0 false)
    ((g_boundary kind left 1 false + g_boundary kind right 1 true) / 2)
    (g_boundary kind right 2 true - g_boundary kind left 2 false).
Definition left_gradient kind (left : option Lagrange) (curr : Lagrange) : R := match left with None => 0 | Some e => interface_gradient kind e curr end.
Definition right_gradient kind (curr : Lagrange) (right : option Lagrange) : R := match right with None => 0 | Some e => interface_gradient kind curr e end.
Definition values_of (e : option Lagrange) (l : nat) : R := match e with None => 0 | Some e => g_values e l end.

Lemma gradient_linear n hl hr a b d u :
  rsum n (fun l => interface_gradients hl hr a b d l * u l) =
  Model_PyRiemann.get_interface_gradient hl hr (rsum n (fun l => u l * a l)) (rsum n (fun l => u l * b l)) (rsum n (fun l => u l * d l)).
Proof.
  unfold interface_gradients, Model_PyRiemann.get_interface_gradient. set (k0 := Model_PyRiemann.beta_0 / _). set (k1 := Model_PyRiemann.beta_1 * _).
  rewrite <- !rsum_mul_l, <- !rsum_add. apply rsum_ext. intros. ring.
Qed.

(** the flux of the Riemann solver *)
Lemma solver_flux kind roots inv degree cl cr l r : inverts inv -> x_left cl <> x_right cl -> ready kind roots inv degree cl l -> x_left cr <> x_right cr -> ready kind roots inv degree cr r ->
  forall flux, flux_between kind (Some l) (Some r) flux -> flux = - interface_gradient kind l r.
Proof.
  intros V Xl Rl Xr Rr flux (s & j & E).
  assert (Nl : (g_n l - 1)%nat = degree). { destruct (proj2 (made_object kind roots inv degree cl) l Rl) as (ps & ws & rts & b & F & _). assert (N : g_n l = (degree + 1)%nat) by apply F. lia. }
  assert (Nr : (g_n r - 1)%nat = degree). { destruct (proj2 (made_object kind roots inv degree cr) r Rr) as (ps & ws & rts & b & F & _). assert (N : g_n r = (degree + 1)%nat) by apply F. lia. }
  unfold Model_PyRiemann.get_interface_flux_and_bjump, Model_PyRiemann.get_upwind_flux, Model_PyRiemann.set_initial, Model_PyRiemann.Solver_init, heat, Model_PyRiemann.LinearAdvectionDiffusion_init, Model_PyRiemann.LinearAdvection_init, Model_PyRiemann.determine_wave_structure in E.
  cbn [Model_PyRiemann.s_equation bind] in E. unfold Model_PyRiemann.get_value in E. destruct (Req_EM_T 1 0); [lra|]. unfold Model_PyRiemann.get_value_at in E. cbn [Model_PyRiemann.s_equation Model_PyRiemann.s_left] in E.
  destruct (Rle_dec (0 / 1) 0) as [|N]; [|exfalso; apply N; lra]. cbn [bind Model_PyRiemann.s_equation Model_PyRiemann.get_diffusive_coeff Model_PyRiemann.d_extra side_of] in E.
  rewrite (Rmin_left 0 0), (Rmin_left 1 1) in E by lra. destruct (Req_EM_T (0 + 1) 0); [lra|]. injection E as _ E _. rewrite <- E.
  unfold Model_PyRiemann.get_convective_flux, Model_PyRiemann.get_diffusive_flux, Model_PyRiemann.get_diffusive_coeff. unfold interface_gradient, side_of.
  unfold Model_PyRiemann.side_du, Model_PyRiemann.side_ddu. cbn [Model_PyRiemann.d_degree Model_PyRiemann.d_du Model_PyRiemann.d_ddu Model_PyRiemann.d_length Model_PyRiemann.d_u]. rewrite Nl, Nr.
  assert (D1 : forall w s cw, x_left cw <> x_right cw -> ready kind roots inv degree cw w -> (if Nat.ltb 0 degree then g_boundary kind w 1 s else 0) = g_boundary kind w 1 s).
  { intros w s0 cw Xw Rw. destruct (Nat.ltb_spec 0 degree); [reflexivity|]. symmetry. apply (boundary_zero kind roots inv degree cw w Xw V Rw). lia. }
  assert (D2 : forall w s cw, x_left cw <> x_right cw -> ready kind roots inv degree cw w -> (if Nat.ltb 1 degree then g_boundary kind w 2 s else 0) = g_boundary kind w 2 s).
  { intros w s0 cw Xw Rw. destruct (Nat.ltb_spec 1 degree); [reflexivity|]. symmetry. apply (boundary_zero kind roots inv degree cw w Xw V Rw). lia. }
  rewrite (D1 l false cl Xl Rl), (D1 r true cr Xr Rr), (D2 l false cl Xl Rl), (D2 r true cr Xr Rr). match goal with |- _ - _ * ?a = - ?b => change b with a; generalize a end. intros. ring.
Qed.
Lemma solver_succeeds kind l r : exists flux, flux_between kind (Some l) (Some r) flux.
Proof.
  unfold flux_between, Model_PyRiemann.get_interface_flux_and_bjump, Model_PyRiemann.get_upwind_flux, Model_PyRiemann.set_initial, Model_PyRiemann.Solver_init, heat, Model_PyRiemann.LinearAdvectionDiffusion_init, Model_PyRiemann.LinearAdvection_init, Model_PyRiemann.determine_wave_structure.
  cbn [Model_PyRiemann.s_equation bind]. unfold Model_PyRiemann.get_value. destruct (Req_EM_T 1 0); [lra|]. unfold Model_PyRiemann.get_value_at. cbn [Model_PyRiemann.s_equation Model_PyRiemann.s_left].
  destruct (Rle_dec (0 / 1) 0) as [|N]; [|exfalso; apply N; lra]. cbn [bind Model_PyRiemann.s_equation Model_PyRiemann.get_diffusive_coeff Model_PyRiemann.d_extra side_of].
  rewrite (Rmin_left 0 0), (Rmin_left 1 1) by lra. destruct (Req_EM_T (0 + 1) 0); [lra|]. do 3 eexists. reflexivity.
Qed.

Section Matrices.
  Variables (kind : Kind) (roots : nat -> list R * list R) (inv : nat -> (nat -> nat -> R) -> option (nat -> nat -> R)) (degree : nat).
  Variables (c cl cr : Coordinate) (e : Lagrange) (left right : option Lagrange) (g : Correction).
  Hypothesis (X : x_left c <> x_right c) (V : inverts inv) (Rd : ready kind roots inv degree c e).
  Hypothesis (HL : forall l, left = Some l -> x_left cl <> x_right cl /\ ready kind roots inv degree cl l).
  Hypothesis (HR : forall r, right = Some r -> x_left cr <> x_right cr /\ ready kind roots inv degree cr r).
  Let n := (degree + 1)%nat.
  Let es := fun _ : nat => e.
  Let Rds : forall k, ready kind roots inv degree c (es k) := fun _ => Rd.
  Let J := (x_right c - x_left c) / 2.
  Let GL' x := fst (g_slope g (xi c x)) / J.
  Let GR' x := snd (g_slope g (xi c x)) / J.
  Lemma flux_is x : nodal_flux heat_equation es x 0 = - g_gradient e x.
  Proof. transitivity (0 * g_value e x - (1 + 0) * g_gradient e x); [reflexivity|ring]. Qed.
  Lemma flux_poly : polynomial degree (fun x => nodal_flux heat_equation es x 0).
  Proof.
    destruct (gradient_poly kind roots inv degree c e X V Rd) as (k & K). exists (fun i => - k i). intros x. rewrite flux_is, K. unfold poly1. rewrite <- rsum_opp. apply rsum_ext. intros. ring.
  Qed.
  Lemma n_is : g_n e = n.
  Proof. exact (proj2 (coord kind roots inv degree c es 0 Rds)). Qed.
  Lemma slopes : exists gl gr, gather (g_n e) (fun i => do s <- correction_gradients e g (g_points e i); Some (fst s)) = Some gl /\
    gather (g_n e) (fun i => do s <- correction_gradients e g (g_points e i); Some (snd s)) = Some gr /\
    forall k, (k <= degree)%nat -> gl k = GL' (g_points e k) /\ gr k = GR' (g_points e k).
  Proof.
    assert (C : forall x, correction_gradients e g x = Some (GL' x, GR' x)) by (intros x; exact (corr_is kind roots inv degree c X es 0 g Rds x)).
    destruct (gathers (g_n e) (fun i => do s <- correction_gradients e g (g_points e i); Some (fst s))) as (gl & El); [intros; rewrite C; discriminate|].
    destruct (gathers (g_n e) (fun i => do s <- correction_gradients e g (g_points e i); Some (snd s))) as (gr & Er); [intros; rewrite C; discriminate|].
    exists gl, gr. split; [exact El|]. split; [exact Er|]. intros k Hk. split.
    - apply (fun E => gathered _ _ _ E k) in El; [|rewrite n_is; unfold n; lia]. cbv beta in El. rewrite C in El. injection El as El. symmetry. exact El.
    - apply (fun E => gathered _ _ _ E k) in Er; [|rewrite n_is; unfold n; lia]. cbv beta in Er. rewrite C in Er. injection Er as Er. symmetry. exact Er.
  Qed.
  Lemma nodes_gradient i : (i <= degree)%nat -> rsum n (fun l => g_node_basis e i 1 l * g_values e l) = g_gradient e (g_points e i).
  Proof.
    intros Hi. rewrite (gradient_sum kind roots inv degree c e X V Rd). apply rsum_ext. intros l _.
    destruct (py_nodal_basis kind roots inv degree c e X V (Ready _ _ _ _ _ _ Rd)) as (basis & _ & _ & _ & _ & _ & BN & _). rewrite BN by exact Hi. ring.
  Qed.
  Lemma left_sum (x : R) : rsum n (fun l => match left with None => 0 | Some w =>
      interface_gradients (g_length w) (g_length e) (fun l => g_boundary_basis kind e 0 true l)
        (fun l => / 2 * g_boundary_basis kind e 1 true l) (fun l => g_boundary_basis kind e 2 true l) l end * g_values e l)
    + rsum n (fun l => match left with None => 0 | Some w =>
      interface_gradients (g_length w) (g_length e) (fun l => - g_boundary_basis kind w 0 false l)
      (fun l => / 2 * g_boundary_basis kind w 1 false l) (fun l => - g_boundary_basis kind w 2 false l) l end * values_of left l) = left_gradient kind left e.
  Proof.
    destruct left as [w|]; cbn [left_gradient values_of].
    - destruct (HL w eq_refl) as (Xw & Rw).
      rewrite !gradient_linear. unfold interface_gradient. rewrite !(boundary_sum kind roots inv degree c e X V Rd), !(boundary_sum kind roots inv degree cl w Xw V Rw). fold n.
      unfold Model_PyRiemann.get_interface_gradient.
      rewrite (rsum_ext n (fun l => g_values w l * - _) (fun l => - (g_values w l * g_boundary_basis kind w 0 false l))) by (intros; ring).
      rewrite (rsum_ext n (fun l => g_values w l * - g_boundary_basis kind w 2 false l) (fun l => - (g_values w l * g_boundary_basis kind w 2 false l))) by (intros; ring).
      rewrite (rsum_ext n (fun l => g_values e l * (/ 2 * _)) (fun l => / 2 * (g_values e l * g_boundary_basis kind e 1 true l))) by (intros; ring).
      rewrite (rsum_ext n (fun l => g_values w l * (/ 2 * _)) (fun l => / 2 * (g_values w l * g_boundary_basis kind w 1 false l))) by (intros; ring).
      rewrite !rsum_opp, !rsum_mul_l. set (k0 := Model_PyRiemann.beta_0 / _). set (k1 := Model_PyRiemann.beta_1 * _). field.
    - rewrite !rsum_zero; [ring|intros; ring|intros; ring].
  Qed.
  Lemma right_sum (x : R) : rsum n (fun l => match right with None => 0 | Some w =>
      interface_gradients (g_length e) (g_length w) (fun l => - g_boundary_basis kind e 0 false l)
        (fun l => / 2 * g_boundary_basis kind e 1 false l) (fun l => - g_boundary_basis kind e 2 false l) l end * g_values e l)
    + rsum n (fun l => match right with None => 0 | Some w =>
      interface_gradients (g_length e) (g_length w) (fun l => g_boundary_basis kind w 0 true l)
      (fun l => / 2 * g_boundary_basis kind w 1 true l) (fun l => g_boundary_basis kind w 2 true l) l end * values_of right l) = right_gradient kind e right.
  Proof.
    destruct right as [w|]; cbn [right_gradient values_of].
    - destruct (HR w eq_refl) as (Xw & Rw).
      rewrite !gradient_linear. unfold interface_gradient. rewrite !(boundary_sum kind roots inv degree c e X V Rd), !(boundary_sum kind roots inv degree cr w Xw V Rw). fold n.
      unfold Model_PyRiemann.get_interface_gradient.
      rewrite (rsum_ext n (fun l => g_values e l * - _) (fun l => - (g_values e l * g_boundary_basis kind e 0 false l))) by (intros; ring).
      rewrite (rsum_ext n (fun l => g_values e l * - g_boundary_basis kind e 2 false l) (fun l => - (g_values e l * g_boundary_basis kind e 2 false l))) by (intros; ring).
      rewrite (rsum_ext n (fun l => g_values e l * (/ 2 * _)) (fun l => / 2 * (g_values e l * g_boundary_basis kind e 1 false l))) by (intros; ring).
      rewrite (rsum_ext n (fun l => g_values w l * (/ 2 * _)) (fun l => / 2 * (g_values w l * g_boundary_basis kind w 1 true l))) by (intros; ring).
      rewrite !rsum_opp, !rsum_mul_l. set (k0 := Model_PyRiemann.beta_0 / _). set (k1 := Model_PyRiemann.beta_1 * _). field.
    - rewrite !rsum_zero; [ring|intros; ring|intros; ring].
  Qed.
  Lemma dissipation_is : exists D r, dissipation_matrices kind e left right g = Some D /\
    fr_residual kind heat_equation es g 0 (- left_gradient kind left e) (- right_gradient kind e right) = Some r /\
    forall k, (k <= degree)%nat -> r k = rsum n (fun l => (mat_b D k l - mat_c D k l + mat_d D k l) * g_values e l)
      + rsum n (fun l => mat_e D k l * values_of left l) + rsum n (fun l => mat_f D k l * values_of right l).
  Proof.
    destruct slopes as (gl & gr & El & Er & Sl).
    destruct (fr_residual_is kind roots inv degree c X heat_equation es 0 g (- left_gradient kind left e) (- right_gradient kind e right) Rds) as (r & E).
    unfold dissipation_matrices. rewrite El, Er. cbn [bind]. eexists. exists r. split; [reflexivity|]. split; [exact E|].
    intros k Hk. cbn [mat_b mat_c mat_d mat_e mat_f].
    rewrite (fr_residual_at kind roots inv degree c X V heat_equation es 0 g _ _ Rds r k E Hk). unfold rate. rewrite !flux_is.
    destruct (Sl k Hk) as (-> & ->). change (g_points (es 0%nat) k) with (g_points e k). fold J. fold (GL' (g_points e k)). fold (GR' (g_points e k)).
    set (gL := GL' (g_points e k)). set (gR := GR' (g_points e k)). rewrite n_is.
    assert (B : rsum n (fun l => rsum n (fun i => g_node_basis e k 1 i * g_node_basis e i 1 l) * g_values e l) = - If' degree heat_equation es 0 (g_points e k)).
    { rewrite (rsum_ext n _ (fun l => rsum n (fun i => g_node_basis e k 1 i * (g_node_basis e i 1 l * g_values e l)))) by (intros; rewrite <- rsum_mul_r; apply rsum_ext; intros; ring).
      rewrite rsum_swap. unfold If'. rewrite <- rsum_opp. apply rsum_ext. intros i Hi. rewrite rsum_mul_l, nodes_gradient by (unfold n in Hi; lia). rewrite flux_is.
      destruct (py_nodal_basis kind roots inv degree c e X V (Ready _ _ _ _ _ _ Rd)) as (basis & _ & _ & _ & _ & _ & BN & _). rewrite BN by exact Hk. unfold es. ring. }
    assert (CC : forall s, rsum n (fun i => g_boundary_basis kind e 0 s i * g_gradient e (g_points e i)) = g_gradient e (if s then x_left c else x_right c)).
    { intros s. pose proof (If_poly_is kind roots inv degree c X V heat_equation es 0 Rds flux_poly (if s then x_left c else x_right c)) as I. cbv beta in I. rewrite flux_is in I.
      rewrite <- (Ropp_involutive (g_gradient e _)), <- I. unfold If. rewrite <- rsum_opp. apply rsum_ext. intros i _. rewrite flux_is. unfold es.
      destruct (py_nodal_basis kind roots inv degree c e X V (Ready _ _ _ _ _ _ Rd)) as (basis & _ & _ & _ & _ & _ & _ & BB).
      destruct s; [rewrite (proj1 (BB 0%nat i))|rewrite (proj2 (BB 0%nat i))]; ring. }
    assert (C : rsum n (fun l => rsum n (fun i => (gR * g_boundary_basis kind e 0 false i + gL * g_boundary_basis kind e 0 true i) * g_node_basis e i 1 l) * g_values e l)
      = gR * g_gradient e (x_right c) + gL * g_gradient e (x_left c)).
    { rewrite (rsum_ext n _ (fun l => rsum n (fun i => (gR * g_boundary_basis kind e 0 false i + gL * g_boundary_basis kind e 0 true i) * (g_node_basis e i 1 l * g_values e l)))) by (intros; rewrite <- rsum_mul_r; apply rsum_ext; intros; ring).
      rewrite rsum_swap. rewrite (rsum_ext n _ (fun i => gR * (g_boundary_basis kind e 0 false i * g_gradient e (g_points e i)) + gL * (g_boundary_basis kind e 0 true i * g_gradient e (g_points e i)))).
      - rewrite rsum_add, !rsum_mul_l, (CC false), (CC true). reflexivity.
      - intros i Hi. rewrite rsum_mul_l, nodes_gradient by (unfold n in Hi; lia). ring. }
    pose proof (left_sum 0) as L. pose proof (right_sum 0) as Rr.
    match goal with |- _ = rsum n (fun l => (@?b l - @?cc l + (gR * @?dr l + gL * @?dl l)) * _) + rsum n (fun l => gL * @?pl l * _) + rsum n (fun l => gR * @?pr l * _) =>
      rewrite (rsum_ext n (fun l => (b l - cc l + (gR * dr l + gL * dl l)) * g_values e l) (fun l => b l * g_values e l - cc l * g_values e l + (gR * (dr l * g_values e l) + gL * (dl l * g_values e l)))) by (intros; ring);
      rewrite (rsum_ext n (fun l => gL * pl l * values_of left l) (fun l => gL * (pl l * values_of left l))) by (intros; ring);
      rewrite (rsum_ext n (fun l => gR * pr l * values_of right l) (fun l => gR * (pr l * values_of right l))) by (intros; ring)
    end.
    rewrite !rsum_add, !rsum_sub, !rsum_mul_l, B, C.
    match goal with |- _ = _ + (gR * ?s1 + gL * ?s2) + gL * ?s3 + gR * ?s4 =>
      assert (L1 : s2 + s3 = left_gradient kind left e) by (rewrite <- L; clear; destruct left; reflexivity);
      assert (R1 : s1 + s4 = right_gradient kind e right) by (rewrite <- Rr; clear; destruct right; reflexivity);
      rewrite <- L1, <- R1; ring end.
  Qed.
End Matrices.
