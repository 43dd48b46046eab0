(** C147: dissipation matrices of elements for flux reconstruction *)
From Coq Require Import Reals List Arith Lra Lia FunctionalExtensionality.
From Coquelicot Require Import Coquelicot.
From Verif Require Import Arrays RSum Model_PyEuler Model_PyPoly Spec_PyPoly Proof_PyPoly.
From Verif Require Import Model_PyIntegrator Proof_PyIntegrator Model_PyExpansion Spec_PyExpansion Proof_PyExpansion Model_PyNodal Proof_PyNodal.
From Verif Require Import Prop_PyNodal Model_PyElement Spec_PyElement Model_PyFR Spec_PyFR Proof_PyFR Spec_PyDissipation Proof_PyDissipation Prop_PyFR.
From Verif Require Prop_PyExpansion Model_PyRiemann.
Import ListNotations.
Open Scope R_scope.

(** The matrices, applied to the sample values of an element and its neighbors, give the residual of the element for
    the heat equation with the fluxes of the Riemann solver. *)
Theorem py_dissipation kind roots inv degree c cl cr curr left right g fl fr :
  x_left c <> x_right c -> inverts inv -> ready kind roots inv degree c curr ->
  (forall l, left = Some l -> x_left cl <> x_right cl /\ ready kind roots inv degree cl l) ->
  (forall r, right = Some r -> x_left cr <> x_right cr /\ ready kind roots inv degree cr r) ->
  flux_between kind left (Some curr) fl -> flux_between kind (Some curr) right fr ->
  exists D r, dissipation_matrices kind curr left right g = Some D /\ fr_residual kind heat_equation (fun _ => curr) g 0 fl fr = Some r /\
  forall k, (k <= degree)%nat ->
    r k = applied (degree + 1) (fun l => mat_b D k l - mat_c D k l + mat_d D k l) (Some curr)
        + applied (degree + 1) (mat_e D k) left + applied (degree + 1) (mat_f D k) right.
Proof.
  intros X V Rd HL HR FL FR.
  destruct (dissipation_is kind roots inv degree c cl cr curr left right g X V Rd HL HR) as (D & r & ED & Er & A).
  assert (L : fl = - left_gradient kind left curr).
  { destruct left as [l|]; cbn [left_gradient]; [|cbn [flux_between] in FL; lra]. destruct (HL l eq_refl) as (Xl & Rl).
    apply (solver_flux kind roots inv degree cl c l curr V Xl Rl X Rd). exact FL. }
  assert (Rr : fr = - right_gradient kind curr right).
  { destruct right as [l|]; cbn [right_gradient]; [|cbn [flux_between] in FR; lra]. destruct (HR l eq_refl) as (Xl & Rl).
    apply (solver_flux kind roots inv degree c cr curr l V X Rd Xl Rl). exact FR. }
  exists D, r. split; [exact ED|]. split; [rewrite L, Rr; exact Er|]. intros k Hk. rewrite (A k Hk). unfold applied. f_equal; [f_equal|].
  - destruct left; [reflexivity|]. apply rsum_zero. intros. cbn [values_of]. ring.
  - destruct right; [reflexivity|]. apply rsum_zero. intros. cbn [values_of]. ring.
Qed.
Print Assumptions py_dissipation.

(** two nodes: the solution is x in local coordinates, the left neighbor is zero and there is no right neighbor *)
Example py_dissipation_example : let kind := LobattoRoots in exists curr left fl,
  x_left c15 <> x_right c15 /\ inverts inv2 /\ ready kind two_roots inv2 1 c15 curr /\ ready kind two_roots inv2 1 c15 left /\
  flux_between kind (Some left) (Some curr) fl /\ flux_between kind (Some curr) None 0 /\ fl = 1 / 2 /\
  exists D, dissipation_matrices kind curr (Some left) None vincent2 = Some D /\
    applied 2 (fun l => mat_b D 0 l - mat_c D 0 l + mat_d D 0 l) (Some curr) + applied 2 (mat_e D 0) (Some left) + applied 2 (mat_f D 0) None = 5 / 4.
Proof.
  intros kind. destruct (two_init kind) as (e & E). cbn beta zeta in E. assert (X : x_left c15 <> x_right c15) by (cbn; lra).
  destruct (line_is kind e 0 1 E) as (Rc & Vc & Pc). destruct (line_is kind e 0 0 E) as (Rl & Vl & _).
  set (curr := line e 0 1) in *. set (left := line e 0 0) in *. destruct (solver_succeeds kind left curr) as (fl & F).
  assert (V := Prop_PyExpansion.inv2_inverts). exists curr, left, fl.
  assert (GL : forall w a b, Nodal_init kind two_roots inv2 1 c15 = Some e -> w = line e a b -> forall s, g_boundary kind w 0 s = (if s then a - b else a + b) /\ g_boundary kind w 1 s = b / 2 /\ g_boundary kind w 2 s = 0 /\ g_length w = 4).
  { intros w a b _ -> s. destruct (line_is kind e a b E) as (Rw & Vw & _).
    destruct (py_nodal_values kind two_roots inv2 1 c15 (line e a b) X V Rw) as (_ & _ & (d & (D0 & DS) & _ & _ & _ & DB) & _).
    assert (D1 : forall x, d 1%nat x = b / 2).
    { intros x. rewrite <- (is_derive_unique _ _ _ (DS 0%nat x)). apply is_derive_unique. apply (is_derive_ext (fun x => a + b * xi c15 x)); [intros t; rewrite D0, Vw; reflexivity|].
      unfold xi. cbn [x_left x_right]. auto_derive; [trivial|]. field. }
    split; [|split; [|split]].
    - destruct s; [rewrite (proj1 (DB 0%nat)), D0, Vw, (xi_left c15 X); ring|rewrite (proj2 (DB 0%nat)), D0, Vw, (xi_right c15 X); ring].
    - destruct s; [rewrite (proj1 (DB 1%nat))|rewrite (proj2 (DB 1%nat))]; apply D1.
    - apply (boundary_zero kind two_roots inv2 1 c15 (line e a b) X V Rw). lia.
    - destruct (proj2 (made_object kind two_roots inv2 1 c15) (line e a b) Rw) as (ps & ws & rts & bb & Fn & _). assert (C : g_coordinate (line e a b) = c15) by apply Fn.
      unfold g_length. rewrite C. cbn [length_of]. ring. }
  assert (FV : fl = 1 / 2).
  { rewrite (solver_flux kind two_roots inv2 1 c15 c15 left curr V X Rl X Rc fl F). unfold interface_gradient.
    destruct (GL left 0 0 E eq_refl false) as (-> & -> & -> & ->). destruct (GL curr 0 1 E eq_refl true) as (-> & -> & -> & ->).
    unfold Model_PyRiemann.get_interface_gradient, Model_PyRiemann.beta_0, Model_PyRiemann.beta_1. field. }
  split; [exact X|]. split; [exact V|]. split; [exact Rc|]. split; [exact Rl|]. split; [exact F|]. split; [reflexivity|]. split; [exact FV|].
  destruct (py_dissipation kind two_roots inv2 1 c15 c15 c15 curr (Some left) None vincent2 fl 0 X V Rc) as (D & r & ED & Er & A); [|discriminate|exact F|reflexivity|].
  { intros l H. injection H as <-. auto. }
  exists D. split; [exact ED|]. change 2%nat with (1 + 1)%nat. rewrite <- (A 0%nat ltac:(lia)).
  set (es := fun _ : nat => curr) in *. assert (Rds : forall k, ready kind two_roots inv2 1 c15 (es k)) by (intros; exact Rc).
  rewrite (fr_residual_at kind two_roots inv2 1 c15 X V heat_equation es 0 vincent2 fl 0 Rds r 0 Er) by lia.
  assert (FX : forall x, nodal_flux heat_equation es x 0 = - (1 / 2)).
  { intros x. transitivity (- g_gradient curr x); [apply flux_is|]. f_equal. destruct (py_nodal_values kind two_roots inv2 1 c15 curr X V Rc) as (_ & _ & (d & (D0 & DS) & DG & _) & _).
    rewrite DG, <- (is_derive_unique _ _ _ (DS 0%nat x)). apply is_derive_unique. apply (is_derive_ext (fun x => 0 + 1 * xi c15 x)); [intros t; rewrite D0, Vc; reflexivity|].
    unfold xi. cbn [x_left x_right]. auto_derive; [trivial|]. field. }
  assert (Z : If' 1 heat_equation es 0 (g_points (es 0%nat) 0) = 0).
  { rewrite <- (is_derive_unique _ _ _ (If_derive 1 heat_equation es 0 (g_points (es 0%nat) 0))). apply is_derive_unique.
    apply (is_derive_ext (fun _ => - (1 / 2))); [|auto_derive; reflexivity].
    intros t. symmetry. rewrite (If_poly_is kind two_roots inv2 1 c15 X V heat_equation es 0 Rds); [apply FX|].
    apply (poly_ext _ (fun _ => - (1 / 2))); [intros; symmetry; apply FX|apply poly_const]. }
  unfold rate. rewrite Z, !FX, FV.
  assert (P0 : xi c15 (g_points (es 0%nat) 0) = -1).
  { destruct (proj2 (made_object kind two_roots inv2 1 c15) curr Rc) as (ps & ws & rts & bb & Fn & _ & _ & Lo & _).
    assert (PT : g_points curr = fun k => local_to_global c15 (nth k rts 0)) by apply Fn. unfold es. rewrite PT, (xi_point rts c15 X 0). apply (Lo eq_refl). }
  rewrite P0. unfold vincent2, vincent_correction, Vincent_gradient. cbn [g_slope v_k Nat.add Vincent_loop Nat.ltb Nat.leb eval_legendre legendre2 fst snd prev_ratio next_ratio pow INR x_left x_right].
  unfold eval_legendre. cbn [legendre2 fst snd INR]. field.
Qed.
