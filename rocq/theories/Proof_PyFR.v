(** Residuals of elements for flux reconstruction. *)
From Coq Require Import Reals List Arith Bool Lra Lia FunctionalExtensionality.
From Coquelicot Require Import Coquelicot.
From Verif Require Import Arrays RSum Spec_Gauss Proof_Gauss Model_PyEuler Model_PyPoly Spec_PyPoly Proof_PyPoly Proof_PyCorrect Proof_PyLagrange.
From Verif Require Import Model_PyIntegrator Proof_PyIntegrator Model_PyExpansion Spec_PyExpansion Proof_PyExpansion Model_PyNodal Proof_PyNodal.
From Verif Require Import Prop_PyNodal Model_PyElement Spec_PyElement Proof_PyElement Proof_PyDG Model_PyFR Spec_PyFR.
Import ListNotations.
Open Scope R_scope.

Lemma gathered n f r : gather n f = Some r -> forall k, (k < n)%nat -> f k = Some (r k).
Proof.
  revert r. induction n as [|n IH]; intros r E k Hk; [lia|]. cbn [gather] in E.
  destruct (gather n f) as [a|]; [|discriminate]. cbn [bind] in E. destruct (f n) as [v|] eqn:Fn; [|discriminate]. cbn [bind] in E. injection E as <-.
  destruct (Nat.eqb_spec k n) as [->|]; [exact Fn|]. apply IH; [reflexivity|lia].
Qed.
Lemma gathers n f : (forall k, (k < n)%nat -> f k <> None) -> exists r, gather n f = Some r.
Proof.
  induction n as [|n IH]; intros H; [eexists; reflexivity|]. destruct IH as (a & A); [intros; apply H; lia|]. cbn [gather]. rewrite A. cbn [bind].
  pose proof (H n ltac:(lia)) as N. destruct (f n); [|congruence]. eexists. reflexivity.
Qed.

Section FR.
  Variables (kind : Kind) (roots : nat -> list R * list R).
  Variables (inv : nat -> (nat -> nat -> R) -> option (nat -> nat -> R)) (degree : nat) (c : Coordinate).
  Hypothesis (X : x_left c <> x_right c) (V : inverts inv).
  Let n := (degree + 1)%nat.
  Variables (q : Equation) (es : nat -> Lagrange) (m : nat) (g : Correction) (fl fr : R).
  Hypothesis (Rd : forall k, ready kind roots inv degree c (es k)).
  Let e := es m.
  Let f x := nodal_flux q es x m.
  Let J := (x_right c - x_left c) / 2.
  Let GL x := fst (g_at g (xi c x)).
  Let GR x := snd (g_at g (xi c x)).
  Let GL' x := fst (g_slope g (xi c x)) / J.
  Let GR' x := snd (g_slope g (xi c x)) / J.
  Let dphi (k j : nat) (x : R) := g_basis_derivatives e x k j.
  Lemma Jnz : J <> 0.
  Proof. unfold J. lra. Qed.
  Lemma M k : made kind roots inv degree c (es k).
  Proof. apply Ready, Rd. Qed.
  Lemma coord : g_coordinate e = c /\ g_n e = n.
  Proof. destruct (proj1 (made_object kind roots inv degree c) e (M m)) as (ps & ws & rts & b & F & _). split; apply F. Qed.
  Lemma corr_is x : correction_gradients e g x = Some (GL' x, GR' x).
  Proof.
    unfold correction_gradients. rewrite (proj1 coord), (local_is c X). cbn [bind]. unfold GL', GR'. destruct (g_slope g (xi c x)) as [l r]. cbn [fst snd].
    rewrite jacobian_is. fold J. unfold div. pose proof Jnz. destruct (Req_EM_T J 0); [contradiction|]. reflexivity.
  Qed.
  Lemma xi_left : xi c (x_left c) = -1. Proof. unfold xi. field. lra. Qed.
  Lemma xi_right : xi c (x_right c) = 1. Proof. unfold xi. field. lra. Qed.
  Lemma fr_flux_is x : fr_flux q es g m fl fr x = Some (f x + GL x * (fl - f (x_left c)) + GR x * (fr - f (x_right c))).
  Proof.
    unfold fr_flux. fold e. rewrite (proj1 coord), (local_is c X). cbn [bind]. unfold GL, GR, f. destruct (g_at g (xi c x)) as [l r]. reflexivity.
  Qed.
  Lemma node_value i k : (k <= degree)%nat -> g_node_value (es i) k 0 = g_value (es i) (g_points e k) /\ g_node_value (es i) k 1 = g_gradient (es i) (g_points e k).
  Proof.
    intros Hk. assert (PT : g_points (es i) k = g_points e k).
    { destruct (proj2 (made_object kind roots inv degree c) (es i) (Rd i)) as (ps' & ws' & rts' & b' & F' & G' & _ & _ & RT' & _).
      destruct (proj1 (made_object kind roots inv degree c) e (M m)) as (ps2 & ws2 & rts2 & b2 & F2 & G2 & _ & _ & RT2 & _).
      assert (P1 : g_points (es i) = fun k => local_to_global c (nth k rts' 0)) by apply F'.
      assert (P2 : g_points e = fun k => local_to_global c (nth k rts2 0)) by apply F2.
      rewrite P1, P2, RT', RT2. reflexivity. }
    destruct (py_nodal_values kind roots inv degree c (es i) X V (Rd i)) as (_ & _ & (d & (Z & _) & DG & _ & DN & _) & _).
    rewrite !DN by exact Hk. rewrite PT, Z, DG. auto.
  Qed.
  Lemma node_flux_is j : (j <= degree)%nat -> node_flux q es j m = f (g_points e j).
  Proof.
    intros Hj. unfold node_flux, f, nodal_flux. fold e.
    replace (fun k => g_node_value (es k) j 0) with (fun k => g_value (es k) (g_points e j)) by (apply functional_extensionality; intros k; symmetry; apply (node_value k j Hj)).
    replace (fun k => g_node_value (es k) j 1) with (fun k => g_gradient (es k) (g_points e j)) by (apply functional_extensionality; intros k; symmetry; apply (node_value k j Hj)).
    reflexivity.
  Qed.
  Lemma end_flux_is left : end_flux kind q es m left = f (if left then x_left c else x_right c).
  Proof.
    unfold end_flux. fold e. rewrite (proj1 coord).
    assert (B : forall k, g_boundary kind (es k) 0 left = g_value (es k) (if left then x_left c else x_right c) /\
      g_boundary kind (es k) 1 left = g_gradient (es k) (if left then x_left c else x_right c)).
    { intros k. destruct (py_nodal_values kind roots inv degree c (es k) X V (Rd k)) as (_ & _ & (d & (Z & _) & DG & _ & _ & DB) & _).
      rewrite DG, <- Z. destruct left; split; apply DB. }
    assert (E : dg_flux q (if left then x_left c else x_right c) (fun k => g_boundary kind (es k) 0 left) (fun k => g_boundary kind (es k) 1 left) m
      = f (if left then x_left c else x_right c)).
    { unfold f, nodal_flux.
      replace (fun k => g_boundary kind (es k) 0 left) with (fun k => g_value (es k) (if left then x_left c else x_right c)) by (apply functional_extensionality; intros k; symmetry; apply B).
      replace (fun k => g_boundary kind (es k) 1 left) with (fun k => g_gradient (es k) (if left then x_left c else x_right c)) by (apply functional_extensionality; intros k; symmetry; apply B).
      reflexivity. }
    destruct kind; [reflexivity|exact E|exact E].
  Qed.
  (** the interpolation of the flux at the sample points *)
  Definition If x := rsum n (fun j => f (g_points e j) * dphi 0 j x).
  Definition If' x := rsum n (fun j => f (g_points e j) * dphi 1 j x).
  Lemma If_derive x : is_derive If x (If' x).
  Proof.
    apply (sum_derive (fun j x => f (g_points e j) * dphi 0 j x) (fun j x => f (g_points e j) * dphi 1 j x)).
    intros j _. apply (is_derive_scal (fun x => dphi 0 j x)). apply basis_derive'.
  Qed.
  Lemma If_poly : polynomial degree If.
  Proof.
    destruct (proj1 (made_object kind roots inv degree c) e (M m)) as (ps & ws & rts & b & F & _).
    apply (sum_poly rts degree (fun k x => dphi 0 k x) (fun j => f (g_points e j)) n). intros k _. apply (basis_poly ps ws rts inv b degree c e F).
  Qed.
  Lemma If_poly' : polynomial degree If'.
  Proof.
    destruct (poly_derive _ _ If_poly) as (h & Ph & D). apply (poly_mono (degree - 1)); [lia|]. apply (poly_ext _ h); [|exact Ph].
    intros x. rewrite <- (is_derive_unique _ _ _ (D x)). apply is_derive_unique, If_derive.
  Qed.
  Lemma dg_gradient_is x : dg_flux_gradient q es m x = If' x.
  Proof.
    unfold dg_flux_gradient, If'. fold e. rewrite (proj2 coord). apply rsum_ext. intros j Hj. rewrite node_flux_is by (unfold n in Hj; lia).
    destruct (py_nodal_basis kind roots inv degree c e X V (M m)) as (basis & _ & _ & _ & B1 & _). rewrite B1. reflexivity.
  Qed.
  Lemma interior_is i : (i <= degree)%nat -> fr_interior kind q es m i = - If' (g_points e i).
  Proof.
    intros Hi. assert (E : - dot (g_n e) (fun j => node_flux q es j m) (g_node_basis e i 1) = - If' (g_points e i)).
    { f_equal. unfold dot, If'. rewrite (proj2 coord). apply rsum_ext. intros j Hj. rewrite node_flux_is by (unfold n in Hj; lia).
      destruct (py_nodal_basis kind roots inv degree c e X V (M m)) as (basis & _ & _ & _ & _ & _ & BN & _). rewrite BN by exact Hi. reflexivity. }
    unfold fr_interior. fold e. pose proof (dg_gradient_is (g_points e i)) as D. destruct kind; [rewrite D; reflexivity|exact E|exact E].
  Qed.
  Lemma fr_gradient_is x : fr_flux_gradient q es g m fl fr x = Some (If' x + GL' x * (fl - f (x_left c)) + GR' x * (fr - f (x_right c))).
  Proof. unfold fr_flux_gradient. fold e. rewrite corr_is, (proj1 coord), dg_gradient_is. reflexivity. Qed.
  Definition rate x := - If' x - GL' x * (fl - f (x_left c)) - GR' x * (fr - f (x_right c)).
  Lemma fr_residual_is : exists r, fr_residual kind q es g m fl fr = Some r.
  Proof. unfold fr_residual. fold e. apply gathers. intros k _. rewrite corr_is. discriminate. Qed.
  Lemma fr_residual_at r i : fr_residual kind q es g m fl fr = Some r -> (i <= degree)%nat -> r i = rate (g_points e i).
  Proof.
    intros E Hi. unfold fr_residual in E. fold e in E. apply (fun E => gathered _ _ _ E i) in E; [|rewrite (proj2 coord); unfold n; lia].
    cbv beta in E. fold e in E. rewrite corr_is in E. cbn [bind fst snd] in E. injection E as E. rewrite <- E, interior_is, !end_flux_is by exact Hi. reflexivity.
  Qed.
  Hypothesis (Pg : proper (degree + 1) (g_at g) (g_slope g)).
  Lemma G_derive x : is_derive GL x (GL' x) /\ is_derive GR x (GR' x).
  Proof.
    destruct Pg as (_ & D & _). destruct (D (xi c x)) as (DL & DR).
    assert (DX : is_derive (xi c) x (/ J)).
    { unfold xi. fold J. pose proof Jnz. auto_derive; [trivial|]. field. assumption. }
    split.
    - unfold GL, GL'. replace (fst (g_slope g (xi c x)) / J) with (scal (/ J) (fst (g_slope g (xi c x)))) by (unfold scal; cbn; unfold mult; cbn; unfold Rdiv; ring).
      apply (is_derive_comp (fun y => fst (g_at g y)) (xi c)); assumption.
    - unfold GR, GR'. replace (snd (g_slope g (xi c x)) / J) with (scal (/ J) (snd (g_slope g (xi c x)))) by (unfold scal; cbn; unfold mult; cbn; unfold Rdiv; ring).
      apply (is_derive_comp (fun y => snd (g_at g y)) (xi c)); assumption.
  Qed.
  Lemma affine_poly d (h : R -> R) : polynomial d h -> polynomial d (fun x => h (xi c x)).
  Proof.
    intros P. apply (poly_ext _ (fun x => h (- ((x_left c + x_right c) / 2 / J) + x * / J))).
    - intros x. f_equal. unfold xi. fold J. field. exact Jnz.
    - apply (poly_affine 0 d h _ _ P).
  Qed.
  Lemma G_poly' : polynomial degree GL' /\ polynomial degree GR'.
  Proof.
    destruct Pg as (_ & _ & PL & PR). split.
    - destruct (poly_derive _ _ (affine_poly _ _ PL)) as (h & Ph & D). replace (degree + 1 - 1)%nat with degree in Ph by lia. apply (poly_ext _ h); [|exact Ph].
      intros x. rewrite <- (is_derive_unique _ _ _ (D x)). apply is_derive_unique. apply (proj1 (G_derive x)).
    - destruct (poly_derive _ _ (affine_poly _ _ PR)) as (h & Ph & D). replace (degree + 1 - 1)%nat with degree in Ph by lia. apply (poly_ext _ h); [|exact Ph].
      intros x. rewrite <- (is_derive_unique _ _ _ (D x)). apply is_derive_unique. apply (proj2 (G_derive x)).
  Qed.
  Lemma rate_poly : polynomial degree rate.
  Proof.
    destruct G_poly' as ((l & HL) & (r & HR)). destruct If_poly' as (h & Hh).
    exists (fun i => - h i - l i * (fl - f (x_left c)) - r i * (fr - f (x_right c))). intros x. unfold rate. rewrite Hh, HL, HR. unfold poly1.
    rewrite (Rmult_comm _ (fl - _)), (Rmult_comm _ (fr - _)), <- !rsum_mul_l, <- rsum_opp, <- !rsum_sub. apply rsum_ext. intros. ring.
  Qed.
  Lemma fr_value r e' : fr_residual kind q es g m fl fr = Some r -> g_set_coeff e n r = Some e' -> forall x, g_value e' x = rate x.
  Proof.
    intros E S x. destruct (proj1 (made_object kind roots inv degree c) e (M m)) as (ps & ws & rts & b & F & _).
    rewrite (set_value ps ws rts inv b degree c X V e F r e' S x). rewrite <- (values_reproduce ps ws rts inv b degree c X V e F rate x rate_poly).
    apply rsum_ext. intros j Hj. rewrite (fr_residual_at r j E) by lia. reflexivity.
  Qed.
  Lemma rate_integral : is_RInt rate (x_left c) (x_right c) (fl - fr + (f (x_right c) - If (x_right c)) - (f (x_left c) - If (x_left c))).
  Proof.
    pose (H := fun x => - If x - GL x * (fl - f (x_left c)) - GR x * (fr - f (x_right c))).
    replace (fl - fr + (f (x_right c) - If (x_right c)) - (f (x_left c) - If (x_left c))) with (H (x_right c) - H (x_left c)).
    - apply (ftc degree H rate); [exact rate_poly|]. intros x. unfold H, rate. destruct (G_derive x) as (DL & DR). pose proof (If_derive x) as DI.
      apply (is_derive_minus (fun x => - If x - GL x * (fl - f (x_left c))) (fun x => GR x * (fr - f (x_right c)))).
      + apply (is_derive_minus (fun x => - If x) (fun x => GL x * (fl - f (x_left c)))); [apply (is_derive_opp If), DI|].
        rewrite Rmult_comm. apply (is_derive_ext (fun x => (fl - f (x_left c)) * GL x)); [intros; apply Rmult_comm|]. apply (is_derive_scal GL), DL.
      + rewrite Rmult_comm. apply (is_derive_ext (fun x => (fr - f (x_right c)) * GR x)); [intros; apply Rmult_comm|]. apply (is_derive_scal GR), DR.
    - unfold H, GL, GR. rewrite xi_left, xi_right. destruct Pg as ((A & B & C & D) & _). rewrite A, B, C, D. ring.
  Qed.
  Lemma fr_balance r e' : fr_residual kind q es g m fl fr = Some r -> g_set_coeff e n r = Some e' ->
    is_RInt (g_value e') (x_left c) (x_right c) (fl - fr + (f (x_right c) - If (x_right c)) - (f (x_left c) - If (x_left c))).
  Proof. intros E S. apply (is_RInt_ext rate); [intros x _; symmetry; apply (fr_value r e' E S)|apply rate_integral]. Qed.
  Lemma If_poly_is : polynomial degree f -> forall x, If x = f x.
  Proof.
    intros Pf x. destruct (proj1 (made_object kind roots inv degree c) e (M m)) as (ps & ws & rts & b & F & _).
    apply (values_reproduce ps ws rts inv b degree c X V e F f x Pf).
  Qed.
  Lemma If_node i : (i <= degree)%nat -> If (g_points e i) = f (g_points e i).
  Proof.
    intros Hi. destruct (proj1 (made_object kind roots inv degree c) e (M m)) as (ps & ws & rts & b & F & _).
    unfold If. rewrite (rsum_single n i); [|unfold n; lia|].
    - unfold dphi. rewrite (cardinal ps ws rts inv b degree c X V e F i i), Nat.eqb_refl by lia. ring.
    - intros k Hk Ne. unfold dphi. rewrite (cardinal ps ws rts inv b degree c X V e F i k) by (unfold n in *; lia). destruct (Nat.eqb_spec k i); [congruence|ring].
  Qed.
  Lemma If_lobatto : kind = LobattoRoots -> If (x_left c) = f (x_left c) /\ If (x_right c) = f (x_right c).
  Proof.
    intros K. destruct (proj1 (made_object kind roots inv degree c) e (M m)) as (ps & ws & rts & b & F & _ & _ & Lo & _).
    destruct (Lo K) as (L0 & L1). assert (PT : g_points e = fun k => local_to_global c (nth k rts 0)) by apply F.
    assert (P0 : g_points e 0%nat = x_left c) by (rewrite PT, L0, map_is; field).
    assert (P1 : g_points e degree = x_right c) by (rewrite PT, L1, map_is; field).
    rewrite <- P0 at 2. rewrite <- P0 at 1. rewrite <- P1 at 2. rewrite <- P1 at 1. split; apply If_node; lia.
  Qed.
  (** the reconstructed flux as a function, for polynomial fluxes *)
  Lemma fr_follows : polynomial degree f ->
    forall x, is_derive (fun x => f x + GL x * (fl - f (x_left c)) + GR x * (fr - f (x_right c))) x (- rate x).
  Proof.
    intros Pf x. unfold rate. replace (- (- If' x - GL' x * (fl - f (x_left c)) - GR' x * (fr - f (x_right c))))
      with (If' x + (fl - f (x_left c)) * GL' x + (fr - f (x_right c)) * GR' x) by ring. destruct (G_derive x) as (DL & DR).
    apply (is_derive_plus (fun x => f x + GL x * (fl - f (x_left c))) (fun x => GR x * (fr - f (x_right c)))).
    - apply (is_derive_plus f (fun x => GL x * (fl - f (x_left c)))).
      + apply (is_derive_ext If); [intros; apply (If_poly_is Pf)|apply If_derive].
      + apply (is_derive_ext (fun x => (fl - f (x_left c)) * GL x)); [intros; apply Rmult_comm|]. apply (is_derive_scal GL), DL.
    - apply (is_derive_ext (fun x => (fr - f (x_right c)) * GR x)); [intros; apply Rmult_comm|]. apply (is_derive_scal GR), DR.
  Qed.
End FR.
