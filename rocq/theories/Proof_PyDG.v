(** Residuals of discontinuous Galerkin elements. *)
From Coq Require Import Reals List Arith Bool Lra Lia FunctionalExtensionality.
From Coquelicot Require Import Coquelicot.
From Verif Require Import Arrays RSum Spec_Gauss Proof_Gauss Model_PyEuler Model_PyPoly Spec_PyPoly Proof_PyPoly Proof_PyCorrect Proof_PyLagrange.
From Verif Require Import Model_PyIntegrator Proof_PyIntegrator Model_PyExpansion Spec_PyExpansion Proof_PyExpansion Model_PyNodal Proof_PyNodal.
From Verif Require Import Prop_PyNodal Model_PyElement Spec_PyElement Proof_PyElement.
From Verif Require Prop_PyExpansion.
Import ListNotations.
Open Scope R_scope.

Lemma integrate_ext i f g : (forall x, f x = g x) -> integrate i f = integrate i g.
Proof. intros H. f_equal. apply functional_extensionality, H. Qed.
Lemma integrate_zero i : integrate i (fun _ => 0) = 0.
Proof. exact (rule_linear i 0 (fun _ _ => 0)). Qed.
Lemma integrate_scal i k f : integrate i (fun x => k * f x) = k * integrate i f.
Proof.
  pose proof (rule_linear i 1 (fun _ x => k * f x)) as A. cbn [rsum] in A.
  unfold integrate. destruct (combine _ _) as [|[x w] rest]; [ring|]. assert (Z : w * (k * f x) = k * (w * f x)) by ring. rewrite Z. generalize (w * f x). clear A Z.
  induction rest as [|y rest IH]; intros s; cbn [fold_left]; [reflexivity|]. rewrite <- IH. f_equal. ring.
Qed.
Lemma divided n w b r : divide_weights n w b = Some r -> (forall k, (k < n)%nat -> w k <> 0) /\ forall k, r k = b k / w k.
Proof.
  unfold divide_weights. destruct (forallb _ _) eqn:E; [|discriminate]. intros H. injection H as <-. split; [|reflexivity].
  intros k Hk Z. rewrite forallb_forall in E. specialize (E k). destruct (Req_EM_T (w k) 0); [|contradiction].
  assert (false = true) by (apply E, in_seq; lia). discriminate.
Qed.
Lemma divides n w b : (forall k, (k < n)%nat -> w k <> 0) -> exists r, divide_weights n w b = Some r.
Proof.
  intros H. unfold divide_weights. destruct (forallb _ _) eqn:E; [eexists; reflexivity|].
  apply not_true_iff_false in E. exfalso. apply E. apply forallb_forall. intros k Hk. apply in_seq in Hk.
  destruct (Req_EM_T (w k) 0); [|reflexivity]. destruct (H k); [lia|assumption].
Qed.

Section Nodal.
  Variables (solve : nat -> (nat -> nat -> R) -> (nat -> R) -> option (nat -> R)) (kind : Kind) (roots : nat -> list R * list R).
  Variables (inv : nat -> (nat -> nat -> R) -> option (nat -> nat -> R)) (degree : nat) (c : Coordinate).
  Hypothesis (X : x_left c <> x_right c) (V : inverts inv) (SV : solves solve) (Ex : exact_rule kind roots degree).
  Let n := (degree + 1)%nat.
  Variables (q : Equation) (es : nat -> Lagrange) (m : nat) (f : Faces).
  Hypothesis (M : made kind roots inv degree c (es m)).
  Let e := es m.
  Let dphi (k j : nat) (x : R) := g_basis_derivatives e x k j.
  Lemma ends k j : g_boundary_basis kind e k true j = dphi k j (x_left c) /\ g_boundary_basis kind e k false j = dphi k j (x_right c).
  Proof. destruct (py_nodal_basis kind roots inv degree c e X V M) as (basis & _ & _ & _ & _ & _ & _ & B). apply (B k j). Qed.
  (** the right hand side of the weak form *)
  Definition rhs (k : nat) : R :=
    (match kind with UniformRoots => nodal_interior q es m k | _ => gauss_interior q es m k end)
    + dphi 0 k (x_left c) * left_flux f - dphi 0 k (x_right c) * right_flux f
    - (dphi 1 k (x_left c) * left_jump f + dphi 1 k (x_right c) * right_jump f).
  Lemma residual_is : nodal_residual solve kind q es m f =
    match kind with
    | UniformRoots => do mass <- g_innerproducts e; solve n mass rhs
    | _ => divide_weights n (g_weight e) rhs
    end.
  Proof.
    assert (N : g_n e = n). { destruct (proj1 (made_object kind roots inv degree c) e M) as (ps & ws & rts & b & F & _). apply F. }
    unfold nodal_residual. fold e. rewrite N.
    match goal with |- context [add_correction ?a ?b ?u ?v ?w] => assert (A : add_correction a b u v w = rhs) end.
    { apply functional_extensionality. intros k. unfold add_correction, add_interface, rhs. fold e.
      rewrite !(proj1 (ends _ k)), !(proj2 (ends _ k)). destruct kind; reflexivity. }
    rewrite A. reflexivity.
  Qed.
  Section Object.
    Variables (ps ws rts : list R) (b : bool).
    Hypothesis (F : nodal ps ws rts inv b degree c e) (Q : integrates (2 * degree - 1) ps ws) (GP : kind <> UniformRoots -> ps = rts).
    Notation app l := (l ps ws rts inv b degree c X V e F).
    Lemma gauss_nodes k : kind <> UniformRoots -> gauss_interior q es m k = rsum n (fun j => g_weight e j * (dphi 1 k (g_points e j) * node_flux q es j m)).
    Proof.
      intros K. unfold gauss_interior. fold e. rewrite (index_is ps ws rts inv b degree c e F) by apply Q. rewrite (GP K), (roots_length ps ws rts inv b degree c e F).
      apply rsum_ext. intros j Hj. rewrite (node_is ps ws rts inv b degree c e F j 1 k Hj). reflexivity.
    Qed.
    Lemma rhs_sum : rsum n rhs = left_flux f - right_flux f.
    Proof.
      assert (I : rsum n (fun k => match kind with UniformRoots => nodal_interior q es m k | _ => gauss_interior q es m k end) = 0).
      { assert (D : kind = UniformRoots \/ kind <> UniformRoots) by (destruct kind; auto; right; discriminate). destruct D as [K|K].
        - rewrite K. unfold nodal_interior. fold e. rewrite <- rule_linear. rewrite (integrate_ext _ _ (fun _ => 0)); [apply integrate_zero|].
          intros x. rewrite rsum_mul_r. rewrite (rsum_ext n _ (fun j => g_basis_derivatives e x 1 j)) by (intros; apply g_basis_first).
          rewrite (app basis_zero). ring.
        - transitivity (rsum n (fun k => rsum n (fun j => g_weight e j * (dphi 1 k (g_points e j) * node_flux q es j m)))).
          + apply rsum_ext. intros k _. rewrite <- (gauss_nodes k K). destruct kind; [congruence|reflexivity..].
          + rewrite rsum_swap. apply rsum_zero. intros j _. rewrite rsum_mul_l, rsum_mul_r. unfold dphi. rewrite (app basis_zero). ring. }
      unfold rhs.
      rewrite (rsum_ext n _ (fun k => (match kind with UniformRoots => nodal_interior q es m k | _ => gauss_interior q es m k end)
        + (left_flux f * dphi 0 k (x_left c) + ((- right_flux f) * dphi 0 k (x_right c)
        + ((- left_jump f) * dphi 1 k (x_left c) + (- right_jump f) * dphi 1 k (x_right c)))))) by (intros; ring).
      rewrite !rsum_add, I, !rsum_mul_l. unfold dphi. unfold n. rewrite !(app basis_one), !(app basis_zero). ring.
    Qed.
    Lemma mass_sum mass j r : g_innerproducts e = Some mass -> (j < n)%nat ->
      rsum n (fun k => mass j k * r k) = integrate (g_integrator e) (fun x => dphi 0 j x * rsum n (fun k => r k * dphi 0 k x)).
    Proof.
      intros E Hj. unfold g_innerproducts in E. destruct (g_basis_values e (g_center e)); [|discriminate]. cbn [bind] in E. injection E as <-.
      rewrite (integrate_ext _ _ (fun x => rsum n (fun k => r k * (dphi 0 j x * dphi 0 k x)))).
      - rewrite rule_linear. apply rsum_ext. intros k Hk. rewrite integrate_scal, Rmult_comm. f_equal. unfold basis_innerproducts. apply integrate_ext. intros x.
        assert (NV : forall k, (k < n)%nat -> match g_basis_values e x with Some v => nth k v 0 | None => 0 end = dphi 0 k x).
        { intros i Hi. rewrite (app g_values_list). rewrite (nth_indep _ 0 (ell rts 0 (xi c x))) by (rewrite map_length, seq_length; exact Hi).
          rewrite (map_nth (fun j => ell rts j (xi c x))), seq_nth by exact Hi. symmetry. apply (app g_basis_row). exact Hi. }
        rewrite !NV by assumption. reflexivity.
      - intros x. rewrite <- rsum_mul_l. apply rsum_ext. intros. ring.
    Qed.
    Lemma value_poly r : polynomial degree (fun x => rsum n (fun k => r k * dphi 0 k x)).
    Proof. apply (sum_poly rts degree (fun k x => dphi 0 k x) r n). intros k _. apply (basis_poly ps ws rts inv b degree c e F). Qed.
    Lemma value_integral r : is_RInt (fun x => rsum n (fun k => r k * dphi 0 k x)) (x_left c) (x_right c)
      (integrate (g_integrator e) (fun x => rsum n (fun k => r k * dphi 0 k x))).
    Proof.
      apply (nodal_exact ps ws rts inv b degree c X e F (2 * degree - 1)); [exact Q|]. apply (poly_mono degree); [lia|apply value_poly].
    Qed.
    Lemma value_at_node r j : (j < n)%nat -> rsum n (fun k => r k * dphi 0 k (g_points e j)) = r j.
    Proof.
      intros Hj. rewrite (rsum_single n j); [|exact Hj|].
      - unfold dphi. rewrite (app cardinal j j Hj Hj), Nat.eqb_refl. ring.
      - intros k Hk Ne. unfold dphi. rewrite (app cardinal j k Hj Hk). destruct (Nat.eqb_spec k j); [congruence|ring].
    Qed.
    Lemma nodal_conserved r e' : nodal_residual solve kind q es m f = Some r -> g_set_coeff e n r = Some e' ->
      conserves (x_left c) (x_right c) (g_value e') (left_flux f) (right_flux f).
    Proof.
      intros E S. rewrite residual_is in E. unfold conserves.
      apply (is_RInt_ext (fun x => rsum n (fun k => r k * dphi 0 k x))); [intros x _; symmetry; apply (app set_value r e' S)|].
      apply (is_RInt_val' _ _ _ _ _ (value_integral r)). rewrite <- rhs_sum.
      assert (D : kind = UniformRoots \/ kind <> UniformRoots) by (destruct kind; auto; right; discriminate). destruct D as [K|K].
      - rewrite K in E. destruct (g_innerproducts e) as [mass|] eqn:G; [|discriminate]. cbn [bind] in E. destruct (SV _ _ _ _ E) as (Eq & _).
        rewrite <- (rsum_ext n _ rhs Eq).
        rewrite (rsum_ext n _ (fun j => integrate (g_integrator e) (fun x => dphi 0 j x * rsum n (fun k => r k * dphi 0 k x)))) by (intros j Hj; apply (mass_sum mass j r G Hj)).
        rewrite <- rule_linear. apply integrate_ext. intros x. rewrite rsum_mul_r. unfold dphi at 2. unfold n. rewrite (app basis_one). ring.
      - assert (E' : divide_weights n (g_weight e) rhs = Some r) by (destruct kind; [congruence|exact E|exact E]).
        destruct (divided _ _ _ _ E') as (W & Rk). rewrite (rule_nodes ps ws rts inv b degree c e F) by (apply Q || apply GP, K).
        apply rsum_ext. intros j Hj. rewrite (value_at_node r j Hj), Rk. field. apply W, Hj.
    Qed.
    (** polynomial fluxes *)
    Lemma nodal_followed r e' : (forall k, ready kind roots inv degree c (es k)) ->
      polynomial degree (fun x => nodal_flux q es x m) -> f = mkFaces (nodal_flux q es (x_left c) m) (nodal_flux q es (x_right c) m) 0 0 ->
      nodal_residual solve kind q es m f = Some r -> g_set_coeff e n r = Some e' -> follows (g_value e') (fun x => nodal_flux q es x m).
    Proof.
      intros Rd Pf Ff E S. rewrite residual_is in E.
      destruct (poly_derive _ _ Pf) as (f' & Pf' & Df).
      assert (Pp : polynomial degree f') by (apply (poly_mono (degree - 1)); [lia|exact Pf']).
      assert (RH : forall k, (k < n)%nat -> rhs k = - integrate (g_integrator e) (fun x => dphi 0 k x * f' x)).
      { intros k Hk.
        rewrite (by_parts (integrate (g_integrator e)) (x_left c) (x_right c) (2 * degree - 1) degree (dphi 0 k) (dphi 1 k) (fun x => nodal_flux q es x m) f').
        - rewrite Ropp_involutive. unfold rhs. rewrite Ff. cbn [left_flux right_flux left_jump right_jump].
          match goal with |- ?a + ?u - ?v - ?w = ?b + ?u' - ?v' => assert (A : a = b); [|rewrite A; ring] end.
          assert (D : kind = UniformRoots \/ kind <> UniformRoots) by (destruct kind; auto; right; discriminate). destruct D as [K|K].
          + rewrite K. unfold nodal_interior. fold e. apply integrate_ext. intros x. rewrite g_basis_first. reflexivity.
          + transitivity (gauss_interior q es m k); [destruct kind; [congruence|reflexivity..]|]. rewrite (gauss_nodes k K).
            rewrite (rule_nodes ps ws rts inv b degree c e F) by (apply Q || apply GP, K). apply rsum_ext. intros j Hj. f_equal. f_equal.
            unfold node_flux, nodal_flux. fold e.
            assert (PT : forall i, g_points (es i) j = g_points e j).
            { (* all components have the same sample points *)
              intros i. destruct (proj2 (made_object kind roots inv degree c) (es i) (Rd i)) as (ps' & ws' & rts' & b' & F' & G' & _ & _ & RT' & _).
              destruct (proj1 (made_object kind roots inv degree c) e M) as (ps2 & ws2 & rts2 & b2 & F2 & G2 & _ & _ & RT2 & _).
              assert (P1 : g_points (es i) = fun k => local_to_global c (nth k rts' 0)) by apply F'.
              assert (P2 : g_points e = fun k => local_to_global c (nth k rts2 0)) by apply F2.
              rewrite P1, P2, RT', RT2. reflexivity. }
            assert (NV : forall i, g_node_value (es i) j 0 = g_value (es i) (g_points e j) /\ g_node_value (es i) j 1 = g_gradient (es i) (g_points e j)).
            { intros i. destruct (py_nodal_values kind roots inv degree c (es i) X V (Rd i)) as (_ & _ & (d & DD & DG & _ & DN & _) & _).
              rewrite !DN by (unfold n in Hj; lia). rewrite PT, DG. split; [apply (proj1 DD)|reflexivity]. }
            f_equal; apply functional_extensionality; intros i; apply (NV i).
        - intros g Pg. apply (nodal_exact ps ws rts inv b degree c X e F (2 * degree - 1)); assumption.
        - lia.
        - apply (basis_poly ps ws rts inv b degree c e F).
        - apply (basis_poly' ps ws rts inv b degree c e F).
        - intros x. apply (basis_derive' e 0 k x).
        - exact Pf.
        - exact Pf'.
        - exact Df. }
      assert (RK : forall k, (k < n)%nat -> r k = - f' (g_points e k)).
      { assert (D : kind = UniformRoots \/ kind <> UniformRoots) by (destruct kind; auto; right; discriminate). destruct D as [K|K].
        - rewrite K in E. destruct (g_innerproducts e) as [mass|] eqn:G; [|discriminate]. cbn [bind] in E. destruct (SV _ _ _ _ E) as (_ & Un).
          intros k Hk. symmetry. apply (Un (fun j => - f' (g_points e j))); [|exact Hk]. intros j Hj. rewrite (mass_sum mass j _ G Hj), (RH j Hj).
          rewrite (integrate_ext _ _ (fun x => (-1) * (dphi 0 j x * f' x))); [rewrite integrate_scal; ring|]. intros x.
          rewrite (rsum_ext n _ (fun k => (-1) * (f' (g_points e k) * dphi 0 k x))) by (intros; ring). rewrite rsum_mul_l. unfold dphi at 2.
          unfold n. rewrite (app values_reproduce f' x Pp). ring.
        - assert (E' : divide_weights n (g_weight e) rhs = Some r) by (destruct kind; [congruence|exact E|exact E]).
          destruct (divided _ _ _ _ E') as (W & Rk). intros k Hk. rewrite Rk, (RH k Hk).
          rewrite (rule_nodes ps ws rts inv b degree c e F) by (apply Q || apply GP, K). rewrite (rsum_single n k); [|exact Hk|].
          + unfold dphi. rewrite (app cardinal k k Hk Hk), Nat.eqb_refl. field. apply W, Hk.
          + intros j Hj Ne. unfold dphi. rewrite (app cardinal j k Hj Hk). destruct (Nat.eqb_spec k j); [congruence|ring]. }
      intros x. assert (A : g_value e' x = - f' x).
      { rewrite (app set_value r e' S x). rewrite (rsum_ext (degree + 1) _ (fun k => (-1) * (f' (g_points e k) * g_basis_derivatives e x 0 k))).
        - rewrite rsum_mul_l, (app values_reproduce f' x Pp). ring.
        - intros k Hk. rewrite (RK k Hk). ring. }
      rewrite A, Ropp_involutive. apply Df.
    Qed.
  End Object.
End Nodal.

(** weights of the elements on Gauss points *)
Lemma weights_nonzero kind roots inv degree c e : x_left c <> x_right c -> inverts inv -> exact_rule kind roots degree -> kind <> UniformRoots ->
  made kind roots inv degree c e -> forall k, (k < degree + 1)%nat -> g_weight e k <> 0.
Proof.
  intros X V Ex K M k Hk. destruct (proj1 (made_object kind roots inv degree c) e M) as (ps & ws & rts & b & F & Ga & Ru & _ & _ & B & LW & OW).
  assert (Q := Ru Ex). rewrite (weight_is ps ws rts inv b degree c e F) by apply Q.
  assert (W : nth k ws 0 <> 0).
  { destruct kind; [congruence| |].
    - apply (gauss_weight ps ws rts inv b degree c V e F k); [apply LW; auto|apply Ga, B, K|exact Hk].
    - destruct (OW eq_refl) as (P & L). rewrite List.Forall_forall in P. specialize (P (nth k ws 0)). assert (0 < nth k ws 0) by (apply P, nth_In; lia). lra. }
  intros Z. apply Rmult_integral in Z. destruct Z; [contradiction|]. lra.
Qed.

Section LegendreElement.
  Variables (roots : nat -> list R * list R) (inv : nat -> (nat -> nat -> R) -> option (nat -> nat -> R)) (degree : nat) (c : Coordinate).
  Hypothesis (X : x_left c <> x_right c) (V : inverts inv) (G : gauss roots (degree + 1)).
  Let n := (degree + 1)%nat.
  Variables (q : Equation) (es : nat -> Legendre) (m : nat) (f : Faces).
  Let e := es m.
  Hypothesis (F : frame roots inv degree c e).
  Let dphi (k j : nat) (x : R) := l_basis_derivatives e x k j.
  Definition lrhs (k : nat) : R := legendre_interior q es m k
    + dphi 0 k (x_left c) * left_flux f - dphi 0 k (x_right c) * right_flux f
    - (dphi 1 k (x_left c) * left_jump f + dphi 1 k (x_right c) * right_jump f).
  Lemma l_residual_is : legendre_residual q es m f = divide_weights n (l_weight e) lrhs.
  Proof.
    unfold legendre_residual. fold e. rewrite (proj1 F). f_equal. apply functional_extensionality. intros k.
    unfold add_correction, add_interface, lrhs, l_boundary_basis. fold e. rewrite (proj1 (frame_parts roots inv degree c e F)). reflexivity.
  Qed.
  Lemma l_weight_nz k : l_weight e k <> 0.
  Proof.
    unfold l_weight, mode_weight. destruct (frame_parts roots inv degree c e F) as (_ & _ & -> & _). pose proof (pos_INR k). intros Z.
    apply (Rmult_eq_compat_r (2 * INR k + 1)) in Z. unfold Rdiv in Z. rewrite Rmult_assoc, Rinv_l, Rmult_0_l, Rmult_1_r in Z by lra. lra.
  Qed.
  Lemma dphi_P k x : (k < n)%nat -> dphi 0 k x = P k (xi c x).
  Proof. intros Hk. apply (basis_row roots inv degree c X e k x F Hk). Qed.
  Lemma dphi_poly k : (k < n)%nat -> polynomial degree (dphi 0 k).
  Proof.
    intros Hk. apply (poly_ext _ (fun x => P k (- ((x_left c + x_right c) / 2) / ((x_right c - x_left c) / 2) + x * (1 / ((x_right c - x_left c) / 2))))).
    - intros x. rewrite (dphi_P k x Hk). f_equal. unfold xi. field. lra.
    - apply (poly_affine 0 degree (P k)). apply (poly_mono k); [unfold n in Hk; lia|apply P_poly].
  Qed.
  Lemma dphi_derive k x : is_derive (dphi 0 k) x (dphi 1 k x).
  Proof. apply basis_derive. Qed.
  Lemma dphi_poly' k : (k < n)%nat -> polynomial (degree - 1) (dphi 1 k).
  Proof.
    intros Hk. destruct (poly_derive _ _ (dphi_poly k Hk)) as (f' & Pf & D). apply (poly_ext _ f'); [|exact Pf].
    intros x. rewrite <- (is_derive_unique _ _ _ (D x)). apply is_derive_unique, dphi_derive.
  Qed.
  Lemma dphi_1_0 x : dphi 1 0 x = 0.
  Proof.
    rewrite <- (is_derive_unique _ _ _ (dphi_derive 0 x)). apply is_derive_unique. apply (is_derive_ext (fun _ => 1)).
    - intros t. rewrite (dphi_P 0 t) by (unfold n; lia). rewrite P_0. reflexivity.
    - auto_derive; reflexivity.
  Qed.
  Lemma l_exact g : polynomial (2 * degree - 1) g -> is_RInt g (x_left c) (x_right c) (integrate (l_integrator e) g).
  Proof.
    intros Pg. rewrite (rule_is roots inv degree c G e g F).
    apply (is_RInt_ext (fun x => g (local_to_global c (xi c x)))).
    - intros x _. f_equal. rewrite map_is. unfold xi. field. lra.
    - apply (to_element c X (fun y => g (local_to_global c y))). apply (rule_exact roots degree G (2 * degree - 1)); [lia|].
      apply (poly_ext _ (fun y => g ((x_left c + x_right c) / 2 + y * ((x_right c - x_left c) / 2)))); [intros y; rewrite map_is; reflexivity|].
      apply (poly_affine 0 (2 * degree - 1) g). exact Pg.
  Qed.
  Lemma l_conserved r e' : legendre_residual q es m f = Some r -> l_set_coeff e n r = Some e' ->
    conserves (x_left c) (x_right c) (l_value e') (left_flux f) (right_flux f).
  Proof.
    intros E S. rewrite l_residual_is in E. destruct (divided _ _ _ _ E) as (_ & Rk).
    unfold l_set_coeff in S. destruct (_ =? _)%nat; [|discriminate]. injection S as <-.
    set (e1 := mkLegendre (l_n e) (l_integrator e) (l_inverse e) r (l_taylor e)).
    pose proof (mean_is roots inv degree c X (l_set_taylor e1) F (set_represents roots inv degree c e1 F)) as A.
    unfold mean in A. unfold conserves. apply (is_RInt_val' _ _ _ _ _ A). change (l_average (l_set_taylor e1)) with (r 0%nat). rewrite Rk.
    assert (L : lrhs 0 = left_flux f - right_flux f).
    { unfold lrhs. rewrite !dphi_1_0, !dphi_P, !P_0 by (unfold n; lia).
      assert (Z : legendre_interior q es m 0 = 0).
      { unfold legendre_interior. fold e. rewrite (integrate_ext _ _ (fun _ => 0)); [apply integrate_zero|]. intros x. rewrite basis_first.
        change (l_basis_derivatives e x 1 0) with (dphi 1 0 x). rewrite dphi_1_0. ring. }
      rewrite Z. ring. }
    rewrite L. unfold l_weight, mode_weight. destruct (frame_parts roots inv degree c e F) as (_ & _ & -> & _). cbn [INR]. field. lra.
  Qed.
  Lemma l_followed r e' : polynomial degree (fun x => legendre_flux q es x m) ->
    f = mkFaces (legendre_flux q es (x_left c) m) (legendre_flux q es (x_right c) m) 0 0 ->
    legendre_residual q es m f = Some r -> l_set_coeff e n r = Some e' -> follows (l_value e') (fun x => legendre_flux q es x m).
  Proof.
    intros Pf Ff E S. rewrite l_residual_is in E. destruct (divided _ _ _ _ E) as (_ & Rk).
    destruct (poly_derive _ _ Pf) as (f' & Pf' & Df).
    assert (Pp : polynomial degree (fun x => f' x)) by (apply (poly_mono (degree - 1)); [lia|exact Pf']).
    assert (RH : forall k, (k < n)%nat -> lrhs k = - integrate (l_integrator e) (fun x => dphi 0 k x * f' x)).
    { intros k Hk.
      rewrite (by_parts (integrate (l_integrator e)) (x_left c) (x_right c) (2 * degree - 1) degree (dphi 0 k) (dphi 1 k) (fun x => legendre_flux q es x m) f').
      - rewrite Ropp_involutive. unfold lrhs. rewrite Ff. cbn [left_flux right_flux left_jump right_jump].
        match goal with |- ?a + ?u - ?v - ?w = ?b + ?u' - ?v' => assert (A : a = b); [|rewrite A; ring] end.
        unfold legendre_interior. fold e. apply integrate_ext. intros x. rewrite basis_first. reflexivity.
      - exact l_exact.
      - lia.
      - apply dphi_poly, Hk.
      - apply dphi_poly', Hk.
      - apply dphi_derive.
      - exact Pf.
      - exact Pf'.
      - exact Df. }
    destruct (reproduces roots inv degree c X G e f' F Pp) as (e2 & E2 & F2 & R2 & V2).
    unfold l_set_coeff in S. destruct (_ =? _)%nat; [|discriminate]. injection S as <-.
    set (e1 := mkLegendre (l_n e) (l_integrator e) (l_inverse e) r (l_taylor e)).
    assert (F1 : frame roots inv degree c (l_set_taylor e1)) by exact F.
    pose proof (set_represents roots inv degree c e1 F) as R1.
    assert (A : forall x, l_value (l_set_taylor e1) x = - f' x).
    { intros x. rewrite <- V2. rewrite (value_modes roots inv degree c X (l_set_taylor e1) x F1 R1), (value_modes roots inv degree c X e2 x F2 R2).
      rewrite (rsum_ext (degree + 1) _ (fun j => (-1) * (l_modes e2 j * P j (xi c x)))); [rewrite rsum_mul_l; ring|].
      intros j Hj. change (l_modes (l_set_taylor e1) j) with (r j). rewrite Rk, (RH j Hj).
      assert (M2 : l_modes e2 j = integrate (l_integrator e) (fun x => dphi 0 j x * f' x) / l_weight e j).
      { unfold l_approximate in E2. destruct (global_to_local (l_coordinate e) (l_center e)); [|discriminate]. cbn [bind] in E2. injection E2 as <-. cbn [l_modes l_set_taylor].
        f_equal. apply integrate_ext. intros y. rewrite (proj1 (frame_parts roots inv degree c e F)), (local_is c X), (dphi_P j y Hj). reflexivity. }
      rewrite M2. field. apply l_weight_nz. }
    intros x. rewrite A, Ropp_involutive. apply Df.
  Qed.
End LegendreElement.
