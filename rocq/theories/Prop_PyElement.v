(** C140, C141: residuals of the discontinuous Galerkin elements of the Python package *)
From Coq Require Import Reals List Arith Lra Lia FunctionalExtensionality.
From Coquelicot Require Import Coquelicot.
From Verif Require Import Arrays RSum Model_PyEuler Model_PyPoly Spec_PyPoly Proof_PyPoly Proof_PyLagrange.
From Verif Require Import Model_PyIntegrator Proof_PyIntegrator Model_PyExpansion Spec_PyExpansion Proof_PyExpansion Model_PyNodal Proof_PyNodal.
From Verif Require Import Prop_PyNodal Model_PyElement Spec_PyElement Proof_PyElement Proof_PyDG.
From Verif Require Prop_PyExpansion.
Import ListNotations.
Open Scope R_scope.

(** ** C140: conservation.  The residual, taken as coefficients of the expansion, has the integral that enters the element *)
Theorem py_dg_legendre_conserves roots inv degree c q es m f : x_left c <> x_right c -> inverts inv -> gauss roots (degree + 1) ->
  Prop_PyExpansion.made roots inv degree c (es m) ->
  exists r e', legendre_residual q es m f = Some r /\ l_set_coeff (es m) (degree + 1) r = Some e' /\
    conserves (x_left c) (x_right c) (l_value e') (left_flux f) (right_flux f).
Proof.
  intros X V G M. assert (F := proj1 (Prop_PyExpansion.made_frame roots inv degree c X) _ M).
  assert (exists r, legendre_residual q es m f = Some r) as (r & E).
  { rewrite (l_residual_is roots inv degree c q es m f F). apply divides. intros k _. apply (l_weight_nz roots inv degree c X es m F). }
  destruct (Prop_PyExpansion.py_legendre_setters roots inv degree c (es m) X V G M) as (S & _). destruct (S r) as (e' & Se & _).
  exists r, e'. split; [exact E|]. split; [exact Se|]. apply (l_conserved roots inv degree c X q es m f F r e' E Se).
Qed.
Print Assumptions py_dg_legendre_conserves.

Theorem py_dg_nodal_conserves solve kind roots inv degree c q es m f : x_left c <> x_right c -> inverts inv -> solves solve -> exact_rule kind roots degree ->
  made kind roots inv degree c (es m) ->
  (forall r, nodal_residual solve kind q es m f = Some r -> exists e', g_set_coeff (es m) (degree + 1) r = Some e' /\
    conserves (x_left c) (x_right c) (g_value e') (left_flux f) (right_flux f)) /\
  (kind <> UniformRoots -> exists r, nodal_residual solve kind q es m f = Some r).
Proof.
  intros X V SV Ex M. split.
  - intros r E. destruct (py_nodal_setters kind roots inv degree c (es m) X V M) as (S & _). destruct (S r) as (e' & Se & _). exists e'. split; [exact Se|].
    destruct (proj1 (made_object kind roots inv degree c) _ M) as (ps & ws & rts & b & F & Ga & Ru & _ & _ & B & _).
    apply (nodal_conserved solve kind roots inv degree c X V SV Ex q es m f M ps ws rts b F (Ru Ex) (fun K => Ga (B K)) r e' E Se).
  - intros K. rewrite (residual_is solve kind roots inv degree c X V Ex q es m f M).
    destruct (divides (degree + 1) (g_weight (es m)) (rhs kind c q es m f) (weights_nonzero kind roots inv degree c (es m) X V Ex K M)) as (r & E).
    exists r. destruct kind; [congruence|exact E|exact E].
Qed.
Print Assumptions py_dg_nodal_conserves.

(** ** C141: exactness.  If the flux is a polynomial of the degree, and the faces have its values and no jumps, the
    residual is minus its gradient *)
Theorem py_dg_legendre_exact roots inv degree c q es m r e' : x_left c <> x_right c -> inverts inv -> gauss roots (degree + 1) ->
  Prop_PyExpansion.made roots inv degree c (es m) -> polynomial degree (fun x => legendre_flux q es x m) ->
  legendre_residual q es m (mkFaces (legendre_flux q es (x_left c) m) (legendre_flux q es (x_right c) m) 0 0) = Some r ->
  l_set_coeff (es m) (degree + 1) r = Some e' -> follows (l_value e') (fun x => legendre_flux q es x m).
Proof.
  intros X V G M Pf E Se. assert (F := proj1 (Prop_PyExpansion.made_frame roots inv degree c X) _ M).
  exact (l_followed roots inv degree c X G q es m _ F r e' Pf eq_refl E Se).
Qed.
Print Assumptions py_dg_legendre_exact.

Theorem py_dg_nodal_exact solve kind roots inv degree c q es m r e' : x_left c <> x_right c -> inverts inv -> solves solve -> exact_rule kind roots degree ->
  (forall k, ready kind roots inv degree c (es k)) -> polynomial degree (fun x => nodal_flux q es x m) ->
  nodal_residual solve kind q es m (mkFaces (nodal_flux q es (x_left c) m) (nodal_flux q es (x_right c) m) 0 0) = Some r ->
  g_set_coeff (es m) (degree + 1) r = Some e' -> follows (g_value e') (fun x => nodal_flux q es x m).
Proof.
  intros X V SV Ex Rd Pf E Se. assert (M : made kind roots inv degree c (es m)) by (constructor; apply Rd).
  destruct (proj1 (made_object kind roots inv degree c) _ M) as (ps & ws & rts & b & F & Ga & Ru & _ & _ & B & _).
  exact (nodal_followed solve kind roots inv degree c X V SV Ex q es m _ M ps ws rts b F (Ru Ex) (fun K => Ga (B K)) r e' Rd Pf eq_refl E Se).
Qed.
Print Assumptions py_dg_nodal_exact.

(** advection and diffusion of several components, on [1, 5] with two terms *)
Definition solve2 (n : nat) (a : nat -> nat -> R) (b : nat -> R) : option (nat -> R) :=
  do m <- inv2 n a; Some (fun i => rsum n (fun j => m i j * b j)).
Lemma solve2_solves : solves solve2.
Proof.
  intros n a b x E. unfold solve2 in E. destruct (inv2 n a) as [m|] eqn:I; [|discriminate]. cbn [bind] in E. injection E as <-.
  assert (W := Prop_PyExpansion.inv2_inverts n a m I). split.
  - intros i Hi. rewrite (rsum_ext n _ (fun j => rsum n (fun k => a i j * m j k * b k))) by (intros; rewrite <- rsum_mul_l; apply rsum_ext; intros; ring).
    rewrite rsum_swap, (rsum_single n i); [|exact Hi|].
    + rewrite rsum_mul_r, (proj1 (W i i Hi Hi)), Nat.eqb_refl. ring.
    + intros k Hk Ne. rewrite rsum_mul_r, (proj1 (W i k Hi Hk)). destruct (Nat.eqb_spec i k); [congruence|ring].
  - intros y Y i Hi. rewrite (rsum_ext n _ (fun j => rsum n (fun k => m i j * a j k * y k))).
    + rewrite rsum_swap, (rsum_single n i); [|exact Hi|].
      * rewrite rsum_mul_r, (proj2 (W i i Hi Hi)), Nat.eqb_refl. ring.
      * intros k Hk Ne. rewrite rsum_mul_r, (proj2 (W i k Hi Hk)). destruct (Nat.eqb_spec i k); [congruence|ring].
    + intros j Hj. rewrite <- (Y j Hj), <- rsum_mul_l. apply rsum_ext. intros. ring.
Qed.
Lemma uniform_solvable e b : let c := Linear 1 5 in Nodal_init UniformRoots two_roots inv2 1 c = Some e ->
  exists mass r, g_innerproducts e = Some mass /\ solve2 2 mass b = Some r.
Proof.
  intros c E. assert (X : x_left c <> x_right c) by (cbn; lra).
  assert (M : made UniformRoots two_roots inv2 1 c e) by (constructor; exact E).
  destruct (proj1 (made_object UniformRoots two_roots inv2 1 c) e M) as (ps & ws & rts & bb & F & _ & _ & _ & RT & _).
  assert (U0 := proj2 (py_uniform_roots 2 0 ltac:(lia))). assert (U1 := proj2 (py_uniform_roots 2 1 ltac:(lia))). cbn [INR] in U0, U1.
  assert (VL := fun x => g_values_list ps ws rts inv2 bb 1 c X Prop_PyExpansion.inv2_inverts e F x).
  assert (L0 : forall y, ell rts 0 y = 1 / 2 - y).
  { intros y. rewrite RT. unfold local_nodes. cbn [Nat.add]. unfold ell. replace (length (uniform_roots 2)) with 2%nat by (symmetry; apply (py_uniform_roots 2 0); lia).
    unfold but, prodl; cbn [seq filter Nat.eqb negb map fold_right]. rewrite U0, U1. field. }
  assert (L1 : forall y, ell rts 1 y = 1 / 2 + y).
  { intros y. rewrite RT. unfold local_nodes. cbn [Nat.add]. unfold ell. replace (length (uniform_roots 2)) with 2%nat by (symmetry; apply (py_uniform_roots 2 0); lia).
    unfold but, prodl; cbn [seq filter Nat.eqb negb map fold_right]. rewrite U0, U1. field. }
  assert (IN : forall f, integrate (g_integrator e) f = 2 * f (3 - 2 * sqrt (1 / 3)) + 2 * f (3 + 2 * sqrt (1 / 3))).
  { intros f. cbn [Nodal_init] in E. unfold UniformRoots_init, Integrator_init, two_roots, Prop_PyExpansion.two_roots in E. cbn [Nat.add bind fst snd] in E.
    unfold Lagrange_init in E. destruct (negb (1 <? 100)%nat); [discriminate|]. destruct (negb _); [discriminate|].
    destruct (inv2 _ _); [|discriminate]. cbn [bind] in E. injection E as <-. cbn [g_integrator]. unfold integrate. cbn [global_points global_weights map combine fold_left fst snd].
    cbn [local_to_global local_to_jacobian c]. unfold linear_center, linear_jacobian.
    replace ((1 + 5) / 2 + - sqrt (1 / 3) * ((5 - 1) / 2)) with (3 - 2 * sqrt (1 / 3)) by field.
    replace ((1 + 5) / 2 + sqrt (1 / 3) * ((5 - 1) / 2)) with (3 + 2 * sqrt (1 / 3)) by field.
    field. }
  assert (exists mass, g_innerproducts e = Some mass /\
    forall j k, mass j k = let v y i := nth i [1 / 2 - y; 1 / 2 + y] 0 in let q := sqrt (1 / 3) in 2 * (v (- q) j * v (- q) k) + 2 * (v q j * v q k)) as (mass & G & MS).
  { unfold g_innerproducts. rewrite VL. cbn [bind]. eexists. split; [reflexivity|]. intros j k.
    assert (XI : forall x, xi c x = (x - 3) / 2) by (intros x; unfold xi, c; cbn [x_left x_right]; field).
    unfold basis_innerproducts. rewrite IN, !VL. cbn [Nat.add seq map]. rewrite !L0, !L1, !XI.
    replace ((3 - 2 * sqrt (1 / 3) - 3) / 2) with (- sqrt (1 / 3)) by field. replace ((3 + 2 * sqrt (1 / 3) - 3) / 2) with (sqrt (1 / 3)) by field. reflexivity. }
  exists mass. unfold solve2, inv2, Prop_PyExpansion.inv2. cbn [Nat.eqb]. rewrite !MS. cbn [nth].
  assert (S : sqrt (1 / 3) * sqrt (1 / 3) = 1 / 3) by (apply sqrt_sqrt; lra). set (q := sqrt (1 / 3)) in *.
  destruct (Req_EM_T _ 0) as [Z|]; [exfalso|cbn [bind]; eexists; split; [exact G|reflexivity]].
  ring_simplify in Z. replace (q ^ 2) with (1 / 3) in Z by (rewrite <- S; ring). lra.
Qed.
Example py_dg_example kind : let c := Linear 1 5 in
  x_left c <> x_right c /\ inverts inv2 /\ solves solve2 /\ exact_rule kind two_roots 1 /\
  exists q es r e', (forall k, ready kind two_roots inv2 1 c (es k)) /\
    nodal_flux q es (x_left c) 0 = - 3 /\ nodal_flux q es (x_right c) 0 = 5 /\ polynomial 1 (fun x => nodal_flux q es x 0) /\
    nodal_residual solve2 kind q es 0 (mkFaces (- 3) 5 0 0) = Some r /\ g_set_coeff (es 0%nat) 2 r = Some e' /\ forall x, g_value e' x = -2.
Proof.
  intros c. assert (X : x_left c <> x_right c) by (cbn; lra). split; [exact X|]. split; [exact Prop_PyExpansion.inv2_inverts|]. split; [exact solve2_solves|].
  assert (G : exact_rule kind two_roots 1) by (destruct kind; cbn [exact_rule Nat.add]; [apply Prop_PyExpansion.two_gauss|apply Prop_PyExpansion.two_gauss|lia]).
  split; [exact G|]. destruct (two_init kind) as (e & E). assert (M : made kind two_roots inv2 1 c e) by (constructor; exact E).
  (* the flux of the first component is twice the second component minus the gradient of the first *)
  set (q := mkEquation (fun u k => match k with O => 2 * u 1%nat | _ => u O end) (Some (fun _ _ du k => match k with O => du O | _ => 0 end))).
  set (t := fun i k : nat => match i, k with O, O => 11 | O, S _ => 3 | _, O => 2 | _, S _ => 1 end).
  set (es := fun i : nat => g_set_taylor_coeff e (t i)). exists q, es.
  assert (Rd : forall k, ready kind two_roots inv2 1 c (es k)) by (intros k; apply Set_taylor, M).
  destruct (py_nodal_setters kind two_roots inv2 1 c e X Prop_PyExpansion.inv2_inverts M) as (_ & _ & S & _).
  assert (V0 : forall x, g_value (es 0%nat) x = 3 * x + 2).
  { intros x. unfold es. rewrite S. change (x_center c) with ((1 + 5) / 2). cbn [Nat.add rsum pow t]. field. }
  assert (V1 : forall x, g_value (es 1%nat) x = x - 1).
  { intros x. unfold es. rewrite S. change (x_center c) with ((1 + 5) / 2). cbn [Nat.add rsum pow t]. field. }
  assert (D0 : forall x, g_gradient (es 0%nat) x = 3).
  { intros x. destruct (py_nodal_values kind two_roots inv2 1 c (es 0%nat) X Prop_PyExpansion.inv2_inverts (Rd _)) as (_ & _ & (d & (Z & DS) & DG & _) & _).
    rewrite DG. assert (W : is_derive (d 0%nat) x 3).
    { apply (is_derive_ext (fun x => 3 * x + 2)); [intros y; rewrite Z, V0; reflexivity|]. auto_derive; [trivial|ring]. }
    apply is_derive_unique in W. rewrite (is_derive_unique _ _ _ (DS 0%nat x)) in W. exact W. }
  assert (FL : forall x, nodal_flux q es x 0 = 2 * x - 5).
  { intros x. unfold nodal_flux, dg_flux. cbn [q diffusive convective]. rewrite V1, D0. ring. }
  assert (exists r, nodal_residual solve2 kind q es 0 (mkFaces (- 3) 5 0 0) = Some r) as (r & E1).
  { assert (D : kind = UniformRoots \/ kind <> UniformRoots) by (destruct kind; auto; right; discriminate). destruct D as [K|K].
    - subst kind. rewrite (residual_is solve2 UniformRoots two_roots inv2 1 c X Prop_PyExpansion.inv2_inverts G q es 0 _ (Ready _ _ _ _ _ _ (Rd 0%nat))).
      destruct (uniform_solvable e (rhs UniformRoots c q es 0 (mkFaces (- 3) 5 0 0)) E) as (mass & r & GM & SM).
      assert (GE : g_innerproducts (es 0%nat) = g_innerproducts e) by reflexivity. rewrite GE, GM. exists r. exact SM.
    - apply (proj2 (py_dg_nodal_conserves solve2 kind two_roots inv2 1 c q es 0 _ X Prop_PyExpansion.inv2_inverts solve2_solves G (Ready _ _ _ _ _ _ (Rd 0%nat))) K). }
  destruct (py_nodal_setters kind two_roots inv2 1 c (es 0%nat) X Prop_PyExpansion.inv2_inverts (Ready _ _ _ _ _ _ (Rd 0%nat))) as (S0 & _).
  destruct (S0 r) as (e' & Se & _). exists r, e'.
  assert (PF : polynomial 1 (fun x => nodal_flux q es x 0)).
  { exists (fun k => match k with O => -5 | _ => 2 end). intros x. rewrite FL. unfold Spec_Gauss.poly1. cbn. ring. }
  split; [exact Rd|]. split; [rewrite FL; cbn; lra|]. split; [rewrite FL; cbn; lra|]. split; [exact PF|]. split; [exact E1|]. split; [exact Se|].
  intros x. assert (FF : mkFaces (- 3) 5 0 0 = mkFaces (nodal_flux q es (x_left c) 0) (nodal_flux q es (x_right c) 0) 0 0) by (rewrite !FL; f_equal; cbn; lra).
  rewrite FF in E1. pose proof (py_dg_nodal_exact solve2 kind two_roots inv2 1 c q es 0 r e' X Prop_PyExpansion.inv2_inverts solve2_solves G Rd PF E1 Se x) as D.
  assert (W : is_derive (fun x => nodal_flux q es x 0) x 2).
  { apply (is_derive_ext (fun x => 2 * x - 5)); [intros y; rewrite FL; reflexivity|]. auto_derive; [trivial|ring]. }
  assert (- g_value e' x = 2) by (rewrite <- (is_derive_unique _ _ _ D); apply is_derive_unique, W). lra.
Qed.
