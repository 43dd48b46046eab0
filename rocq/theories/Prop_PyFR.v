(** C142 - C146: flux reconstruction on elements of the Python package *)
From Coq Require Import Reals List Arith Lra Lia FunctionalExtensionality.
From Coquelicot Require Import Coquelicot.
From Verif Require Import Arrays RSum Model_PyEuler Proof_PyEuler Model_PyPoly Spec_PyPoly Proof_PyPoly Proof_PyLagrange.
From Verif Require Import Model_PyIntegrator Proof_PyIntegrator Model_PyExpansion Spec_PyExpansion Proof_PyExpansion Model_PyNodal Proof_PyNodal.
From Verif Require Import Prop_PyNodal Model_PyElement Spec_PyElement Proof_PyElement Proof_PyDG Model_PyFR Spec_PyFR Proof_PyFR.
From Verif Require Prop_PyExpansion Prop_PyPoly Model_PyRiemann Spec_Gauss.
Import ListNotations.
Open Scope R_scope.

(** ** C142: the reconstructed flux has the given values at the ends *)
Lemma mirror_poly d (h k : R -> R) : mirrored h k -> polynomial d k -> polynomial d h.
Proof.
  intros Mi P. apply (poly_ext _ (fun x => k (0 + x * -1))); [intros x; rewrite Mi; f_equal; ring|]. apply (poly_affine 0 d k 0 (-1) P).
Qed.
Theorem py_corrections_proper :
  (forall degree mu v, Vincent_init degree mu = Some v -> ((2 <= degree)%nat \/ mu O = 1) ->
     let g := vincent_correction v in g_degree g = degree /\ proper degree (g_at g) (g_slope g)) /\
  (forall solve roots degree n_lump k,
     (forall n A b z, solve n A b = Some z -> forall l, (l < n)%nat -> rsum n (fun i => A l i * z i) = b l) ->
     (forall n, (1 <= n)%nat -> integrates (2 * n - 1) (fst (roots n)) (snd (roots n))) ->
     Huynh_init solve roots degree n_lump = Some k ->
     let g := huynh_correction degree k in g_degree g = degree /\ proper degree (g_at g) (g_slope g)).
Proof.
  split.
  - intros degree mu v E H g. destruct (Prop_PyPoly.py_vincent degree mu v E H) as (D & C & Mi & S & _ & P). split; [exact D|].
    split; [exact C|]. split; [exact S|]. split; [apply (mirror_poly _ _ _ Mi P)|exact P].
  - intros solve roots degree n_lump k HS HR E g. destruct (Prop_PyPoly.py_huynh solve roots degree n_lump k HS HR E) as (C & Mi & _ & _ & P & S). split; [reflexivity|].
    split; [exact C|]. split; [exact S|]. split; [apply (mirror_poly _ _ _ Mi P)|exact P].
Qed.
Print Assumptions py_corrections_proper.
Lemma added kind roots inv degree c e g : ready kind roots inv degree c e -> add_correction_function e g = Some g -> g_degree g = (degree + 1)%nat.
Proof.
  intros Rd A. destruct (proj2 (made_object kind roots inv degree c) e Rd) as (ps & ws & rts & b & F & _).
  assert (N : g_n e = (degree + 1)%nat) by apply F. unfold add_correction_function in A. rewrite N in A.
  destruct (Nat.eqb_spec (g_degree g) (degree + 1 - 1 + 1)); [lia|discriminate].
Qed.
Theorem py_fr_flux_ends kind roots inv degree c q es g m fl fr : x_left c <> x_right c -> inverts inv ->
  (forall k, ready kind roots inv degree c (es k)) -> add_correction_function (es m) g = Some g -> proper (g_degree g) (g_at g) (g_slope g) ->
  continues (x_left c) (x_right c) (fr_flux q es g m fl fr) fl fr.
Proof.
  intros X V Rd A (( P1 & P2 & P3 & P4) & _). split.
  - rewrite (fr_flux_is kind roots inv degree c X q es m g fl fr Rd), (xi_left c X), P1, P3. f_equal. ring.
  - rewrite (fr_flux_is kind roots inv degree c X q es m g fl fr Rd), (xi_right c X), P2, P4. f_equal. ring.
Qed.
Print Assumptions py_fr_flux_ends.

(** ** C143: Radau's polynomials are polynomials of the package, but their order is the opposite one *)
Theorem py_fr_radau kind roots inv degree c q es m fl fr : x_left c <> x_right c -> inverts inv ->
  (forall k, ready kind roots inv degree c (es k)) ->
  let g := radau_correction (degree + 1) in
  add_correction_function (es m) g = Some g /\
  continues (x_left c) (x_right c) (fr_flux q es g m fl fr)
    (nodal_flux q es (x_left c) m + (fr - nodal_flux q es (x_right c) m)) (nodal_flux q es (x_right c) m + (fl - nodal_flux q es (x_left c) m)).
Proof.
  intros X V Rd g. split.
  - destruct (proj2 (made_object kind roots inv degree c) (es m) (Rd m)) as (ps & ws & rts & b & F & _).
    assert (N : g_n (es m) = (degree + 1)%nat) by apply F. unfold add_correction_function. rewrite N. cbn [g g_degree radau_correction].
    replace (degree + 1 - 1 + 1)%nat with (degree + 1)%nat by lia. rewrite Nat.eqb_refl. reflexivity.
  - destruct (Prop_PyPoly.py_radau (degree + 1)) as ((P1 & P2 & P3 & P4) & _). { unfold Radau_ok. apply Nat.leb_le. lia. } split.
    + rewrite (fr_flux_is kind roots inv degree c X q es m g fl fr Rd), (xi_left c X). cbn [g g_at radau_correction]. rewrite P1, P3. f_equal. ring.
    + rewrite (fr_flux_is kind roots inv degree c X q es m g fl fr Rd), (xi_right c X). cbn [g g_at radau_correction]. rewrite P2, P4. f_equal. ring.
Qed.
Print Assumptions py_fr_radau.

(** elements on [1, 5] with two sample points *)
Notation c15 := (Linear 1 5).
Definition line (e : Lagrange) (a b : R) : Lagrange := g_set_taylor_coeff e (fun k => match k with O => a | _ => b / 2 end).
Lemma line_is kind e a b : Nodal_init kind two_roots inv2 1 c15 = Some e -> ready kind two_roots inv2 1 c15 (line e a b) /\
  (forall x, g_value (line e a b) x = a + b * xi c15 x) /\ g_points (line e a b) = g_points e.
Proof.
  intros E. assert (X : x_left c15 <> x_right c15) by (cbn; lra). assert (M : made kind two_roots inv2 1 c15 e) by (constructor; exact E).
  split; [apply Set_taylor, M|]. split; [|reflexivity]. intros x.
  destruct (py_nodal_setters kind two_roots inv2 1 c15 e X Prop_PyExpansion.inv2_inverts M) as (_ & _ & S & _).
  unfold line. rewrite S. unfold xi. change (x_center c15) with ((1 + 5) / 2). cbn [Nat.add rsum pow x_left x_right]. field.
Qed.
Definition square_of (kind : Kind) : R := match kind with UniformRoots => 1 / 4 | LegendreRoots => 1 / 3 | LobattoRoots => 1 end.
Lemma two_nodes kind e j : Nodal_init kind two_roots inv2 1 c15 = Some e -> (j < 2)%nat -> xi c15 (g_points e j) * xi c15 (g_points e j) = square_of kind.
Proof.
  intros E Hj. assert (X : x_left c15 <> x_right c15) by (cbn; lra). assert (M : made kind two_roots inv2 1 c15 e) by (constructor; exact E).
  destruct (proj1 (made_object kind two_roots inv2 1 c15) e M) as (ps & ws & rts & b & F & _ & _ & _ & RT & _).
  assert (PT : g_points e = fun k => local_to_global c15 (nth k rts 0)) by apply F. rewrite PT, (xi_point rts c15 X j), RT.
  destruct kind; unfold local_nodes; cbn [Nat.add square_of].
  - rewrite (proj2 (py_uniform_roots 2 j Hj)). destruct j as [|[|]]; cbn [INR]; [field|field|lia].
  - unfold two_roots, Prop_PyExpansion.two_roots. cbn [fst]. assert (S : sqrt (1 / 3) * sqrt (1 / 3) = 1 / 3) by (apply sqrt_sqrt; lra).
    destruct j as [|[|]]; cbn [nth]; [transitivity (sqrt (1 / 3) * sqrt (1 / 3)); [ring|exact S]|exact S|lia].
  - cbn [GaussLobatto_points Nat.eqb Nat.leb]. destruct j as [|[|]]; cbn; [ring|ring|lia].
Qed.
(** the equations of the package as equations of elements *)
Definition scalar_equation (e : Model_PyRiemann.Equation) : Equation := mkEquation (fun u _ => Model_PyRiemann.get_convective_flux e (u O)) None.
Definition euler_equation (gamma : R) : Equation :=
  mkEquation (fun u m => match get_convective_flux gamma (arr (u 0%nat) (u 1%nat) (u 2%nat)) with
    | Some f => match m with O => a0 f | S O => a1 f | _ => a2 f end | None => 0 end) None.
Definition vincent2 : Correction := vincent_correction (mkVincent 1 1 0).
Lemma vincent2_proper : proper (g_degree vincent2) (g_at vincent2) (g_slope vincent2).
Proof.
  destruct (proj1 py_corrections_proper 2%nat discontinuous_galerkin (mkVincent 1 1 0)) as (D & P).
  - unfold Vincent_init, discontinuous_galerkin. cbn. do 2 f_equal. ring.
  - left. lia.
  - exact P.
Qed.
Lemma vincent2_added kind e : ready kind two_roots inv2 1 c15 e -> add_correction_function e vincent2 = Some vincent2.
Proof.
  intros Rd. destruct (proj2 (made_object kind two_roots inv2 1 c15) e Rd) as (ps & ws & rts & b & F & _).
  assert (N : g_n e = 2%nat) by apply F. unfold add_correction_function. rewrite N. reflexivity.
Qed.
Theorem py_fr_radau_refuted : forall kind, exists roots inv degree c q es m fl fr, let g := radau_correction (degree + 1) in
  x_left c <> x_right c /\ inverts inv /\ (forall k, ready kind roots inv degree c (es k)) /\ Radau_ok (degree + 1) = true /\
  add_correction_function (es m) g = Some g /\ ~ continues (x_left c) (x_right c) (fr_flux q es g m fl fr) fl fr.
Proof.
  intros kind. destruct (two_init kind) as (e & E). cbn beta zeta in E. assert (X : x_left c15 <> x_right c15) by (cbn; lra).
  destruct (line_is kind e 0 0 E) as (Rd & VL & _). set (es := fun _ : nat => line e 0 0).
  exists two_roots, inv2, 1%nat, c15, (scalar_equation (Model_PyRiemann.ELinear 1 0)), es, 0%nat, 1, 0. intros g.
  split; [exact X|]. split; [exact Prop_PyExpansion.inv2_inverts|]. split; [intros k; exact Rd|]. split; [reflexivity|].
  destruct (py_fr_radau kind two_roots inv2 1 c15 (scalar_equation (Model_PyRiemann.ELinear 1 0)) es 0 1 0 X Prop_PyExpansion.inv2_inverts (fun _ => Rd)) as (A & (B & _)).
  split; [exact A|]. intros (C & _). unfold g in C. rewrite B in C. injection C as C.
  unfold nodal_flux, dg_flux, scalar_equation, es in C. cbn [diffusive convective Model_PyRiemann.get_convective_flux] in C. rewrite !VL in C. lra.
Qed.
Print Assumptions py_fr_radau_refuted.

(** ** C144: polynomial fluxes.  The residual is minus the derivative of the reconstructed flux, and conserves *)
Theorem py_fr_exact kind roots inv degree c q es g m fl fr : x_left c <> x_right c -> inverts inv ->
  (forall k, ready kind roots inv degree c (es k)) -> add_correction_function (es m) g = Some g -> proper (g_degree g) (g_at g) (g_slope g) ->
  polynomial degree (fun x => nodal_flux q es x m) ->
  exists r e' flux, fr_residual kind q es g m fl fr = Some r /\ g_set_coeff (es m) (degree + 1) r = Some e' /\
    (forall x, fr_flux q es g m fl fr x = Some (flux x) /\ fr_flux_gradient q es g m fl fr x = Some (- g_value e' x)) /\
    follows (g_value e') flux /\ conserves (x_left c) (x_right c) (g_value e') fl fr /\
    (fl = nodal_flux q es (x_left c) m -> fr = nodal_flux q es (x_right c) m -> follows (g_value e') (fun x => nodal_flux q es x m)).
Proof.
  intros X V Rd A P Pf. rewrite (added _ _ _ _ _ _ _ (Rd m) A) in P.
  destruct (fr_residual_is kind roots inv degree c X q es m g fl fr Rd) as (r & E).
  destruct (py_nodal_setters kind roots inv degree c (es m) X V (Ready _ _ _ _ _ _ (Rd m))) as (S & _). destruct (S r) as (e' & Se & _).
  pose proof (fr_value kind roots inv degree c X V q es m g fl fr Rd P r e' E Se) as Vl.
  exists r, e'. eexists. split; [exact E|]. split; [exact Se|]. split; [|split; [|split]].
  - intros x. split; [apply (fr_flux_is kind roots inv degree c X q es m g fl fr Rd)|].
    rewrite (fr_gradient_is kind roots inv degree c X V q es m g fl fr Rd), Vl. f_equal. unfold rate. ring.
  - intros x. rewrite Vl. apply (fr_follows kind roots inv degree c X V q es m g fl fr Rd P Pf).
  - unfold conserves. pose proof (fr_balance kind roots inv degree c X V q es m g fl fr Rd P r e' E Se) as B.
    rewrite !(If_poly_is kind roots inv degree c X V q es m Rd Pf) in B.
    match type of B with is_RInt _ _ _ ?v => replace (fl - fr) with v by ring end. exact B.
  - intros -> -> x. rewrite Vl.
    pose proof (fr_follows kind roots inv degree c X V q es m g (nodal_flux q es (x_left c) m) (nodal_flux q es (x_right c) m) Rd P Pf x) as D.
    apply (is_derive_ext (fun x0 : R => nodal_flux q es x0 m + fst (g_at g (xi c x0)) * (nodal_flux q es (x_left c) m - nodal_flux q es (x_left c) m) + snd (g_at g (xi c x0)) * (nodal_flux q es (x_right c) m - nodal_flux q es (x_right c) m))); [|exact D].
    intros t. match goal with |- @eq _ ?a ?b => change (@eq R a b) end. ring.
Qed.
Print Assumptions py_fr_exact.

(** ** C145: conservation.  It holds on Lobatto nodes, but not on uniform and Legendre nodes *)
Theorem py_fr_lobatto_conserves roots inv degree c q es g m fl fr : x_left c <> x_right c -> inverts inv ->
  (forall k, ready LobattoRoots roots inv degree c (es k)) -> add_correction_function (es m) g = Some g -> proper (g_degree g) (g_at g) (g_slope g) ->
  exists r e', fr_residual LobattoRoots q es g m fl fr = Some r /\ g_set_coeff (es m) (degree + 1) r = Some e' /\
    conserves (x_left c) (x_right c) (g_value e') fl fr.
Proof.
  intros X V Rd A P. rewrite (added _ _ _ _ _ _ _ (Rd m) A) in P.
  destruct (fr_residual_is LobattoRoots roots inv degree c X q es m g fl fr Rd) as (r & E).
  destruct (py_nodal_setters LobattoRoots roots inv degree c (es m) X V (Ready _ _ _ _ _ _ (Rd m))) as (S & _). destruct (S r) as (e' & Se & _).
  exists r, e'. split; [exact E|]. split; [exact Se|]. unfold conserves.
  pose proof (fr_balance LobattoRoots roots inv degree c X V q es m g fl fr Rd P r e' E Se) as B.
  destruct (If_lobatto LobattoRoots roots inv degree c X V q es m Rd eq_refl) as (I0 & I1). rewrite I0, I1 in B.
  match type of B with is_RInt _ _ _ ?v => replace (fl - fr) with v by ring end. exact B.
Qed.
Print Assumptions py_fr_lobatto_conserves.
(** gas of density one, momentum between -1 and 1 and energy one *)
Definition gas (e : Lagrange) (k : nat) : Lagrange := match k with O => line e 1 0 | S O => line e 0 1 | _ => line e 1 0 end.
Lemma gas_flux kind e x : Nodal_init kind two_roots inv2 1 c15 = Some e -> xi c15 x * xi c15 x <= 1 ->
  nodal_flux (euler_equation (7 / 5)) (gas e) x 2 = 7 / 5 * xi c15 x - 1 / 5 * (xi c15 x * xi c15 x) * xi c15 x.
Proof.
  intros E B. unfold nodal_flux, dg_flux, euler_equation. cbn [diffusive convective gas].
  rewrite !(fun a b => proj1 (proj2 (line_is kind e a b E))). replace (1 + 0 * xi c15 x) with 1 by ring. replace (0 + 1 * xi c15 x) with (xi c15 x) by ring.
  set (y := xi c15 x) in *. unfold get_convective_flux, conservative_to_primitive. cbn [a0 a1 a2].
  destruct (Req_EM_T 1 0); [lra|]. cbn [bind]. replace (y / 1) with y by field.
  destruct (Rge_dec 1 0); [|lra]. destruct (Rge_dec ((1 - y * y / 2) * (7 / 5 - 1)) 0) as [|N]; [|exfalso; apply N; nra].
  cbn [bind a2 scale3]. field.
Qed.
Theorem py_fr_conserves_refuted : forall kind, kind <> LobattoRoots -> exists roots inv degree c gamma es g m fl fr r e', let q := euler_equation gamma in
  x_left c <> x_right c /\ inverts inv /\ gauss roots (degree + 1) /\ (forall k, ready kind roots inv degree c (es k)) /\
  (forall x, x_left c <= x <= x_right c -> exists w, conservative_to_primitive gamma (arr (g_value (es 0%nat) x) (g_value (es 1%nat) x) (g_value (es 2%nat) x)) = Some w) /\
  add_correction_function (es m) g = Some g /\ proper (g_degree g) (g_at g) (g_slope g) /\
  fl = nodal_flux q es (x_left c) m /\ fr = nodal_flux q es (x_right c) m /\
  fr_residual kind q es g m fl fr = Some r /\ g_set_coeff (es m) (degree + 1) r = Some e' /\
  ~ conserves (x_left c) (x_right c) (g_value e') fl fr.
Proof.
  intros kind K. destruct (two_init kind) as (e & E). cbn beta zeta in E. assert (X : x_left c15 <> x_right c15) by (cbn; lra).
  set (q := euler_equation (7 / 5)). set (es := gas e).
  assert (Rd : forall k, ready kind two_roots inv2 1 c15 (es k)) by (intros [|[|]]; apply (line_is kind e _ _ E)).
  assert (P : proper (1 + 1) (g_at vincent2) (g_slope vincent2)) by exact vincent2_proper.
  set (fl := nodal_flux q es (x_left c15) 2). set (fr := nodal_flux q es (x_right c15) 2).
  destruct (fr_residual_is kind two_roots inv2 1 c15 X q es 2 vincent2 fl fr Rd) as (r & Er).
  destruct (py_nodal_setters kind two_roots inv2 1 c15 (es 2%nat) X Prop_PyExpansion.inv2_inverts (Ready _ _ _ _ _ _ (Rd 2%nat))) as (S & _). destruct (S r) as (e' & Se & _).
  exists two_roots, inv2, 1%nat, c15, (7 / 5), es, vincent2, 2%nat, fl, fr, r, e'. intros q'. unfold q'. fold q.
  split; [exact X|]. split; [exact Prop_PyExpansion.inv2_inverts|]. split; [apply Prop_PyExpansion.two_gauss|]. split; [exact Rd|]. split; [|split; [|split; [|split; [|split; [|split; [|split]]]]]].
  - intros x Hx. cbn [x_left x_right] in Hx. cbn [es gas]. rewrite !(fun a b => proj1 (proj2 (line_is kind e a b E))).
    assert (B : xi c15 x * xi c15 x <= 1) by (unfold xi; cbn [x_left x_right]; nra).
    replace (1 + 0 * xi c15 x) with 1 by ring. replace (0 + 1 * xi c15 x) with (xi c15 x) by ring. set (y := xi c15 x) in *.
    unfold conservative_to_primitive. cbn [a0 a1 a2]. destruct (Req_EM_T 1 0); [lra|]. cbn [bind]. replace (y / 1) with y by field.
    destruct (Rge_dec 1 0); [|lra]. destruct (Rge_dec ((1 - y * y / 2) * (7 / 5 - 1)) 0) as [|N]; [eexists; reflexivity|exfalso; apply N; nra].
  - apply (vincent2_added kind). apply Rd.
  - exact vincent2_proper.
  - reflexivity.
  - reflexivity.
  - exact Er.
  - exact Se.
  - intros C. unfold conserves in C. pose proof (fr_balance kind two_roots inv2 1 c15 X Prop_PyExpansion.inv2_inverts q es 2 vincent2 fl fr Rd P r e' Er Se) as B.
    apply (@is_RInt_unique R_CompleteNormedModule) in C. apply (@is_RInt_unique R_CompleteNormedModule) in B. rewrite C in B.
    assert (IF : forall x, If 1 q es 2 x = (7 / 5 - 1 / 5 * square_of kind) * xi c15 x).
    { intros x. destruct (proj1 (made_object kind two_roots inv2 1 c15) (es 2%nat) (Ready _ _ _ _ _ _ (Rd 2%nat))) as (ps & ws & rts & b & F & _).
      rewrite <- (values_reproduce ps ws rts inv2 b 1 c15 X Prop_PyExpansion.inv2_inverts (es 2%nat) F (fun x => (7 / 5 - 1 / 5 * square_of kind) * xi c15 x) x).
      - unfold If. apply rsum_ext. intros j Hj. f_equal. cbn [es gas]. rewrite (proj2 (proj2 (line_is kind e 1 0 E))).
        pose proof (two_nodes kind e j E Hj) as SQ. fold es. unfold q, es. rewrite (gas_flux kind e _ E).
        + rewrite SQ. ring.
        + rewrite SQ. destruct kind; cbn [square_of]; lra.
      - exists (fun k => match k with O => (7 / 5 - 1 / 5 * square_of kind) * - (3 / 2) | _ => (7 / 5 - 1 / 5 * square_of kind) / 2 end).
        intros t. unfold Spec_Gauss.poly1, xi. cbn [x_left x_right rsum pow]. field. }
    rewrite !IF in B. unfold fl, fr, q, es in B. rewrite !(gas_flux kind e _ E) in B by (rewrite ?(xi_left c15 X), ?(xi_right c15 X); lra).
    rewrite (xi_left c15 X), (xi_right c15 X) in B. destruct kind; cbn [square_of] in B; [lra|lra|congruence].
Qed.
Print Assumptions py_fr_conserves_refuted.

(** ** C146: [get_fr_flux_gradient] is the gradient of [get_fr_flux] for polynomial fluxes (above), but not in general *)
Theorem py_fr_gradient_refuted : forall kind, exists roots inv degree c q es g m fl fr flux x v,
  x_left c <> x_right c /\ inverts inv /\ gauss roots (degree + 1) /\ (forall k, ready kind roots inv degree c (es k)) /\
  q = scalar_equation (Model_PyRiemann.EBurgers 1 0) /\
  add_correction_function (es m) g = Some g /\ proper (g_degree g) (g_at g) (g_slope g) /\
  (forall x, fr_flux q es g m fl fr x = Some (flux x)) /\ x_left c < x < x_right c /\
  fr_flux_gradient q es g m fl fr x = Some v /\ ~ is_derive flux x v.
Proof.
  intros kind. destruct (two_init kind) as (e & E). cbn beta zeta in E. assert (X : x_left c15 <> x_right c15) by (cbn; lra).
  set (q := scalar_equation (Model_PyRiemann.EBurgers 1 0)). set (es := fun _ : nat => line e 0 1).
  destruct (line_is kind e 0 1 E) as (Rd & VL & PL). set (Rds := fun _ : nat => Rd).
  assert (FX : forall x, nodal_flux q es x 0 = xi c15 x * xi c15 x / 2).
  { intros x. unfold nodal_flux, dg_flux, q, scalar_equation, es. cbn [diffusive convective Model_PyRiemann.get_convective_flux]. rewrite VL. field. }
  exists two_roots, inv2, 1%nat, c15, q, es, vincent2, 0%nat, (1 / 2), (1 / 2), (fun x => xi c15 x * xi c15 x / 2), 4, 0.
  split; [exact X|]. split; [exact Prop_PyExpansion.inv2_inverts|]. split; [apply Prop_PyExpansion.two_gauss|]. split; [exact Rds|]. split; [reflexivity|].
  split; [apply (vincent2_added kind); exact Rd|]. split; [exact vincent2_proper|]. split; [|split; [cbn; lra|split]].
  - intros x. rewrite (fr_flux_is kind two_roots inv2 1 c15 X q es 0 vincent2 _ _ Rds), !FX, (xi_left c15 X), (xi_right c15 X). f_equal. field.
  - rewrite (fr_gradient_is kind two_roots inv2 1 c15 X Prop_PyExpansion.inv2_inverts q es 0 vincent2 _ _ Rds), !FX, (xi_left c15 X), (xi_right c15 X).
    assert (Z : If' 1 q es 0 4 = 0); [|rewrite Z; f_equal; field; cbn [x_left x_right]; lra].
    assert (IF : forall x, If 1 q es 0 x = square_of kind / 2).
    { intros x. destruct (proj2 (made_object kind two_roots inv2 1 c15) (es 0%nat) Rd) as (ps & ws & rts & b & F & _).
      rewrite <- (values_reproduce ps ws rts inv2 b 1 c15 X Prop_PyExpansion.inv2_inverts (es 0%nat) F (fun _ => square_of kind / 2) x (poly_const _ _)).
      unfold If. apply rsum_ext. intros j Hj. f_equal. rewrite FX. unfold es. rewrite PL, (two_nodes kind e j E Hj). reflexivity. }
    assert (D := If_derive 1 q es 0 4). assert (D0 : is_derive (If 1 q es 0) 4 0).
    { apply (is_derive_ext (fun _ => square_of kind / 2)); [intros t; symmetry; apply IF|]. auto_derive; reflexivity. }
    apply is_derive_unique in D. apply is_derive_unique in D0. rewrite D0 in D. symmetry. exact D.
  - intros D. assert (D1 : is_derive (fun x => xi c15 x * xi c15 x / 2) 4 (1 / 4)).
    { unfold xi. cbn [x_left x_right]. auto_derive; [trivial|]. field. }
    assert (W : 0 = 1 / 4) by (rewrite <- (is_derive_unique _ _ _ D1); symmetry; apply is_derive_unique; exact D). lra.
Qed.
Print Assumptions py_fr_gradient_refuted.

(** advection of 1 + x (in local coordinates) on two nodes of each kind: the hypotheses of C142, C144 and C145 hold *)
Example py_fr_example : forall kind, let q := scalar_equation (Model_PyRiemann.ELinear 1 0) in exists e, let es := fun _ : nat => e in
  x_left c15 <> x_right c15 /\ inverts inv2 /\ (forall k, ready kind two_roots inv2 1 c15 (es k)) /\ add_correction_function (es 0%nat) vincent2 = Some vincent2 /\
  proper (g_degree vincent2) (g_at vincent2) (g_slope vincent2) /\ polynomial 1 (fun x => nodal_flux q es x 0) /\
  fr_flux q es vincent2 0 4 7 1 = Some 4 /\ fr_flux q es vincent2 0 4 7 3 = Some (- (5 / 4)) /\ fr_flux q es vincent2 0 4 7 5 = Some 7 /\
  fr_flux_gradient q es vincent2 0 4 7 3 = Some (3 / 4).
Proof.
  intros kind q. destruct (two_init kind) as (e & E). cbn beta zeta in E. assert (X : x_left c15 <> x_right c15) by (cbn; lra).
  destruct (line_is kind e 1 1 E) as (Rd & VL & _). exists (line e 1 1). intros es. assert (V := Prop_PyExpansion.inv2_inverts).
  assert (Rds : forall k, ready kind two_roots inv2 1 c15 (es k)) by (intros; exact Rd). assert (A := vincent2_added kind (es 0%nat) Rd).
  assert (F : forall x, nodal_flux q es x 0 = (x - 1) / 2).
  { intros x. unfold nodal_flux, dg_flux, q, scalar_equation, es. cbn [diffusive convective Model_PyRiemann.get_convective_flux]. rewrite VL. unfold xi. cbn [x_left x_right]. field. }
  assert (P : polynomial 1 (fun x => nodal_flux q es x 0)).
  { exists (fun i => match i with O => - (1 / 2) | _ => 1 / 2 end). intros x. rewrite F. unfold Spec_Gauss.poly1. cbn [rsum pow Nat.add]. field. }
  destruct (py_fr_flux_ends kind two_roots inv2 1 c15 q es vincent2 0 4 7 X V Rds A vincent2_proper) as (C1 & C2).
  split; [exact X|]. split; [exact V|]. split; [exact Rds|]. split; [exact A|]. split; [exact vincent2_proper|]. split; [exact P|]. split; [exact C1|]. split; [|split; [exact C2|]].
  - rewrite (fr_flux_is kind two_roots inv2 1 c15 X q es 0 vincent2 4 7 Rds 3), !F. f_equal. unfold xi, vincent2, vincent_correction. cbn [g_at x_left x_right]. unfold Vincent_value, Vincent_right.
    cbn [fst snd v_k prev_ratio next_ratio eval_legendre_prev Nat.sub Nat.add INR]. unfold eval_legendre. cbn [legendre2 fst snd INR pow]. field.
  - rewrite (fr_gradient_is kind two_roots inv2 1 c15 X V q es 0 vincent2 4 7 Rds 3).
    assert (Z : If' 1 q es 0 3 = 1 / 2).
    { rewrite <- (is_derive_unique _ _ _ (If_derive 1 q es 0 3)). apply is_derive_unique. apply (is_derive_ext (fun x => (x - 1) / 2)); [|auto_derive; [trivial|field]].
      intros t. symmetry. rewrite (If_poly_is kind two_roots inv2 1 c15 X V q es 0 Rds P). apply F. }
    f_equal. unfold rate. rewrite Z, !F. unfold xi, vincent2, vincent_correction, Vincent_gradient. cbn [g_slope x_left x_right fst snd v_k Nat.add Vincent_loop Nat.ltb Nat.leb prev_ratio next_ratio pow INR].
    unfold eval_legendre. cbn [legendre2 fst snd INR]. field.
Qed.
