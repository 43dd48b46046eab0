(** C118-C122: the scalar and coupled Riemann solvers of the Python package. *)
From Coq Require Import Reals List Lra.
From Verif Require Import Arrays Model_Simple Spec_Simple Proof_Simple Model_PyRiemann Spec_PyRiemann Proof_PyRiemann.
Import ListNotations.
Open Scope R_scope.

(** C118: after [set_initial(l, r)], [get_value(x, t)] is the entropy solution of the Riemann problem,
    whatever was solved before; at t = 0 it gives the data back. *)
Theorem C118_linear a b l0 r0 p q l r :
  exists s w, set_initial (mkSolver (LinearAdvectionDiffusion_init a b) l0 r0 p q) l r = Some s /\
    (forall x t, 0 < t -> get_value s x t = Some (Value (w (x / t)))) /\
    (forall x, x <= 0 -> get_value s x 0 = Some (Value l)) /\
    (forall x, 0 < x -> get_value s x 0 = Some (Value r)) /\
    osher (linear_flux a) l r w.
Proof. exact (value_entropy (mkSolver (ELinear a b) l0 r0 p q) l r I). Qed.
Print Assumptions C118_linear.

Theorem C118_burgers k : 0 < k -> exists e, InviscidBurgers_init [Num k] = Some e /\
  forall l0 r0 p q l r, exists s w, set_initial (mkSolver e l0 r0 p q) l r = Some s /\
    (forall x t, 0 < t -> get_value s x t = Some (Value (w (x / t)))) /\
    (forall x, x <= 0 -> get_value s x 0 = Some (Value l)) /\
    (forall x, 0 < x -> get_value s x 0 = Some (Value r)) /\
    osher (burgers_flux k) l r w.
Proof.
  intros K. destruct (init_burgers k K) as (e & E & B & F & _). exists e. split; [exact E|].
  intros l0 r0 p q l r. rewrite <- F. exact (value_entropy (mkSolver e l0 r0 p q) l r B).
Qed.
Print Assumptions C118_burgers.

(** [get_upwind_flux] is Godunov's flux; it is consistent and monotone. *)
Theorem C118_flux e : (exists a b, e = LinearAdvectionDiffusion_init a b) \/
    (exists k, 0 < k /\ InviscidBurgers_init [Num k] = Some e) ->
  exists f F, (forall u, get_convective_flux e u = f u) /\
    (forall u, derivable_pt_lim f u (get_convective_speed e u)) /\
    (forall s l r, s_equation s = e -> exists s', get_upwind_flux s l r = Some (s', F l r) /\
       s_equation s' = e) /\
    godunov f F /\ consistent f F /\ monotone F.
Proof.
  intros H. assert (B : built e).
  { destruct H as [(a & b & ->)|(k & K & E)]; [exact I|].
    destruct (init_burgers k K) as (e' & E' & B & _). rewrite E in E'. apply Some_inj in E'. subst e'. exact B. }
  exists (flux_of e), (upwind e). split; [apply flux_eq|]. split; [apply speed_derivative|].
  split; [|split; [|split]].
  - intros s l r <-. destruct (upwind_flux_eq s l r B) as (s' & U & _ & Q). exists s'. auto.
  - apply upwind_godunov. exact B.
  - apply godunov_consistent. apply upwind_godunov. exact B.
  - apply godunov_monotone with (f := flux_of e). apply upwind_godunov. exact B.
Qed.
Print Assumptions C118_flux.

(** A rarefaction across the interface: between -1 and 2 the upwind value is 0. *)
Example C118_sonic : exists s, get_upwind_flux (Solver_init (EBurgers 3 0)) (-1) 2 = Some (s, 0).
Proof.
  assert (B : built (s_equation (Solver_init (EBurgers 3 0)))) by (cbn; lra).
  destruct (upwind_flux_eq _ (-1) 2 B) as (s & E & _). exists s. rewrite E. do 2 f_equal.
  unfold upwind, flux_of, burgers_flux. cbn [Solver_init s_equation ray].
  destruct (Rle_dec (-1) 2); [|lra]. destruct (Rle_dec 0 (3 * -1)); [lra|].
  destruct (Rge_dec 0 (3 * 2)); [lra|]. field.
Qed.

(** C119: two scalar equations coupled by an invertible matrix of right eigenvectors: the eigenvalues,
    the Jacobian matrix, and the solution of the Riemann problem by characteristics. *)
Theorem C119_jacobian e0 e1 r : det2 r <> 0 -> exists c, Coupled_init e0 e1 r = Some c /\
  forall u, jacobian2 (coupled_flux c) u (coupled_jacobian c u) /\
    mul2 (coupled_jacobian c u) (col0 r) =
      (fst (coupled_eigvals c u) * m00 r, fst (coupled_eigvals c u) * m10 r) /\
    mul2 (coupled_jacobian c u) (col1 r) =
      (snd (coupled_eigvals c u) * m01 r, snd (coupled_eigvals c u) * m11 r) /\
    from_characteristics c (to_characteristics c u) = u /\
    to_characteristics c (from_characteristics c u) = u.
Proof.
  intros D. destruct (coupled_init_ok e0 e1 r D) as (c & E & _ & _ & _ & LR & RL & _).
  exists c. split; [exact E|]. intros u. split; [exact (coupled_jacobian_ok e0 e1 r c u D E)|].
  destruct (coupled_eigen e0 e1 r c u D E). auto.
Qed.
Print Assumptions C119_jacobian.

(** no coupling matrix without inverse is accepted *)
Theorem C119_singular e0 e1 r : det2 r = 0 -> Coupled_init e0 e1 r = None.
Proof.
  intros D. unfold Coupled_init, inv2. unfold det2 in D.
  destruct (Req_EM_T (m00 r * m11 r - m01 r * m10 r) 0); [reflexivity|lra].
Qed.
Print Assumptions C119_singular.

Theorem C119_diffusive e0 e1 r c u du nu : det2 r <> 0 -> Coupled_init e0 e1 r = Some c ->
  coupled_diffusive_flux c u du (0, 0) = mul2 (coupled_coeff c u) du /\
  to_characteristics c (coupled_diffusive_flux c u du nu) =
    ((get_diffusive_coeff e0 0 + fst nu) * fst (to_characteristics c du),
     (get_diffusive_coeff e1 0 + snd nu) * snd (to_characteristics c du)).
Proof. exact (coupled_diffusive_ok e0 e1 r c u du nu). Qed.
Print Assumptions C119_diffusive.

Theorem C119_value s ul ur : coupled_built s -> exists s' w0 w1,
  coupled_set_initial s ul ur = Some s' /\
  (forall x t, 0 < t -> coupled_get_value s' x t =
     Some (Value (from_characteristics (cs_equation s) (w0 (x / t), w1 (x / t))))) /\
  osher (flux_of (s_equation (cs_v_0 s))) (fst (to_characteristics (cs_equation s) ul))
    (fst (to_characteristics (cs_equation s) ur)) w0 /\
  osher (flux_of (s_equation (cs_v_1 s))) (snd (to_characteristics (cs_equation s) ul))
    (snd (to_characteristics (cs_equation s) ur)) w1.
Proof. exact (coupled_value_entropy s ul ur). Qed.
Print Assumptions C119_value.

Theorem C119_flux s : coupled_built s -> exists F0 F1,
  godunov (flux_of (s_equation (cs_v_0 s))) F0 /\ godunov (flux_of (s_equation (cs_v_1 s))) F1 /\
  forall ul ur, exists s' f, coupled_upwind_flux s ul ur = Some (s', f) /\
    to_characteristics (cs_equation s) f =
      (F0 (fst (to_characteristics (cs_equation s) ul)) (fst (to_characteristics (cs_equation s) ur)),
       F1 (snd (to_characteristics (cs_equation s) ul)) (snd (to_characteristics (cs_equation s) ur))).
Proof.
  intros B. exists (upwind (s_equation (cs_v_0 s))), (upwind (s_equation (cs_v_1 s))).
  split; [apply upwind_godunov; apply B|]. split; [apply upwind_godunov; apply B|].
  intros ul ur. destruct (coupled_upwind_ok s ul ur B) as (s' & f & E & _ & C). exists s', f. auto.
Qed.
Print Assumptions C119_flux.

(** such solvers exist: linear advection to the left and Burgers' equation, coupled by a shear *)
Example C119_solver : exists s, CoupledSolver_init (Solver_init (ELinear (-1) 0)) (Solver_init (EBurgers 2 0))
    (mat2 1 3 0 1) = Some s /\ coupled_built s.
Proof.
  destruct (coupled_solver_init (Solver_init (ELinear (-1) 0)) (Solver_init (EBurgers 2 0)) (mat2 1 3 0 1)) as (s & E & B & _).
  - exact I.
  - cbn. lra.
  - unfold det2. cbn. lra.
  - exists s. auto.
Qed.

(** C120: refuted: no equation [Burgers(k, nu)] can ever be built, not even with the default values. *)
Theorem C120_burgers_refuted : (forall k nu, Burgers_init k nu = None) /\
  ~ (forall k nu, 0 < k -> 0 <= nu -> exists e, Burgers_init k nu = Some e).
Proof.
  split; [exact init_viscous|]. intros H. destruct (H 1 0) as [e E]; [lra|lra|].
  rewrite init_viscous in E. discriminate E.
Qed.
Print Assumptions C120_burgers_refuted.

(** The other equations can be built from all arguments that their assertions admit. *)
Theorem C120_others_partial k : (0 < k <-> exists e, InviscidBurgers_init [Num k] = Some e) /\
  exists e, InviscidBurgers_init [] = Some e /\ InviscidBurgers_init [Num 1] = Some e.
Proof.
  split.
  - split.
    + intros K. destruct (init_burgers k K) as (e & E & _). exists e. exact E.
    + intros [e E]. cbn in E. destruct (Rgt_dec k 0); [lra|discriminate E].
  - exists (EBurgers 1 0). split; [reflexivity|]. cbn. destruct (Rgt_dec 1 0); [reflexivity|lra].
Qed.
Print Assumptions C120_others_partial.

Example C120_example : exists e, InviscidBurgers_init [Num 2] = Some e.
Proof. apply (proj1 (C120_others_partial 2)). lra. Qed.

(** C121: refuted: a coupled solver does not remember its data: at t = 0, [get_value] returns None. *)
Theorem C121_initial_refuted : exists v0 v1 r s s' ul ur,
  CoupledSolver_init v0 v1 r = Some s /\ coupled_set_initial s ul ur = Some s' /\
  ul <> ur /\ forall x, coupled_get_value s' x 0 = Some NoneObject.
Proof.
  destruct (coupled_solver_init (Solver_init (ELinear (-1) 0)) (Solver_init (EBurgers 2 0)) (mat2 1 3 0 1))
    as (s & E & B & _ & _ & _ & L & R).
  - exact I.
  - cbn. lra.
  - unfold det2. cbn. lra.
  - destruct (coupled_forgets s (1, 2) (3, 4) B) as (s' & F & V).
    do 4 eexists. exists s', (1, 2), (3, 4). split; [exact E|]. split; [exact F|].
    split; [intros N; assert (fst (1, 2) = fst (3, 4)) by (rewrite N; reflexivity); cbn in *; lra|].
    intros x. rewrite V, L, R. destruct (Rle_dec x 0); reflexivity.
Qed.
Print Assumptions C121_initial_refuted.

(** Scalar solvers do remember (C118); coupled ones give the data back at all positive times outside
    of the waves, that is for x/t below or above all characteristic speeds. *)
Theorem C121_outside_partial s ul ur : coupled_built s -> exists s',
  coupled_set_initial s ul ur = Some s' /\
  exists m, 0 < m /\
    (forall x t, 0 < t -> x / t < - m -> coupled_get_value s' x t = Some (Value ul)) /\
    (forall x t, 0 < t -> m < x / t -> coupled_get_value s' x t = Some (Value ur)).
Proof. exact (coupled_outside s ul ur). Qed.
Print Assumptions C121_outside_partial.

(** C122: fluxes on interfaces with viscosity: the direct discontinuous Galerkin flux and half the
    jump of nu U, for scalar equations. *)
Theorem C122_scalar_partial s left right : built (s_equation s) -> d_length left + d_length right <> 0 ->
  let nu := get_diffusive_coeff (s_equation s) 0 + Rmin (d_extra left) (d_extra right) in
  exists s' F, godunov (flux_of (s_equation s)) F /\
    get_interface_flux_and_bjump s left right = Some (s', F (d_u left) (d_u right) -
      nu * ddg_gradient (d_length left) (d_length right) (d_u left) (d_u right)
        (side_du left) (side_du right) (side_ddu left) (side_ddu right),
      nu * (d_u right - d_u left) / 2).
Proof.
  intros B H nu. destruct (interface_ok s left right B H) as [s' E].
  exists s', (upwind (s_equation s)). split; [apply upwind_godunov; exact B|exact E].
Qed.
Print Assumptions C122_scalar_partial.

(** where both sides agree, it is the flux of the equation *)
Theorem C122_consistent_partial s left right : built (s_equation s) -> d_length left + d_length right <> 0 ->
  d_u right = d_u left -> side_du right = side_du left -> side_ddu right = side_ddu left ->
  exists s', get_interface_flux_and_bjump s left right = Some (s',
    flux_of (s_equation s) (d_u left) -
      (get_diffusive_coeff (s_equation s) 0 + Rmin (d_extra left) (d_extra right)) * side_du left, 0).
Proof. exact (interface_consistent s left right). Qed.
Print Assumptions C122_consistent_partial.

Theorem C122_inviscid_partial s (left right : Side Col2 Col2) : coupled_built s ->
  (forall u, get_diffusive_coeff (s_equation (cs_v_0 s)) u = 0) ->
  (forall u, get_diffusive_coeff (s_equation (cs_v_1 s)) u = 0) ->
  d_extra left = (0, 0) -> d_extra right = (0, 0) ->
  exists s' f, coupled_flux_and_bjump s left right = Some (s', f, Vec (0, 0)) /\
    coupled_upwind_flux s (d_u left) (d_u right) = Some (s', f).
Proof. exact (coupled_inviscid_interface s left right). Qed.
Print Assumptions C122_inviscid_partial.

(** Refuted: for coupled equations with viscosity the half jump is a matrix, not one number per
    component. *)
Theorem C122_coupled_refuted : exists v0 v1 r s, CoupledSolver_init v0 v1 r = Some s /\
  forall left right : Side Col2 Col2, d_extra left = (0, 0) -> d_extra right = (0, 0) ->
  exists s' f m, coupled_flux_and_bjump s left right = Some (s', f, Matrix m).
Proof.
  destruct (coupled_solver_init heat heat unit2 I I) as (s & E & _).
  { unfold det2, unit2. cbn. lra. }
  exists heat, heat, unit2, s. split; [exact E|]. intros left right X0 X1.
  destruct (matrix_jump left right X0 X1) as (s1 & s' & f & m & E1 & J).
  rewrite E in E1. apply Some_inj in E1. subst s1. exists s', f, m. exact J.
Qed.
Print Assumptions C122_coupled_refuted.

(** a concrete interface: two cells of length 1 carrying x^2, left of and right of 0 *)
Example C122_example : exists s', get_interface_flux_and_bjump (Solver_init (ELinear 1 2))
    (mkSide 2 1 4 (-4) 2 0) (mkSide 2 1 4 (-4) 2 0) = Some (s', 12, 0).
Proof.
  destruct (interface_consistent (Solver_init (ELinear 1 2)) (mkSide 2 1 4 (-4) 2 0) (mkSide 2 1 4 (-4) 2 0))
    as [s' E]; cbn [d_length d_u]; try reflexivity; try exact I; [lra|].
  exists s'. rewrite E. do 2 f_equal. f_equal.
  unfold flux_of, linear_flux, side_du. cbn [Solver_init s_equation d_u d_extra d_degree Nat.ltb Nat.leb d_du get_diffusive_coeff].
  rewrite Rmin_left by lra. ring.
Qed.
