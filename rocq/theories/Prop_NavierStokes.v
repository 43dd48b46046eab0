(** C110: the viscous fluxes of a gas. *)
From Coq Require Import Reals List Lra Lia.
From Verif Require Import Vec3 Model_Diffusive Model_NavierStokes Spec_NavierStokes Spec_Diffusive Proof_NavierStokes.
From Verif Require Model_Euler Spec_Euler Proof_Euler.
Import Model_Euler(Tuple, mkTuple, mass, mX, mY, mZ, energy).
Import ListNotations.
Open Scope R_scope.

(** C110.  The conversion gives the gradients of velocity, pressure and temperature. *)
Theorem C110_gradients : forall gamma gas mu kappa U x dU,
  1 < gamma -> gas <> 0 -> (forall k, (k < 5)%nat -> slope (U k) x (dU k)) ->
  0 < U 0%nat x -> 0 <= pres gamma U x ->
  let g := snd (ConservativeToPrimitive gamma (SetProperty gas mu kappa) (at_place U x) dU) in
  (forall i, (i < 3)%nat -> slope (vel U i) x (g i))
  /\ slope (pres gamma U) x (g 3%nat) /\ slope (temp gamma gas U) x (g 4%nat).
Proof.
  intros gamma gas mu kappa U x dU G GAS H M P. split; [|split].
  - intros i L. apply velocity_gradients; assumption.
  - apply pressure_gradient; assumption.
  - apply temperature_gradient; assumption.
Qed.
Print Assumptions C110_gradients.

(** C110.  Through a face, the flux loses the stress, the work of the stress and the heat conducted. *)
Theorem C110_flux : forall gamma gas mu kappa U x dU n F,
  1 < gamma -> gas <> 0 -> (forall k, (k < 5)%nat -> slope (U k) x (dU k)) ->
  0 < U 0%nat x -> 0 <= pres gamma U x ->
  let F' := MinusViscousFluxNormal gamma (SetProperty gas mu kappa) (at_place U x) dU n F in
  forall dV dT, (forall i, (i < 3)%nat -> slope (vel U i) x (dV i)) -> slope (temp gamma gas U) x dT ->
  mass F' = mass F
  /\ V (mX F') (mY F') (mZ F') = vsub (V (mX F) (mY F) (mZ F)) (traction mu dV n)
  /\ energy F' = energy F
       - (dot (V (vel U 0 x) (vel U 1 x) (vel U 2 x)) (traction mu dV n) + kappa * dot dT n).
Proof.
  intros gamma gas mu kappa U x dU n F G GAS H M P F' dV dT HV HT.
  destruct (C110_gradients gamma gas mu kappa U x dU G GAS H M P) as (GV & _ & GT).
  pose proof (flux_normal gamma gas mu kappa U x dU G M P n F) as (A & B & C).
  rewrite <- (slope_unique _ _ _ _ HT GT) in C.
  assert (forall k, traction mu dV k = traction mu
    (snd (ConservativeToPrimitive gamma (SetProperty gas mu kappa) (at_place U x) dU)) k) as T.
  { intros k. unfold traction, mul3, mul3t, div3.
    rewrite (slope_unique _ _ _ _ (HV 0%nat ltac:(lia)) (GV 0%nat ltac:(lia))),
      (slope_unique _ _ _ _ (HV 1%nat ltac:(lia)) (GV 1%nat ltac:(lia))),
      (slope_unique _ _ _ _ (HV 2%nat ltac:(lia)) (GV 2%nat ltac:(lia))). reflexivity. }
  rewrite !T. split; [exact A|]. split; [exact B|exact C].
Qed.
Print Assumptions C110_flux.

(** C110.  Seen from the other side, the viscous part of the flux is opposite. *)
Theorem C110_opposite : forall gamma q c g n f f' k, (k < 5)%nat ->
  Spec_Euler.five f k - Spec_Euler.five (MinusViscousFluxNormal gamma q c g n f) k
  = - (Spec_Euler.five f' k - Spec_Euler.five (MinusViscousFluxNormal gamma q c g (vneg n) f') k).
Proof.
  intros gamma q c g n f f' k L. rewrite !(matrix_normal gamma q c g _ (fun _ => v0)) by exact L.
  unfold dot. cbn [vneg vx vy vz]. ring.
Qed.
Print Assumptions C110_opposite.

(** C110.  If the energy flux along x is the one that the x part of work and heat goes to, the matrix times the
    normal is the flux through the face. *)
Theorem C110_matrix_partial : forall gamma q c g n F f k, (k < 5)%nat ->
  Spec_Euler.five f k = dot (F k) n ->
  Spec_Euler.five (MinusViscousFluxNormal gamma q c g n f) k = dot (MinusViscousFluxMatrix 0 gamma q c g F k) n.
Proof.
  intros gamma q c g n F f k L E. pose proof (matrix_normal gamma q c g n F f k L) as H.
  rewrite dot_vsub, <- E in H. lra.
Qed.
Print Assumptions C110_matrix_partial.

(** C110.  The text names the column of z there: the two fluxes disagree. *)
Definition c0 : Tuple := mkTuple 2 4 [0; 0] 20.
Definition g0 : gradient := fun k =>
  match k with 0%nat => V 1 0 0 | 1%nat => V 0 2 0 | 2%nat => V 0 0 1 | 3%nat => v0 | _ => V 1 0 0 end.
Definition q0 : property := SetProperty 1 3 2.
Definition f0 : Tuple := mkTuple 0 0 [0; 0] 0.

Lemma sample_flux : MinusViscousFluxNormal 2 q0 c0 g0 (V 1 0 0) f0 = mkTuple 0 4 [-3; 0] 13.
Proof.
  unfold MinusViscousFluxNormal, ConservativeToPrimitive.
  rewrite primitive_state; [|lra|reflexivity|cbn; lra|unfold Spec_Euler.pressure, Model_Euler.momentum; cbn; lra].
  unfold GetViscousStressTensor, Dot, velocity_of, q0, SetProperty, Spec_Euler.pressure, Model_Euler.momentum, mY, mZ.
  cbn. f_equal; [field|f_equal; [field|f_equal; field]|field].
Qed.

Theorem C110_matrix_refuted : exists gamma q c g n F f k, (k < 5)%nat /\ 1 < gamma /\ 0 < mass c
  /\ 0 < Spec_Euler.pressure gamma c /\ Spec_Euler.five f k = dot (F k) n
  /\ Spec_Euler.five (MinusViscousFluxNormal gamma q c g n f) k
     <> dot (MinusViscousFluxMatrix 2 gamma q c g F k) n.
Proof.
  exists 2, q0, c0, g0, (V 1 0 0), (fun _ => v0), f0, 4%nat.
  split; [lia|]. split; [lra|]. split; [cbn; lra|].
  split; [unfold Spec_Euler.pressure, Model_Euler.momentum; cbn; lra|].
  split; [unfold dot; cbn; ring|].
  rewrite sample_flux. unfold MinusViscousFluxMatrix.
  destruct (ConservativeToPrimitive 2 q0 c0 g0) as [pv pg]. generalize (GetViscousStressTensor q0 pg) as tau. intros tau.
  cbv zeta. rewrite !dot_minus. cbn [Nat.eqb pick vx vy vz Spec_Euler.five energy]. unfold dot. cbn [v0 vx vy vz]. lra.
Qed.
Print Assumptions C110_matrix_refuted.

(** C110.  The stress tensor is the one of a Newtonian fluid, without trace. *)
Theorem C110_stress : forall gas mu kappa g n,
  let tau := GetViscousStressTensor (SetProperty gas mu kappa) g in
  hess_mul tau n = traction mu g n /\ hxx tau + hyy tau + hzz tau = 0.
Proof. intros gas mu kappa g n tau. split; [apply stress_mul|]. unfold tau. cbn. field. Qed.
Print Assumptions C110_stress.

(** C110.  The stress takes mechanical energy away and never gives any, and it vanishes for rigid motions and
    uniform expansions only. *)
Theorem C110_dissipation : forall gas mu kappa g, 0 < mu ->
  let tau := GetViscousStressTensor (SetProperty gas mu kappa) g in
  let work := dot (hess_mul tau (V 1 0 0)) (g 0%nat) + dot (hess_mul tau (V 0 1 0)) (g 1%nat)
              + dot (hess_mul tau (V 0 0 1)) (g 2%nat) in
  0 <= work /\ (work = 0 <-> shearless g) /\ (shearless g -> forall n, hess_mul tau n = v0).
Proof.
  intros gas mu kappa g M tau work.
  assert (work = heating mu g) as -> by (unfold work, tau; rewrite !stress_mul; reflexivity).
  split; [apply heating_nonneg; lra|]. split; [apply heating_zero; exact M|].
  intros H n. unfold tau. rewrite stress_mul. apply shearless_traction. exact H.
Qed.
Print Assumptions C110_dissipation.

(** C110.  Turning the axes turns the flux. *)
Theorem C110_turn : forall gamma gas mu kappa Q c g n f,
  1 < gamma -> orthogonal Q -> length (Model_Euler.mT c) = 2%nat -> length (Model_Euler.mT f) = 2%nat ->
  0 < mass c -> 0 <= Spec_Euler.pressure gamma c ->
  let q := SetProperty gas mu kappa in
  MinusViscousFluxNormal gamma q (turn_state Q c) (turn_gradient Q g) (app Q n) (turn_state Q f)
  = turn_state Q (MinusViscousFluxNormal gamma q c g n f).
Proof. intros. apply turn_flux; assumption. Qed.
Print Assumptions C110_turn.

(** C110.  For a moving observer, the stress is the same, and the energy flux differs by its work. *)
Theorem C110_boost : forall gamma gas mu kappa b U x dU dU' n F,
  1 < gamma -> (forall k, (k < 5)%nat -> slope (U k) x (dU k)) ->
  (forall k, (k < 5)%nat -> slope (boost_field b U k) x (dU' k)) ->
  0 < U 0%nat x -> 0 <= pres gamma U x ->
  let q := SetProperty gas mu kappa in
  let f := MinusViscousFluxNormal gamma q (at_place U x) dU n F in
  let f' := MinusViscousFluxNormal gamma q (at_place (boost_field b U) x) dU' n F in
  let lost := vsub (V (mX F) (mY F) (mZ F)) (V (mX f) (mY f) (mZ f)) in
  mass f' = mass f /\ V (mX f') (mY f') (mZ f') = V (mX f) (mY f) (mZ f)
  /\ energy f' = energy f - dot b lost.
Proof. intros. apply (boost_flux gamma gas mu kappa b U x dU dU'); assumption. Qed.
Print Assumptions C110_boost.

(** a gas whose five fields are affine meets the hypotheses *)
Definition U0 : fields := fun k y => Spec_Euler.five c0 k + dot (g0 k) y.

Lemma affine_slope c g x : slope (fun y => c + dot g y) x g.
Proof.
  intros d e He. exists (mkposreal 1 Rlt_0_1). intros h Hh _.
  replace ((c + dot g (vadd x (vscale (0 + h) d)) - (c + dot g (vadd x (vscale 0 d)))) / h - dot g d) with 0.
  - rewrite Rabs_R0. exact He.
  - unfold dot. cbn. field. exact Hh.
Qed.

Example C110_nonvacuous :
  (forall k, (k < 5)%nat -> slope (U0 k) v0 (g0 k)) /\ 0 < U0 0%nat v0 /\ 0 < pres 2 U0 v0
  /\ (exists dU', forall k, (k < 5)%nat -> slope (boost_field (V 1 2 3) U0 k) v0 (dU' k))
  /\ MinusViscousFluxNormal 2 q0 c0 g0 (V 1 0 0) f0 = mkTuple 0 4 [-3; 0] 13
  /\ orthogonal (Turn (V (3/5) (4/5) 0) (V (-4/5) (3/5) 0) (V 0 0 1))
  /\ shearless (fun k => match k with 0%nat => V 1 2 0 | 1%nat => V (-2) 1 0 | _ => V 0 0 1 end).
Proof.
  assert (forall k, (k < 5)%nat -> slope (U0 k) v0 (g0 k)) as S0 by (intros; apply affine_slope).
  split; [exact S0|]. split; [unfold U0, dot; cbn; lra|].
  split; [unfold pres, vel, U0, dot; cbn; lra|].
  split; [exists (boost_gradient (V 1 2 3) U0 v0 g0); apply boost_slopes; exact S0|].
  split; [exact sample_flux|]. split.
  - intros v. unfold back, app, dot. apply vec_eq; cbn; field.
  - unfold shearless. cbn. lra.
Qed.
