(** Properties C123, C124 and C125: the Euler equations, Roe's solver and the solver of Lax and
    Friedrichs of the Python package. *)
From Coq Require Import Reals Lra Lia Psatz.
From Verif Require Import Arrays Model_PyEuler Spec_PyEuler Proof_PyEuler Proof_PyRoe.
Open Scope R_scope.

(** ** C123 *)

(** The conversions are inverse to each other. *)
Theorem py_euler_conversions : forall gamma : R, 1 < gamma ->
  (forall rho u p, 0 < rho -> 0 <= p -> exists U,
    primitive_to_conservative gamma rho u p = Some U /\ U = conserved gamma rho u p /\
    conservative_to_primitive gamma U = Some (rho, u, p)) /\
  (forall U, 0 < a0 U -> 0 <= pressure1 gamma U -> exists rho u p,
    conservative_to_primitive gamma U = Some (rho, u, p) /\ primitive_to_conservative gamma rho u p = Some U).
Proof.
  intros gamma G. split.
  - intros rho u p Hr Hp. exists (conserved gamma rho u p). split; [apply p2c_ok; lra|]. split; [reflexivity|].
    rewrite c2p_ok; [|exact Hr|rewrite pressure_conserved; lra].
    rewrite pressure_conserved by lra. unfold speed1, conserved. cbn [a0 a1].
    replace (rho * u / rho) with u by (field; lra). reflexivity.
  - intros U Hr Hp. exists (a0 U), (speed1 U), (pressure1 gamma U). split; [apply c2p_ok; auto|].
    rewrite p2c_ok by lra. rewrite c2p2c by lra. reflexivity.
Qed.
Print Assumptions py_euler_conversions.

(** The flux is the flux of the Euler equations; the Jacobian matrix is its derivative; the eigenvalues
    and eigenvectors are those of the Jacobian matrix; the convective radius is the largest speed. *)
Theorem py_euler_flux_and_characteristics : forall (gamma : R) (U : Arr), 1 < gamma -> physical1 gamma U ->
  exists (J L M : Mat3) (l : Arr),
    get_convective_flux gamma U = Some (flux1 gamma U) /\
    get_convective_jacobian gamma U = Some J /\ jacobian3 (flux1 gamma) U J /\
    get_convective_eigvals gamma U = Some l /\
    l = arr (speed1 U - sound1 gamma U) (speed1 U) (speed1 U + sound1 gamma U) /\
    get_convective_eigmats gamma U = Some (L, M) /\
    mmul3 L M = id3 /\ mmul3 M L = id3 /\ mmul3 J M = mmul3 M (diag3 l) /\
    get_convective_radius gamma U = Some (Rabs (speed1 U) + sound1 gamma U).
Proof.
  intros gamma U G P. pose proof P as [Hr Hp].
  exists (jac gamma U), (Lmat gamma U), (Rmat gamma U), (arr (speed1 U - sound1 gamma U) (speed1 U) (speed1 U + sound1 gamma U)).
  split; [apply flux_ok; lra|]. split; [apply jac_ok; lra|]. split; [apply jac_derivative; lra|].
  split; [apply eigvals_ok; auto|]. split; [reflexivity|]. split; [apply eigmats_ok; auto|].
  split; [apply LR; auto|]. split; [apply RL; auto|]. split; [apply jac_eigen; auto|].
  unfold get_convective_radius. rewrite eigvals_ok by auto. cbn [bind a0 a1 a2]. f_equal.
  pose proof (sound_pos gamma U G P) as A. rewrite <- (max_speed (speed1 U) (sound1 gamma U)) by lra.
  rewrite (Rmax_comm (Rabs (speed1 U - sound1 gamma U)) (Rabs (speed1 U))), <- Rmax_assoc.
  apply Rmax_right. rewrite max_speed by lra. pose proof (Rabs_pos (speed1 U)). lra.
Qed.
Print Assumptions py_euler_flux_and_characteristics.

(** A scalar viscosity gives the stress 4/3 mu u' and the heat flux of Fourier's law with the given
    Prandtl number; a vector of viscosities damps each characteristic variable by its own entry; a matrix
    is applied as it is. *)
Theorem py_euler_viscous_fluxes :
  (forall gamma rho u p rho' u' p' nu prandtl : R, 1 < gamma -> 0 < rho -> 0 <= p -> prandtl <> 0 ->
    let mu := rho * nu in
    let tau := 4 / 3 * mu * u' in
    let q := - (mu / prandtl) * (gamma / (gamma - 1)) * ((p' * rho - p * rho') / rho ^ 2) in
    scalar_diffusive_flux gamma (conserved gamma rho u p) (conserved' gamma rho u p rho' u' p') nu prandtl =
      Some (arr 0 tau (tau * u - q))) /\
  (forall (gamma : R) (U D nu : Arr), 1 < gamma -> physical1 gamma U -> exists L M F,
    get_convective_eigmats gamma U = Some (L, M) /\
    get_diffusive_flux gamma U D (NuVector nu) = Some F /\ mul3 L F = mul3 (diag3 nu) (mul3 L D)) /\
  (forall (gamma : R) (U D : Arr) (B : Mat3), get_diffusive_flux gamma U D (NuMatrix B) = Some (mul3 B D)).
Proof.
  split; [intros; apply viscous_ok; auto|]. split; [|reflexivity].
  intros gamma U D nu G P. destruct (matrix_nu_ok gamma U D nu G P) as (F & E1 & E2).
  exists (Lmat gamma U), (Rmat gamma U), F. split; [apply eigmats_ok; auto|]. auto.
Qed.
Print Assumptions py_euler_viscous_fluxes.

(** a gas at Mach number 2 *)
Definition fast_gas : Arr := conserved (7 / 5) (7 / 5) 2 1.
Lemma fast_gas_physical : physical1 (7 / 5) fast_gas.
Proof. split; [unfold fast_gas, conserved; cbn [a0]; lra|]. unfold fast_gas. rewrite pressure_conserved; lra. Qed.
Lemma fast_gas_sound : sound1 (7 / 5) fast_gas = 1.
Proof.
  unfold sound1, fast_gas. rewrite pressure_conserved by lra. unfold conserved. cbn [a0].
  replace (7 / 5 * 1 / (7 / 5)) with 1 by field. apply sqrt_1.
Qed.
Lemma fast_gas_speed : speed1 fast_gas = 2.
Proof. unfold speed1, fast_gas, conserved. cbn [a0 a1]. field. Qed.
Example py_euler_example :
  get_convective_eigvals (7 / 5) fast_gas = Some (arr 1 2 3) /\
  get_convective_radius (7 / 5) fast_gas = Some 3 /\
  get_convective_flux (7 / 5) fast_gas = Some (arr (14 / 5) (33 / 5) (63 / 5)) /\
  get_diffusive_flux (7 / 5) fast_gas (arr 1 0 0) (NuMatrix id3) = Some (arr 1 0 0).
Proof.
  destruct (py_euler_flux_and_characteristics (7 / 5) fast_gas ltac:(lra) fast_gas_physical)
    as (J & L & M & l & F & _ & _ & El & -> & _ & _ & _ & _ & Er).
  rewrite F, El, Er, fast_gas_sound, fast_gas_speed. rewrite Rabs_pos_eq by lra.
  split; [f_equal; f_equal; ring|]. split; [f_equal; ring|]. split.
  - unfold flux1, fast_gas. rewrite pressure_conserved by lra. unfold conserved. cbn [a0 a1 a2]. f_equal. f_equal; field.
  - unfold get_diffusive_flux. rewrite mul_id. reflexivity.
Qed.

(** ** C124 *)

(** Roe's solver is defined for all physical states.  Its flux is the mean of both fluxes minus half of
    |A| times the jump, where A is the Jacobian matrix at the average, which the solver keeps; A carries
    the jump of the states to the jump of the fluxes. *)
Theorem py_roe_flux : forall (gamma : R) (l r : Arr), 1 < gamma -> physical1 gamma l -> physical1 gamma r ->
  exists (F A : Arr) (J L M : Mat3) (v : Arr),
    Roe_upwind_flux gamma l r = Some (F, A) /\ physical1 gamma A /\
    get_convective_jacobian gamma A = Some J /\ get_convective_eigmats gamma A = Some (L, M) /\
    get_convective_eigvals gamma A = Some v /\
    mul3 J (sub3 r l) = sub3 (flux1 gamma r) (flux1 gamma l) /\
    F = sub3 (scale3 (1 / 2) (add3 (flux1 gamma l) (flux1 gamma r)))
          (scale3 (1 / 2) (mul3 M (mul3 (diag3 (map3 Rabs v)) (mul3 L (sub3 r l))))).
Proof.
  intros gamma l r G L R. destruct (roe_all gamma l r G L R) as (A & P & E & J & _).
  do 2 eexists. exists (jac gamma A), (Lmat gamma A), (Rmat gamma A). eexists.
  split; [exact E|]. split; [exact P|]. pose proof P as [Hr _]. split; [apply jac_ok; auto|].
  split; [apply eigmats_ok; auto|]. split; [apply eigvals_ok; auto|]. split; [exact J|]. reflexivity.
Qed.
Print Assumptions py_roe_flux.

(** Consistency, upwinding of supersonic averages and exact stationary discontinuities. *)
Theorem py_roe_exact_cases : forall (gamma : R) (l r : Arr), 1 < gamma -> physical1 gamma l -> physical1 gamma r ->
  exists (F A : Arr), Roe_upwind_flux gamma l r = Some (F, A) /\
    (l = r -> F = flux1 gamma l /\ A = l) /\
    (sound1 gamma A <= speed1 A -> F = flux1 gamma l) /\
    (speed1 A <= - sound1 gamma A -> F = flux1 gamma r) /\
    (flux1 gamma l = flux1 gamma r -> F = flux1 gamma l) /\
    Roe_upwind_flux gamma (mirror1 r) (mirror1 l) = Some (opp3 (mirror1 F), mirror1 A).
Proof.
  intros gamma l r G L R. destruct (roe_all gamma l r G L R) as (A & P & E & J & Hp & Hn & Hs & Hm).
  do 2 eexists. split; [exact E|]. split; [|split; [|split; [|split; [|exact Hm]]]].
  - intros <-. split.
    + rewrite Hs by reflexivity. generalize (flux1 gamma l). intros [x y z].
      unfold sub3, scale3, add3. s3. f_equal; field.
    + destruct (as_conserved gamma l G L) as (s & u & p & S & Q & ->).
      pose proof (roe_form gamma s u p s u p G S S Q Q) as F. unfold UL, UR in F. rewrite F in E.
      assert (X : RA gamma s u p s u p = A) by congruence. rewrite <- X.
      unfold RA, conserved, raa, rh, ru, rs, hl, hr. f_equal; field; lra.
  - intros H. rewrite Hp by lra. generalize (flux1 gamma l), (flux1 gamma r). intros [x y z] [x' y' z'].
    unfold sub3, scale3, add3. s3. f_equal; field.
  - intros H. rewrite Hn by lra. generalize (flux1 gamma l), (flux1 gamma r). intros [x y z] [x' y' z'].
    unfold sub3, scale3, add3, opp3, scale3. s3. f_equal; field.
  - intros H. rewrite Hs, <- H by auto. generalize (flux1 gamma l). intros [x y z].
    unfold sub3, scale3, add3. s3. f_equal; field.
Qed.
Print Assumptions py_roe_exact_cases.

(** ** C125 *)

(** The flux of Lax and Friedrichs, with the larger of both spectral radii. *)
Theorem py_lax_friedrichs_flux : forall (gamma : R) (l r : Arr), 1 < gamma -> physical1 gamma l -> physical1 gamma r ->
  exists (F : Arr) (a b : R),
    get_convective_radius gamma l = Some a /\ get_convective_radius gamma r = Some b /\
    LaxFriedrichs_upwind_flux gamma l r = Some F /\
    F = sub3 (scale3 (1 / 2) (add3 (flux1 gamma l) (flux1 gamma r))) (scale3 (Rmax a b / 2) (sub3 r l)) /\
    (l = r -> F = flux1 gamma l) /\
    LaxFriedrichs_upwind_flux gamma (mirror1 r) (mirror1 l) = Some (opp3 (mirror1 F)).
Proof.
  intros gamma l r G L R. exists (lf gamma l r), (fastest gamma l), (fastest gamma r).
  destruct (py_euler_flux_and_characteristics gamma l G L) as (? & ? & ? & ? & _ & _ & _ & _ & _ & _ & _ & _ & _ & El).
  destruct (py_euler_flux_and_characteristics gamma r G R) as (? & ? & ? & ? & _ & _ & _ & _ & _ & _ & _ & _ & _ & Er).
  split; [exact El|]. split; [exact Er|]. split; [apply lf_ok; auto|]. split; [reflexivity|]. split.
  - intros <-. unfold lf. generalize (flux1 gamma l), (Rmax (fastest gamma l) (fastest gamma l)). intros [f0 f1 f2] m.
    unfold sub3, scale3, add3. s3. f_equal; field.
  - rewrite lf_ok by (auto using mirror_physical). rewrite lf_mirror by (apply L || apply R). reflexivity.
Qed.
Print Assumptions py_lax_friedrichs_flux.

(** A first-order step that respects the speeds at both ends keeps density and pressure positive. *)
Theorem py_lax_friedrichs_positivity : forall (gamma : R) (l u r : Arr) (k : R), 1 < gamma ->
  physical1 gamma l -> physical1 gamma u -> physical1 gamma r -> 0 <= k ->
  (forall v a, v = l \/ v = u \/ v = r -> get_convective_radius gamma v = Some a -> k * a <= 1) ->
  exists F1 F2, LaxFriedrichs_upwind_flux gamma l u = Some F1 /\ LaxFriedrichs_upwind_flux gamma u r = Some F2 /\
    physical1 gamma (sub3 u (scale3 k (sub3 F2 F1))).
Proof.
  intros gamma l u r k G L U R K C. exists (lf gamma l u), (lf gamma u r).
  split; [apply lf_ok; auto|]. split; [apply lf_ok; auto|].
  assert (Q : forall v, physical1 gamma v -> (v = l \/ v = u \/ v = r) -> k * fastest gamma v <= 1).
  { intros v P I. destruct (py_euler_flux_and_characteristics gamma v G P) as (? & ? & ? & ? & _ & _ & _ & _ & _ & _ & _ & _ & _ & E).
    exact (C v _ I E). }
  apply lf_positive; auto; rewrite <- RmaxRmult by auto; apply Rmax_lub; apply Q; auto.
Qed.
Print Assumptions py_lax_friedrichs_positivity.

(** A contact discontinuity at rest between densities 1 and 4: Roe's solver keeps it, that of Lax and
    Friedrichs smears it. *)
Definition light : Arr := conserved (7 / 5) 1 0 1.
Definition heavy : Arr := conserved (7 / 5) 4 0 1.
Lemma light_physical : physical1 (7 / 5) light.
Proof. split; [unfold light, conserved; cbn [a0]; lra|]. unfold light. rewrite pressure_conserved; lra. Qed.
Lemma heavy_physical : physical1 (7 / 5) heavy.
Proof. split; [unfold heavy, conserved; cbn [a0]; lra|]. unfold heavy. rewrite pressure_conserved; lra. Qed.
Lemma contact_flux rho : 0 < rho -> flux1 (7 / 5) (conserved (7 / 5) rho 0 1) = arr 0 1 0.
Proof. intros H. unfold flux1. rewrite pressure_conserved by lra. unfold conserved. cbn [a0 a1 a2]. f_equal; field; lra. Qed.
Example py_contact_example :
  (exists A, Roe_upwind_flux (7 / 5) light heavy = Some (arr 0 1 0, A)) /\
  (exists F, LaxFriedrichs_upwind_flux (7 / 5) light heavy = Some F /\ a0 F < 0).
Proof.
  split.
  - destruct (py_roe_exact_cases (7 / 5) light heavy ltac:(lra) light_physical heavy_physical)
      as (F & A & E & _ & _ & _ & S & _).
    exists A. rewrite E. rewrite S.
    + unfold light. rewrite contact_flux by lra. reflexivity.
    + unfold light, heavy. rewrite !contact_flux by lra. reflexivity.
  - destruct (py_lax_friedrichs_flux (7 / 5) light heavy ltac:(lra) light_physical heavy_physical)
      as (F & a & b & Ea & Eb & E & -> & _).
    eexists. split; [exact E|]. unfold light at 1, heavy at 1. rewrite !contact_flux by lra.
    assert (A : 0 < a).
    { destruct (py_euler_flux_and_characteristics (7 / 5) light ltac:(lra) light_physical)
        as (? & ? & ? & ? & _ & _ & _ & _ & _ & _ & _ & _ & _ & X).
      rewrite X in Ea. assert (Y : Rabs (speed1 light) + sound1 (7 / 5) light = a) by congruence. rewrite <- Y.
      pose proof (sound_pos (7 / 5) light ltac:(lra) light_physical). pose proof (Rabs_pos (speed1 light)). lra. }
    pose proof (Rmax_l a b) as B. unfold light, heavy, sub3, add3, scale3, conserved. cbn [a0 a1 a2]. nra.
Qed.

(** A gas at rest with a supersonic neighbour: a step of one third keeps it physical, a step of two
    empties the cell. *)
Definition still_gas : Arr := conserved (7 / 5) (7 / 5) 0 1.
Lemma still_gas_physical : physical1 (7 / 5) still_gas.
Proof. split; [unfold still_gas, conserved; cbn [a0]; lra|]. unfold still_gas. rewrite pressure_conserved; lra. Qed.
Lemma still_radius : get_convective_radius (7 / 5) still_gas = Some 1.
Proof.
  destruct (py_euler_flux_and_characteristics (7 / 5) still_gas ltac:(lra) still_gas_physical)
    as (? & ? & ? & ? & _ & _ & _ & _ & _ & _ & _ & _ & _ & X). rewrite X. f_equal.
  replace (speed1 still_gas) with 0 by (unfold speed1, still_gas, conserved; cbn [a0 a1]; field).
  rewrite Rabs_R0. unfold sound1, still_gas. rewrite pressure_conserved by lra. unfold conserved. cbn [a0].
  replace (7 / 5 * 1 / (7 / 5)) with 1 by field. rewrite sqrt_1. ring.
Qed.
Example py_positivity_example : exists F1 F2,
  LaxFriedrichs_upwind_flux (7 / 5) still_gas still_gas = Some F1 /\
  LaxFriedrichs_upwind_flux (7 / 5) still_gas fast_gas = Some F2 /\
  physical1 (7 / 5) (sub3 still_gas (scale3 (1 / 3) (sub3 F2 F1))) /\
  ~ physical1 (7 / 5) (sub3 still_gas (scale3 2 (sub3 F2 F1))).
Proof.
  destruct (py_lax_friedrichs_positivity (7 / 5) still_gas still_gas fast_gas (1 / 3) ltac:(lra)
    still_gas_physical still_gas_physical fast_gas_physical ltac:(lra)) as (F1 & F2 & E1 & E2 & P).
  { intros v a I E. destruct py_euler_example as (_ & Q & _).
    destruct I as [->|[->| ->]]; rewrite ?still_radius, ?Q in E; injection E as <-; lra. }
  exists F1, F2. split; [exact E1|]. split; [exact E2|]. split; [exact P|].
  intros [H _]. revert H.
  destruct (py_lax_friedrichs_flux (7 / 5) still_gas still_gas ltac:(lra) still_gas_physical still_gas_physical)
    as (F & a & b & _ & _ & EF & _ & C & _).
  destruct (py_lax_friedrichs_flux (7 / 5) still_gas fast_gas ltac:(lra) still_gas_physical fast_gas_physical)
    as (F' & a' & b' & Ra & Rb & EF' & -> & _).
  assert (X1 : F1 = flux1 (7 / 5) still_gas) by (rewrite <- C by reflexivity; congruence).
  rewrite EF' in E2. assert (X2 : F2 = sub3 (scale3 (1 / 2) (add3 (flux1 (7 / 5) still_gas) (flux1 (7 / 5) fast_gas)))
    (scale3 (Rmax a' b' / 2) (sub3 fast_gas still_gas))) by congruence.
  subst F1 F2. unfold flux1, still_gas, fast_gas. rewrite !pressure_conserved by lra.
  unfold sub3, scale3, add3, conserved. cbn [a0 a1 a2]. lra.
Qed.
