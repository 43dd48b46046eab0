(** Proofs about the Euler equations and approximate Riemann solvers of the Python package. *)
From Coq Require Import Reals Lra Lia Psatz.
From Coquelicot Require Import Coquelicot.
From Verif Require Import Arrays Model_PyEuler Spec_PyEuler.
Open Scope R_scope.

Lemma div_ok x y : y <> 0 -> div x y = Some (x / y).
Proof. intros H. unfold div. destruct (Req_EM_T y 0); [lra|reflexivity]. Qed.
Lemma root_ok x : 0 <= x -> root x = Some (sqrt x).
Proof. intros H. unfold root. destruct (Rlt_dec x 0); [lra|reflexivity]. Qed.

Lemma c2p_ok gamma U : 0 < a0 U -> 0 <= pressure1 gamma U ->
  conservative_to_primitive gamma U = Some (a0 U, speed1 U, pressure1 gamma U).
Proof.
  intros Hr Hp. unfold conservative_to_primitive. destruct (Req_EM_T (a0 U) 0); [lra|]. cbn [bind].
  replace ((a2 U - a1 U / a0 U * a1 U / 2) * (gamma - 1)) with (pressure1 gamma U)
    by (unfold pressure1; field; lra).
  destruct (Rge_dec (a0 U) 0); [|lra]. destruct (Rge_dec (pressure1 gamma U) 0); [reflexivity|lra].
Qed.

Lemma flux_ok gamma U : 0 < a0 U -> 0 <= pressure1 gamma U ->
  get_convective_flux gamma U = Some (flux1 gamma U).
Proof.
  intros Hr Hp. unfold get_convective_flux. rewrite c2p_ok by auto. cbn [bind].
  unfold flux1, scale3, speed1. cbn [a0 a1 a2]. f_equal. f_equal; field; lra.
Qed.

Lemma pressure_conserved gamma rho u p : gamma <> 1 -> 0 < rho -> pressure1 gamma (conserved gamma rho u p) = p.
Proof. intros. unfold pressure1, conserved. cbn [a0 a1 a2]. field. lra. Qed.

Lemma p2c_ok gamma rho u p : gamma <> 1 -> primitive_to_conservative gamma rho u p = Some (conserved gamma rho u p).
Proof.
  intros H. unfold primitive_to_conservative. rewrite div_ok by lra. cbn [bind]. unfold conserved.
  f_equal. f_equal. field. lra.
Qed.

Lemma c2p2c gamma U : gamma <> 1 -> 0 < a0 U -> conserved gamma (a0 U) (speed1 U) (pressure1 gamma U) = U.
Proof.
  intros G H. destruct U as [x y z]. unfold conserved, speed1, pressure1. cbn [a0 a1 a2] in *.
  f_equal; field; lra.
Qed.

Definition jac (gamma : R) (U : Arr) : Mat3 :=
  let u := a1 U / a0 U in let E := a2 U / a0 U in
  mat3 (arr 0 1 0)
    (arr (u ^ 2 / 2 * (gamma - 3)) (- u * (gamma - 3)) (gamma - 1))
    (arr (u * (u ^ 2 * (gamma - 1) - E * gamma)) (E * gamma - 3 * (u ^ 2 / 2) * (gamma - 1)) (u * gamma)).

Lemma jac_ok gamma U : 0 < a0 U -> get_convective_jacobian gamma U = Some (jac gamma U).
Proof. intros H. unfold get_convective_jacobian. rewrite !div_ok by lra. reflexivity. Qed.

Theorem jac_derivative gamma U : 0 < a0 U -> jacobian3 (flux1 gamma) U (jac gamma U).
Proof.
  intros H D. destruct U as [x y z], D as [dx dy dz]. cbn [a0] in H.
  unfold derivable3, flux1, pressure1, add3, scale3, mul3, jac, dot3. cbn [a0 a1 a2 r0 r1 r2].
  repeat split; apply is_derive_Reals; auto_derive; try (repeat split; nra); try (field; lra).
Qed.

Section Sound.
  Variables (gamma : R) (U : Arr).
  Hypothesis (G : 1 < gamma) (P : physical1 gamma U).
  Lemma aa_pos : 0 < gamma * pressure1 gamma U / a0 U.
  Proof. destruct P. apply Rdiv_lt_0_compat; nra. Qed.
  Lemma sound_pos : 0 < sound1 gamma U.
  Proof. apply sqrt_lt_R0, aa_pos. Qed.
  Lemma sound_sq : sound1 gamma U * sound1 gamma U = gamma * pressure1 gamma U / a0 U.
  Proof. apply sqrt_sqrt. pose proof aa_pos. lra. Qed.

  Lemma eigvals_ok : get_convective_eigvals gamma U =
    Some (arr (speed1 U - sound1 gamma U) (speed1 U) (speed1 U + sound1 gamma U)).
  Proof.
    unfold get_convective_eigvals. destruct P. rewrite c2p_ok by lra. cbn [bind].
    rewrite div_ok by lra. cbn [bind]. rewrite root_ok by (pose proof aa_pos; lra). reflexivity.
  Qed.

  Definition enthalpy1 : R := sound1 gamma U ^ 2 / (gamma - 1) + speed1 U ^ 2 / 2.
  Definition Rmat : Mat3 :=
    let u := speed1 U in let a := sound1 gamma U in let h := enthalpy1 in
    mat3 (arr 1 1 1) (arr (u - a) u (u + a)) (arr (h - u * a) (u ^ 2 / 2) (h + u * a)).
  Definition Lmat : Mat3 :=
    let u := speed1 U in let a := sound1 gamma U in let b := (gamma - 1) / a ^ 2 in
    mat3 (arr ((b * u ^ 2 / 2 + u / a) / 2) (- (b * u + 1 / a) / 2) (b / 2))
         (arr (1 - b * u ^ 2 / 2) (b * u) (- b))
         (arr ((b * u ^ 2 / 2 - u / a) / 2) (- (b * u - 1 / a) / 2) (b / 2)).

  Lemma eigmats_ok : get_convective_eigmats gamma U = Some (Lmat, Rmat).
  Proof.
    unfold get_convective_eigmats. destruct P as [Hr Hp]. rewrite c2p_ok by lra. cbn [bind].
    pose proof aa_pos as Q. pose proof sound_pos as S. pose proof sound_sq as SS.
    rewrite div_ok by lra. cbn [bind]. rewrite root_ok by lra. cbn [bind]. fold (sound1 gamma U).
    rewrite <- SS. rewrite !div_ok by (try apply Rmult_integral_contrapositive_currified; lra).
    cbn [bind]. unfold Lmat, Rmat, enthalpy1. set (a := sound1 gamma U) in *. set (u := speed1 U).
    do 2 f_equal; f_equal; f_equal; field; lra.
  Qed.

  Lemma LR : mmul3 Lmat Rmat = id3.
  Proof.
    pose proof sound_pos as S. unfold mmul3, Lmat, Rmat, id3, diag3, enthalpy1, dot3, column3.
    set (a := sound1 gamma U) in *. set (u := speed1 U). cbn [a0 a1 a2 r0 r1 r2].
    f_equal; f_equal; field; lra.
  Qed.
  Lemma RL : mmul3 Rmat Lmat = id3.
  Proof.
    pose proof sound_pos as S. unfold mmul3, Lmat, Rmat, id3, diag3, enthalpy1, dot3, column3.
    set (a := sound1 gamma U) in *. set (u := speed1 U). cbn [a0 a1 a2 r0 r1 r2].
    f_equal; f_equal; field; lra.
  Qed.

  Lemma energy_sound : a2 U = a0 U * (sound1 gamma U ^ 2 / (gamma * (gamma - 1)) + speed1 U ^ 2 / 2).
  Proof.
    replace (sound1 gamma U ^ 2) with (sound1 gamma U * sound1 gamma U) by ring. rewrite sound_sq.
    destruct P. unfold pressure1, speed1. field. lra.
  Qed.

  Lemma jac_eigen : mmul3 (jac gamma U) Rmat =
    mmul3 Rmat (diag3 (arr (speed1 U - sound1 gamma U) (speed1 U) (speed1 U + sound1 gamma U))).
  Proof.
    pose proof sound_pos as S. pose proof energy_sound as E. destruct P as [Hr _].
    unfold mmul3, jac, Rmat, diag3, enthalpy1, dot3, column3. rewrite E. fold (speed1 U).
    cbn [a0 a1 a2 r0 r1 r2].
    replace (a0 U * (sound1 gamma U ^ 2 / (gamma * (gamma - 1)) + speed1 U ^ 2 / 2) / a0 U)
      with (sound1 gamma U ^ 2 / (gamma * (gamma - 1)) + speed1 U ^ 2 / 2) by (field; lra).
    generalize dependent (sound1 gamma U). intros a S _. generalize (speed1 U). intros u.
    f_equal; f_equal; field; lra.
  Qed.
End Sound.

(** ** Viscous fluxes *)
Theorem viscous_ok gamma rho u p rho' u' p' nu prandtl : 1 < gamma -> 0 < rho -> 0 <= p -> prandtl <> 0 ->
  let mu := rho * nu in
  let tau := 4 / 3 * mu * u' in
  let q := - (mu / prandtl) * (gamma / (gamma - 1)) * ((p' * rho - p * rho') / rho ^ 2) in
  scalar_diffusive_flux gamma (conserved gamma rho u p) (conserved' gamma rho u p rho' u' p') nu prandtl =
    Some (arr 0 tau (tau * u - q)).
Proof.
  intros G Hr Hp Pr mu tau q. unfold scalar_diffusive_flux.
  rewrite c2p_ok; [|exact Hr|rewrite pressure_conserved; lra].
  rewrite pressure_conserved by lra. cbn [bind]. unfold speed1, conserved, conserved'. cbn [a0 a1 a2].
  rewrite div_ok by lra. cbn [bind]. unfold get_heat_flux. rewrite !div_ok by lra. cbn [bind].
  rewrite !div_ok by lra. cbn [bind].
  unfold tau, q, mu. f_equal. f_equal; field; lra.
Qed.

Ltac s3 := cbn [Model_PyEuler.a0 Model_PyEuler.a1 Model_PyEuler.a2 Model_PyEuler.r0 Model_PyEuler.r1 Model_PyEuler.r2].
(** ** Matrices *)
Lemma mul_mmul m n v : mul3 (mmul3 m n) v = mul3 m (mul3 n v).
Proof.
  destruct m as [[? ? ?] [? ? ?] [? ? ?]], n as [[? ? ?] [? ? ?] [? ? ?]], v as [? ? ?].
  unfold mul3, mmul3, dot3, column3. s3. f_equal; ring.
Qed.
Lemma mul_id v : mul3 id3 v = v.
Proof. destruct v. unfold mul3, id3, diag3, dot3. s3. f_equal; ring. Qed.
Lemma mul_diag d v : mul3 (diag3 d) v = arr (a0 d * a0 v) (a1 d * a1 v) (a2 d * a2 v).
Proof. destruct v, d. unfold mul3, diag3, dot3. s3. f_equal; ring. Qed.

Lemma nu_sum L M nu : 
  madd3 (madd3 (madd3 zeros3 (outer3 (column3 a0 M) (scale3 (a0 nu) (r0 L))))
    (outer3 (column3 a1 M) (scale3 (a1 nu) (r1 L)))) (outer3 (column3 a2 M) (scale3 (a2 nu) (r2 L)))
  = mmul3 M (mmul3 (diag3 nu) L).
Proof.
  destruct M as [[? ? ?] [? ? ?] [? ? ?]], L as [[? ? ?] [? ? ?] [? ? ?]], nu as [? ? ?].
  unfold madd3, outer3, scale3, add3, zeros3, mmul3, diag3, dot3, column3. s3.
  f_equal; f_equal; ring.
Qed.

Lemma nu_matrix gamma U nu : 1 < gamma -> physical1 gamma U ->
  get_matrix_nu gamma U nu = Some (mmul3 (Rmat gamma U) (mmul3 (diag3 nu) (Lmat gamma U))).
Proof.
  intros G P. unfold get_matrix_nu. rewrite eigmats_ok by auto. cbn [bind]. rewrite nu_sum. reflexivity.
Qed.
Theorem matrix_nu_ok gamma U D nu : 1 < gamma -> physical1 gamma U -> exists G,
  get_diffusive_flux gamma U D (NuVector nu) = Some G /\
  mul3 (Lmat gamma U) G = mul3 (diag3 nu) (mul3 (Lmat gamma U) D).
Proof.
  intros G P. exists (mul3 (mmul3 (Rmat gamma U) (mmul3 (diag3 nu) (Lmat gamma U))) D). split.
  - unfold get_diffusive_flux. rewrite nu_matrix by auto. reflexivity.
  - rewrite !mul_mmul. rewrite <- mul_mmul. rewrite LR by auto. apply mul_id.
Qed.
