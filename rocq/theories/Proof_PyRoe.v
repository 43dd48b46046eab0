(** Proofs about the approximate Riemann solvers of the Python package. *)
From Coq Require Import Reals Lra Lia Psatz.
From Verif Require Import Arrays Model_PyEuler Spec_PyEuler Proof_PyEuler.
Open Scope R_scope.

(** ** Roe's average *)
Section Roe.
  Variables (gamma sl ul pl sr ur pr : R).
  Hypothesis (G : 1 < gamma) (Sl : 0 < sl) (Sr : 0 < sr) (Pl : 0 < pl) (Pr : 0 < pr).

  Definition UL := conserved gamma (sl ^ 2) ul pl.
  Definition UR := conserved gamma (sr ^ 2) ur pr.
  Definition hl := gamma * pl / sl ^ 2 / (gamma - 1) + ul * ul / 2.
  Definition hr := gamma * pr / sr ^ 2 / (gamma - 1) + ur * ur / 2.
  Definition rs := sl + sr.
  Definition ru := (sl * ul + sr * ur) / rs.
  Definition rh := (sl * hl + sr * hr) / rs.
  Definition raa := (gamma - 1) * (rh - ru * ru / 2).
  Definition ra := sqrt raa.
  Definition RA := arr (rs ^ 2 / 4) (rs ^ 2 / 4 * ru) (rs ^ 2 / 4 * (rh - raa / gamma)).

  Lemma raa_pos : 0 < raa.
  Proof.
    unfold raa. apply Rmult_lt_0_compat; [lra|].
    replace (rh - ru * ru / 2) with ((sl * (gamma * pl / sl ^ 2 / (gamma - 1)) + sr * (gamma * pr / sr ^ 2 / (gamma - 1))) / rs
      + sl * sr * (ul - ur) ^ 2 / (2 * rs ^ 2)).
    2:{ unfold rh, ru, rs, hl, hr. field. lra. }
    assert (0 < rs) by (unfold rs; lra).
    apply Rplus_lt_le_0_compat.
    - apply Rdiv_lt_0_compat; [|auto]. apply Rplus_lt_0_compat; apply Rmult_lt_0_compat; auto;
        repeat apply Rdiv_lt_0_compat; try nra.
    - apply Rmult_le_pos; [|left; apply Rinv_0_lt_compat; nra].
      apply Rmult_le_pos; [nra|apply pow2_ge_0].
  Qed.
  Lemma ra_pos : 0 < ra. Proof. apply sqrt_lt_R0, raa_pos. Qed.
  Lemma ra_sq : ra * ra = raa. Proof. apply sqrt_sqrt. pose proof raa_pos. lra. Qed.
  Lemma rs_pos : 0 < rs. Proof. unfold rs. lra. Qed.

  Lemma RA_pressure : pressure1 gamma RA = rs ^ 2 / 4 * raa / gamma.
  Proof.
    pose proof rs_pos. unfold pressure1, RA. cbn [a0 a1 a2].
    replace (rs ^ 2 / 4 * (rh - raa / gamma)) with (rs ^ 2 / 4 * (raa / (gamma - 1) + ru * ru / 2 - raa / gamma))
      by (unfold raa; field; lra).
    field. lra.
  Qed.
  Lemma RA_physical : physical1 gamma RA.
  Proof.
    pose proof rs_pos. pose proof raa_pos. split; [unfold RA; cbn [a0]; nra|].
    rewrite RA_pressure. apply Rdiv_lt_0_compat; [apply Rmult_lt_0_compat; nra|lra].
  Qed.
  Lemma RA_speed : speed1 RA = ru.
  Proof. pose proof rs_pos. unfold speed1, RA. cbn [a0 a1]. field. lra. Qed.
  Lemma RA_sound : sound1 gamma RA = ra.
  Proof.
    pose proof rs_pos. unfold sound1, ra. f_equal. rewrite RA_pressure. unfold RA. cbn [a0]. field. lra.
  Qed.

  Lemma UL_pressure : pressure1 gamma UL = pl.
  Proof. apply pressure_conserved; nra. Qed.
  Lemma UR_pressure : pressure1 gamma UR = pr.
  Proof. apply pressure_conserved; nra. Qed.
  Lemma UL_speed : speed1 UL = ul.
  Proof. unfold speed1, UL, conserved. cbn [a0 a1]. field. lra. Qed.
  Lemma UR_speed : speed1 UR = ur.
  Proof. unfold speed1, UR, conserved. cbn [a0 a1]. field. lra. Qed.

  (** the strengths of the waves *)
  Definition alpha0 := (pr - pl - sl * sr * ra * (ur - ul)) / (2 * raa).
  Definition alpha1 := sr ^ 2 - sl ^ 2 - (pr - pl) / raa.
  Definition alpha2 := (pr - pl + sl * sr * ra * (ur - ul)) / (2 * raa).

  Lemma strengths : mul3 (Lmat gamma RA) (sub3 UR UL) = arr alpha0 alpha1 alpha2.
  Proof.
    pose proof rs_pos as S. pose proof ra_pos as A. unfold Lmat. rewrite RA_speed, RA_sound.
    unfold alpha0, alpha1, alpha2. rewrite <- ra_sq.
    generalize dependent ra. intros a A.
    unfold mul3, sub3, UR, UL, conserved, dot3. cbn [a0 a1 a2 r0 r1 r2]. unfold ru, rs in *.
    f_equal; field; lra.
  Qed.

  Lemma roe_linear : mul3 (jac gamma RA) (sub3 UR UL) = sub3 (flux1 gamma UR) (flux1 gamma UL).
  Proof.
    pose proof rs_pos as S. unfold jac.
    replace (a1 RA / a0 RA) with ru by (symmetry; apply RA_speed).
    replace (a2 RA / a0 RA) with (rh - raa / gamma) by (unfold RA; cbn [a0 a2]; field; lra).
    unfold flux1. rewrite UL_pressure, UR_pressure.
    unfold mul3, sub3, UR, UL, conserved, dot3, raa, ru, rh, hl, hr. cbn [a0 a1 a2 r0 r1 r2]. unfold rs in *.
    f_equal; field; lra.
  Qed.

  Definition absolute : Arr -> Arr := fun v =>
    mul3 (Rmat gamma RA) (mul3 (diag3 (arr (Rabs (ru - ra)) (Rabs ru) (Rabs (ru + ra)))) (mul3 (Lmat gamma RA) v)).

  Theorem roe_form : Roe_upwind_flux gamma UL UR =
    Some (sub3 (scale3 (1 / 2) (add3 (flux1 gamma UL) (flux1 gamma UR))) (scale3 (1 / 2) (absolute (sub3 UR UL))), RA).
  Proof.
    pose proof rs_pos as S. pose proof ra_pos as A. pose proof raa_pos as AA.
    assert (QL : 0 < a0 UL) by (unfold UL, conserved; cbn [a0]; nra).
    assert (QR : 0 < a0 UR) by (unfold UR, conserved; cbn [a0]; nra).
    unfold Roe_upwind_flux.
    rewrite !flux_ok by (auto; rewrite ?UL_pressure, ?UR_pressure; lra). cbn [bind].
    rewrite !c2p_ok by (auto; rewrite ?UL_pressure, ?UR_pressure; lra). cbn [bind].
    rewrite UL_pressure, UR_pressure, UL_speed, UR_speed.
    replace (a0 UL) with (sl ^ 2) by reflexivity. replace (a0 UR) with (sr ^ 2) by reflexivity.
    unfold primitive_to_total_enthalpy. rewrite !div_ok by nra. cbn [bind]. rewrite !div_ok by nra. cbn [bind].
    rewrite !root_ok by nra. cbn [bind].
    replace (sqrt (sl ^ 2)) with sl by (symmetry; apply sqrt_pow2; lra).
    replace (sqrt (sr ^ 2)) with sr by (symmetry; apply sqrt_pow2; lra).
    fold hl hr rs. rewrite !div_ok by lra. cbn [bind]. fold ru rh raa.
    rewrite root_ok by lra. cbn [bind]. fold ra. rewrite !div_ok by lra. cbn [bind].
    unfold absolute. rewrite strengths, mul_diag. cbn [a0 a1 a2].
    unfold alpha0, alpha1, alpha2, Rmat, enthalpy1. rewrite RA_speed, RA_sound.
    f_equal. apply f_equal2; [|reflexivity].
    replace (ra ^ 2) with raa by (rewrite <- ra_sq; ring).
    replace (raa / (gamma - 1) + ru ^ 2 / 2) with rh by (unfold raa; field; lra).
    generalize (flux1 gamma UL), (flux1 gamma UR). intros [f0 f1 f2] [g0 g1 g2].
    unfold sub3, scale3, add3, map3, mul3, dot3. cbn [a0 a1 a2 r0 r1 r2].
    f_equal; field; lra.
  Qed.

  Lemma jac_split v : mul3 (jac gamma RA) v =
    mul3 (Rmat gamma RA) (mul3 (diag3 (arr (ru - ra) ru (ru + ra))) (mul3 (Lmat gamma RA) v)).
  Proof.
    rewrite <- (mul_id v) at 1. rewrite <- (RL gamma RA G RA_physical), mul_mmul, <- mul_mmul.
    rewrite (jac_eigen gamma RA G RA_physical), RA_speed, RA_sound, mul_mmul. reflexivity.
  Qed.
  Lemma R_inj v w : mul3 (Rmat gamma RA) v = mul3 (Rmat gamma RA) w -> v = w.
  Proof.
    intros E. rewrite <- (mul_id v), <- (mul_id w), <- (LR gamma RA G RA_physical), !mul_mmul, E. reflexivity.
  Qed.

  Lemma roe_supersonic_right : 0 <= ru - ra -> absolute (sub3 UR UL) = sub3 (flux1 gamma UR) (flux1 gamma UL).
  Proof.
    intros H. pose proof ra_pos. rewrite <- roe_linear, jac_split. unfold absolute. rewrite !Rabs_pos_eq by lra. reflexivity.
  Qed.
  Lemma roe_supersonic_left : ru + ra <= 0 -> absolute (sub3 UR UL) = opp3 (sub3 (flux1 gamma UR) (flux1 gamma UL)).
  Proof.
    intros H. pose proof ra_pos. rewrite <- roe_linear, jac_split. unfold absolute. rewrite !Rabs_left1 by lra.
    generalize (Rmat gamma RA) (mul3 (Lmat gamma RA) (sub3 UR UL)). intros m v. rewrite !mul_diag.
    unfold opp3, mul3, scale3, dot3. cbn [a0 a1 a2]. f_equal; ring.
  Qed.
  Lemma roe_stationary : flux1 gamma UL = flux1 gamma UR -> absolute (sub3 UR UL) = arr 0 0 0.
  Proof.
    intros H. pose proof roe_linear as E. rewrite jac_split, H in E.
    assert (Z : mul3 (diag3 (arr (ru - ra) ru (ru + ra))) (mul3 (Lmat gamma RA) (sub3 UR UL)) = arr 0 0 0).
    { apply R_inj. rewrite E. generalize (flux1 gamma UR) (Rmat gamma RA). intros [x y z] m.
      unfold sub3, mul3, dot3. cbn [a0 a1 a2]. f_equal; ring. }
    unfold absolute. rewrite mul_diag in Z |- *. cbn [a0 a1 a2] in *.
    generalize dependent (mul3 (Lmat gamma RA) (sub3 UR UL)). intros [x y z] _ Z. cbn [a0 a1 a2] in *.
    injection Z as Z0 Z1 Z2.
    assert (N : forall k w, k * w = 0 -> Rabs k * w = 0).
    { intros k w K. apply Rmult_integral in K. destruct K as [->| ->]; [rewrite Rabs_R0|]; ring. }
    rewrite (N _ _ Z0), (N _ _ Z1), (N _ _ Z2). unfold mul3, dot3. cbn [a0 a1 a2]. f_equal; ring.
  Qed.
End Roe.

Lemma as_conserved gamma U : 1 < gamma -> physical1 gamma U ->
  exists s u p, 0 < s /\ 0 < p /\ U = conserved gamma (s ^ 2) u p.
Proof.
  intros G [H P]. exists (sqrt (a0 U)), (speed1 U), (pressure1 gamma U).
  split; [apply sqrt_lt_R0; auto|]. split; [auto|].
  replace (sqrt (a0 U) ^ 2) with (a0 U) by (rewrite <- Rsqr_pow2, Rsqr_sqrt; lra).
  symmetry. apply c2p2c; lra.
Qed.

(** ** Lax and Friedrichs *)
Lemma max_speed u a : 0 <= a -> Rmax (Rabs (u - a)) (Rabs (u + a)) = Rabs u + a.
Proof.
  intros A. unfold Rmax, Rabs.
  repeat match goal with |- context [Rcase_abs ?x] => destruct (Rcase_abs x) end;
  match goal with |- context [Rle_dec ?x ?y] => destruct (Rle_dec x y) end; lra.
Qed.

Definition fastest (gamma : R) (U : Arr) : R := Rabs (speed1 U) + sound1 gamma U.

Lemma lambda_ok gamma l r : 1 < gamma -> physical1 gamma l -> physical1 gamma r ->
  LaxFriedrichs_lambda gamma l r = Some (Rmax (fastest gamma l) (fastest gamma r)).
Proof.
  intros G L R. unfold LaxFriedrichs_lambda. rewrite !eigvals_ok by auto. cbn [bind a0 a2].
  pose proof (sound_pos gamma l G L). pose proof (sound_pos gamma r G R).
  rewrite max_speed by lra. rewrite <- Rmax_assoc, max_speed by lra. reflexivity.
Qed.

Definition lf (gamma : R) (l r : Arr) : Arr :=
  sub3 (scale3 (1 / 2) (add3 (flux1 gamma l) (flux1 gamma r)))
    (scale3 (Rmax (fastest gamma l) (fastest gamma r) / 2) (sub3 r l)).

Lemma lf_ok gamma l r : 1 < gamma -> physical1 gamma l -> physical1 gamma r ->
  LaxFriedrichs_upwind_flux gamma l r = Some (lf gamma l r).
Proof.
  intros G L R. unfold LaxFriedrichs_upwind_flux. destruct L as [L0 L1] eqn:?, R as [R0 R1] eqn:?.
  rewrite !flux_ok by lra. cbn [bind]. rewrite lambda_ok by (auto; split; auto). cbn [bind].
  unfold lf, sub3, scale3, add3, map3. cbn [a0 a1 a2]. f_equal. f_equal; field.
Qed.

(** the cone of physical states *)
Definition good (U : Arr) : Prop := 0 < a0 U /\ 0 < 2 * a0 U * a2 U - a1 U ^ 2.
Lemma good_physical gamma U : 1 < gamma -> good U <-> physical1 gamma U.
Proof.
  intros G. unfold good, physical1, pressure1. split; intros [H K]; split; auto.
  - replace ((gamma - 1) * (a2 U - a1 U ^ 2 / (2 * a0 U))) with ((gamma - 1) * (2 * a0 U * a2 U - a1 U ^ 2) / (2 * a0 U)) by (field; lra).
    apply Rdiv_lt_0_compat; [apply Rmult_lt_0_compat|]; lra.
  - replace (2 * a0 U * a2 U - a1 U ^ 2) with ((gamma - 1) * (a2 U - a1 U ^ 2 / (2 * a0 U)) * (2 * a0 U) / (gamma - 1)) by (field; lra).
    apply Rdiv_lt_0_compat; [apply Rmult_lt_0_compat|]; lra.
Qed.
Lemma good_scale k U : 0 < k -> good U -> good (scale3 k U).
Proof.
  intros K [H Q]. unfold good, scale3. cbn [a0 a1 a2]. split; [nra|].
  replace (2 * (k * a0 U) * (k * a2 U) - (k * a1 U) ^ 2) with (k ^ 2 * (2 * a0 U * a2 U - a1 U ^ 2)) by ring.
  apply Rmult_lt_0_compat; nra.
Qed.
Lemma good_add U V : good U -> good V -> good (add3 U V).
Proof.
  intros [H Q] [K S]. destruct U as [x m E], V as [y n F]. unfold good, add3 in *. cbn [a0 a1 a2] in *.
  split; [lra|].
  assert (X : 0 < (2 * (x + y) * (E + F) - (m + n) ^ 2) * (x * y)).
  { replace ((2 * (x + y) * (E + F) - (m + n) ^ 2) * (x * y)) with
      ((x + y) * y * (2 * x * E - m ^ 2) + (x + y) * x * (2 * y * F - n ^ 2) + (y * m - x * n) ^ 2) by ring.
    pose proof (pow2_ge_0 (y * m - x * n)).
    assert (0 < (x + y) * y * (2 * x * E - m ^ 2)) by (repeat apply Rmult_lt_0_compat; lra).
    assert (0 < (x + y) * x * (2 * y * F - n ^ 2)) by (repeat apply Rmult_lt_0_compat; lra). lra. }
  assert (0 < x * y) by nra. nra.
Qed.
Lemma good_add0 k U V : 0 <= k -> good U -> good V -> good (add3 (scale3 k U) V).
Proof.
  intros K HU HV. destruct (Req_dec k 0) as [->|N].
  - destruct V. unfold add3, scale3. s3. rewrite !Rmult_0_l, !Rplus_0_l. exact HV.
  - apply good_add; [apply good_scale; [lra|auto]|auto].
Qed.

Lemma flux_cone gamma U s lambda : 1 < gamma -> physical1 gamma U -> s * s = 1 -> fastest gamma U <= lambda ->
  good (sub3 (scale3 lambda U) (scale3 s (flux1 gamma U))).
Proof.
  intros G P S H. pose proof (sound_pos gamma U G P) as A. pose proof (sound_sq gamma U G P) as AA.
  pose proof P as [Hr Hp]. unfold fastest in H.
  assert (M : a1 U = a0 U * speed1 U) by (unfold speed1; field; lra).
  assert (E : a2 U = pressure1 gamma U / (gamma - 1) + a0 U * speed1 U ^ 2 / 2)
    by (unfold pressure1, speed1; field; lra).
  set (u := speed1 U) in *. set (p := pressure1 gamma U) in *. set (a := sound1 gamma U) in *. set (rho := a0 U) in *.
  assert (D : a <= lambda - s * u).
  { assert (s * u <= Rabs u); [|lra].
    assert (C : s = 1 \/ s = -1).
    { assert (Z : (s - 1) * (s + 1) = 0) by (ring_simplify; lra). apply Rmult_integral in Z. lra. } destruct C as [-> | ->].
    - rewrite Rmult_1_l. apply Rle_abs.
    - replace (-1 * u) with (- u) by ring. rewrite <- Rabs_Ropp. apply Rle_abs. }
  set (d := lambda - s * u) in *.
  assert (F : flux1 gamma U = arr (rho * u) (rho * u ^ 2 + p) ((p / (gamma - 1) + rho * u ^ 2 / 2 + p) * u)).
  { unfold flux1. fold rho p. rewrite E. fold (speed1 U). fold u. rewrite M. f_equal; field; lra. }
  rewrite F. unfold good, sub3, scale3. fold rho. rewrite M, E. cbn [a0 a1 a2].
  assert (L : lambda = d + s * u) by (unfold d; ring). clearbody d. subst lambda.
  split; [nra|].
  match goal with |- 0 < ?e => replace e with (d ^ 2 * (2 * rho * p / (gamma - 1)) - (s * s) * p ^ 2) by (field; lra) end.
  rewrite S.
  assert (Q : gamma * p <= rho * d ^ 2).
  { assert (a * a <= d * d) by nra. assert (gamma * p = rho * (a * a)) by (rewrite AA; field; lra). nra. }
  assert (T : d ^ 2 * (2 * rho * p / (gamma - 1)) - 1 * p ^ 2 = p * (2 * (rho * d ^ 2) - (gamma - 1) * p) / (gamma - 1)) by (field; lra).
  rewrite T. apply Rdiv_lt_0_compat; [apply Rmult_lt_0_compat; [lra|]|lra]. nra.
Qed.

Theorem lf_positive gamma l u r k : 1 < gamma -> physical1 gamma l -> physical1 gamma u -> physical1 gamma r ->
  0 <= k -> k * Rmax (fastest gamma l) (fastest gamma u) <= 1 -> k * Rmax (fastest gamma u) (fastest gamma r) <= 1 ->
  physical1 gamma (sub3 u (scale3 k (sub3 (lf gamma u r) (lf gamma l u)))).
Proof.
  intros G L U R K C1 C2. destruct (Req_dec k 0) as [->|N].
  { replace (sub3 u _) with u; [exact U|]. destruct u. unfold sub3, scale3. s3. f_equal; ring. }
  unfold lf. set (l1 := Rmax (fastest gamma l) (fastest gamma u)) in *.
  set (l2 := Rmax (fastest gamma u) (fastest gamma r)) in *.
  apply good_physical; [auto|].
  match goal with |- good ?x => replace x with
    (add3 (scale3 (1 - k * (l1 + l2) / 2) u)
       (scale3 (k / 2) (add3 (sub3 (scale3 l2 r) (scale3 1 (flux1 gamma r)))
                             (sub3 (scale3 l1 l) (scale3 (-1) (flux1 gamma l)))))) end.
  2:{ destruct u as [x y z], l as [lx ly lz], r as [rx ry rz].
      unfold sub3, scale3, add3. generalize (flux1 gamma (arr x y z)), (flux1 gamma (arr lx ly lz)), (flux1 gamma (arr rx ry rz)).
      intros [? ? ?] [? ? ?] [? ? ?]. s3. f_equal; field. }
  apply good_add0; [lra|apply (proj2 (good_physical gamma u G)); auto|].
  apply good_scale; [lra|]. apply good_add; apply flux_cone; auto; try ring.
  - unfold l2. apply Rmax_r.
  - unfold l1. apply Rmax_l.
Qed.

(** ** Looking from the other side *)
Lemma mirror_physical gamma U : physical1 gamma U -> physical1 gamma (mirror1 U).
Proof.
  unfold physical1, pressure1, mirror1. cbn [a0 a1 a2]. replace ((- a1 U) ^ 2) with (a1 U ^ 2) by ring. auto.
Qed.
Lemma mirror_pressure gamma U : pressure1 gamma (mirror1 U) = pressure1 gamma U.
Proof. unfold pressure1, mirror1. cbn [a0 a1 a2]. replace ((- a1 U) ^ 2) with (a1 U ^ 2) by ring. reflexivity. Qed.
Lemma mirror_flux gamma U : 0 < a0 U -> flux1 gamma (mirror1 U) = opp3 (mirror1 (flux1 gamma U)).
Proof.
  intros H. unfold flux1. rewrite mirror_pressure. unfold mirror1, opp3, scale3. cbn [a0 a1 a2]. f_equal; field; lra.
Qed.
Lemma mirror_fastest gamma U : fastest gamma (mirror1 U) = fastest gamma U.
Proof.
  unfold fastest, sound1. rewrite mirror_pressure. unfold speed1, mirror1. cbn [a0 a1].
  replace (- a1 U / a0 U) with (- (a1 U / a0 U)) by (unfold Rdiv; ring). rewrite Rabs_Ropp. reflexivity.
Qed.
Theorem lf_mirror gamma l r : 0 < a0 l -> 0 < a0 r -> lf gamma (mirror1 r) (mirror1 l) = opp3 (mirror1 (lf gamma l r)).
Proof.
  intros L R. unfold lf. rewrite !mirror_flux, !mirror_fastest by auto. rewrite Rmax_comm.
  destruct l as [x y z], r as [u v w]. generalize (flux1 gamma (arr x y z)), (flux1 gamma (arr u v w)).
  intros [? ? ?] [? ? ?]. unfold mirror1, opp3, sub3, scale3, add3. s3. f_equal; field.
Qed.

Lemma mirror_conserved gamma rho u p : mirror1 (conserved gamma rho u p) = conserved gamma rho (- u) p.
Proof. unfold mirror1, conserved. s3. f_equal; unfold Rdiv; ring. Qed.

Section Mirror.
  Variables (gamma sl ul pl sr ur pr : R).
  Hypothesis (G : 1 < gamma) (Sl : 0 < sl) (Sr : 0 < sr) (Pl : 0 < pl) (Pr : 0 < pr).
  Lemma mirror_ru : ru sr (- ur) sl (- ul) = - ru sl ul sr ur.
  Proof. unfold ru, rs. field. lra. Qed.
  Lemma mirror_rh : rh gamma sr (- ur) pr sl (- ul) pl = rh gamma sl ul pl sr ur pr.
  Proof. unfold rh, rs, hl, hr. field. lra. Qed.
  Lemma mirror_raa : raa gamma sr (- ur) pr sl (- ul) pl = raa gamma sl ul pl sr ur pr.
  Proof. unfold raa. rewrite mirror_ru, mirror_rh. unfold Rdiv. ring. Qed.
  Lemma mirror_ra : ra gamma sr (- ur) pr sl (- ul) pl = ra gamma sl ul pl sr ur pr.
  Proof. unfold ra. rewrite mirror_raa. reflexivity. Qed.
  Lemma mirror_RA : RA gamma sr (- ur) pr sl (- ul) pl = mirror1 (RA gamma sl ul pl sr ur pr).
  Proof.
    unfold RA, mirror1. rewrite mirror_ru, mirror_rh, mirror_raa. s3.
    replace (rs sr sl) with (rs sl sr) by (unfold rs; ring). f_equal. ring.
  Qed.
  Lemma mirror_absolute :
    absolute gamma sr (- ur) pr sl (- ul) pl (sub3 (UR gamma sl (- ul) pl) (UL gamma sr (- ur) pr)) =
    opp3 (mirror1 (absolute gamma sl ul pl sr ur pr (sub3 (UR gamma sr ur pr) (UL gamma sl ul pl)))).
  Proof.
    unfold absolute. rewrite !strengths by auto. rewrite !mul_diag. s3.
    unfold alpha0, alpha1, alpha2, Rmat, enthalpy1. rewrite !RA_speed, !RA_sound by auto.
    rewrite mirror_ru, mirror_raa, mirror_ra.
    pose proof (raa_pos gamma sl ul pl sr ur pr G Sl Sr Pl Pr) as A.
    generalize dependent (raa gamma sl ul pl sr ur pr). intros aa A.
    generalize (ra gamma sl ul pl sr ur pr), (ru sl ul sr ur). intros a u.
    replace (- u - a) with (- (u + a)) by ring. replace (- u + a) with (- (u - a)) by ring. rewrite !Rabs_Ropp.
    generalize (Rabs (u + a)), (Rabs u), (Rabs (u - a)). intros x y z.
    unfold opp3, mirror1, scale3, mul3, dot3. s3. f_equal; field; lra.
  Qed.
End Mirror.

(** ** Roe's solver for all states *)
(** [absolute] as a matrix of the average *)
Definition abs_jac (gamma : R) (A : Arr) (v : Arr) : Arr :=
  mul3 (Rmat gamma A) (mul3 (diag3 (map3 Rabs (arr (speed1 A - sound1 gamma A) (speed1 A) (speed1 A + sound1 gamma A))))
    (mul3 (Lmat gamma A) v)).

Theorem roe_all gamma l r : 1 < gamma -> physical1 gamma l -> physical1 gamma r -> exists A,
  physical1 gamma A /\
  Roe_upwind_flux gamma l r = Some (sub3 (scale3 (1 / 2) (add3 (flux1 gamma l) (flux1 gamma r)))
    (scale3 (1 / 2) (abs_jac gamma A (sub3 r l))), A) /\
  mul3 (jac gamma A) (sub3 r l) = sub3 (flux1 gamma r) (flux1 gamma l) /\
  (0 <= speed1 A - sound1 gamma A -> abs_jac gamma A (sub3 r l) = sub3 (flux1 gamma r) (flux1 gamma l)) /\
  (speed1 A + sound1 gamma A <= 0 -> abs_jac gamma A (sub3 r l) = opp3 (sub3 (flux1 gamma r) (flux1 gamma l))) /\
  (flux1 gamma l = flux1 gamma r -> abs_jac gamma A (sub3 r l) = arr 0 0 0) /\
  Roe_upwind_flux gamma (mirror1 r) (mirror1 l) =
    Some (opp3 (mirror1 (sub3 (scale3 (1 / 2) (add3 (flux1 gamma l) (flux1 gamma r)))
    (scale3 (1 / 2) (abs_jac gamma A (sub3 r l))))), mirror1 A).
Proof.
  intros G L R. destruct (as_conserved gamma l G L) as (sl & ul & pl & Sl & Pl & ->).
  destruct (as_conserved gamma r G R) as (sr & ur & pr & Sr & Pr & ->).
  pose proof (RA_speed gamma sl ul pl sr ur pr Sl Sr) as Eu.
  pose proof (RA_sound gamma sl ul pl sr ur pr G Sl Sr) as Ea.
  assert (E : forall v, abs_jac gamma (RA gamma sl ul pl sr ur pr) v = absolute gamma sl ul pl sr ur pr v).
  { intros v. unfold abs_jac, absolute. rewrite Eu, Ea. reflexivity. }
  exists (RA gamma sl ul pl sr ur pr). rewrite E, Eu, Ea.
  split; [apply RA_physical; auto|]. split; [apply roe_form; auto|].
  split; [apply roe_linear; auto|]. split; [apply roe_supersonic_right; auto|].
  split; [apply roe_supersonic_left; auto|]. split; [apply roe_stationary; auto|].
  rewrite !mirror_conserved.
  pose proof (roe_form gamma sr (- ur) pr sl (- ul) pl G Sr Sl Pr Pl) as F. unfold UL, UR in F. rewrite F. clear F.
  pose proof (mirror_absolute gamma sl ul pl sr ur pr G Sl Sr Pl Pr) as F. unfold UL, UR in F. rewrite F. clear F.
  rewrite mirror_RA by auto. rewrite <- !mirror_conserved.
  destruct L as [L _], R as [R _]. rewrite !mirror_flux by auto.
  f_equal. apply f_equal2; [|reflexivity].
  generalize (absolute gamma sl ul pl sr ur pr (sub3 (conserved gamma (sr ^ 2) ur pr) (conserved gamma (sl ^ 2) ul pl))).
  generalize (flux1 gamma (conserved gamma (sr ^ 2) ur pr)), (flux1 gamma (conserved gamma (sl ^ 2) ul pl)).
  intros [? ? ?] [? ? ?] [? ? ?]. unfold mirror1, opp3, sub3, scale3, add3. s3. f_equal; field.
Qed.
