(** Proofs about the data of the demonstrations. *)
From Coq Require Import Reals List Arith Lia Lra.
From Verif Require Import Vec3 Model_Euler Model_Simple Spec_Euler Spec_Simple Proof_Simple Model_Demo Spec_Demo.
Import ListNotations.
Open Scope R_scope.

(** ** the shock of double_mach.cpp *)

Lemma cos_30_sq : cos_30 * cos_30 = 3 / 4.
Proof. unfold cos_30, tan_60. replace (_ * _) with (sqrt 3 * sqrt 3 * (25 / 100)) by field. rewrite sqrt_sqrt; lra. Qed.
Lemma tan_pos : 0 < tan_60. Proof. unfold tan_60. apply sqrt_lt_R0. lra. Qed.
Lemma tan_sq : tan_60 * tan_60 = 3. Proof. unfold tan_60. apply sqrt_sqrt. lra. Qed.

(** a gas that moves along the normal with the speed [w] *)
Definition along (gamma rho w p : R) : Tuple :=
  mkTuple rho (rho * w * cos_30) [rho * w * - sin_30; 0] (p / (gamma - 1) + rho * (w * w) / 2).

Lemma along_pressure gamma rho w p : 1 < gamma -> rho <> 0 -> pressure gamma (along gamma rho w p) = p.
Proof.
  intros G Z. pose proof cos_30_sq as C. unfold pressure, along, momentum, sin_30. cbn [energy mX mT mass dotL].
  generalize dependent cos_30. intros c C.
  replace (rho * w * c * (rho * w * c) + (rho * w * - (5 / 10) * (rho * w * - (5 / 10)) + (0 * 0 + 0)))
    with (rho * w * (rho * w) * (c * c + 1 / 4)) by field.
  rewrite C. field. lra.
Qed.

Lemma along_speed gamma rho w p : rho <> 0 -> normal_speed normal (along gamma rho w p) = w.
Proof.
  intros Z. pose proof cos_30_sq as C. unfold normal_speed, normal, along, momentum, sin_30. cbn [energy mX mT mass dotL].
  generalize dependent cos_30. intros c C.
  replace (rho * w * c * c + _) with (rho * w * (c * c + 1 / 4)) by field.
  rewrite C. field. exact Z.
Qed.

Lemma along_flux gamma rho w p : 1 < gamma -> rho <> 0 ->
  normal_flux gamma (along gamma rho w p) normal
    (mkTuple (rho * w) ((rho * (w * w) + p) * cos_30) [(rho * (w * w) + p) * - sin_30; 0]
       (w * (p / (gamma - 1) + rho * (w * w) / 2 + p))).
Proof.
  intros G Z. unfold normal_flux. cbv zeta. rewrite (along_pressure gamma rho w p G Z).
  pose proof (along_speed gamma rho w p Z) as S. unfold normal_speed in S. rewrite S.
  cbn [mass energy along]. split; [reflexivity|]. split; [|reflexivity].
  unfold momentum, normal, scaleL. cbn [mX mT along map addL].
  f_equal; [ring|]. f_equal; [ring|]. f_equal. ring.
Qed.

(** along the normal the jump is that of one dimension *)
Lemma along_jump gamma s r1 w1 p1 r0 w0 p0 : 1 < gamma -> r1 <> 0 -> r0 <> 0 ->
  r1 * w1 - r0 * w0 = s * (r1 - r0) ->
  (r1 * (w1 * w1) + p1) - (r0 * (w0 * w0) + p0) = s * (r1 * w1 - r0 * w0) ->
  w1 * (p1 / (gamma - 1) + r1 * (w1 * w1) / 2 + p1) - w0 * (p0 / (gamma - 1) + r0 * (w0 * w0) / 2 + p0)
    = s * (p1 / (gamma - 1) + r1 * (w1 * w1) / 2 - (p0 / (gamma - 1) + r0 * (w0 * w0) / 2)) ->
  jump gamma s normal (along gamma r1 w1 p1) (along gamma r0 w0 p0).
Proof.
  intros G Z1 Z0 M P E. do 2 eexists. split; [apply along_flux; assumption|]. split; [apply along_flux; assumption|].
  cbn [mass energy along]. split; [exact M|]. split; [|exact E].
  unfold momentum. cbn [mX mT along]. intros [|[|[|k]]]; cbn [nth].
  - rewrite <- Rmult_minus_distr_r, P. ring.
  - rewrite <- Rmult_minus_distr_r, P. ring.
  - ring.
  - destruct k; ring.
Qed.

Lemma after_along gamma c : 1 < gamma -> rho_after c <> 0 ->
  value_after gamma c = along gamma (rho_after c) (u_n_after c) (p_after c).
Proof.
  intros G Z. unfold value_after, PrimitiveToConservative, along, primitive_after, set_energy, VelocityToMomentum, GetDynamicPressure.
  cbn [mass mX mT energy map]. unfold u_after, v_after, sin_30. pose proof cos_30_sq as C.
  f_equal; [ring|f_equal; [ring|f_equal; ring]|]. cbn [sumsq].
  generalize dependent cos_30. intros k C.
  generalize (u_n_after c) (rho_after c) (p_after c). intros w r p.
  replace (w * w) with (w * w * (k * k + 1 / 4)) by (rewrite C; field). field. lra.
Qed.

Lemma before_along gamma c : 1 < gamma -> value_before gamma c = along gamma (rho_before c) 0 (p_before c).
Proof.
  intros G. unfold value_before, PrimitiveToConservative, along, primitive_before, set_energy, VelocityToMomentum, GetDynamicPressure.
  cbn [mass mX mT energy map]. f_equal; [ring|f_equal; [ring|f_equal; ring]|].
  cbn [sumsq]. field. lra.
Qed.

(** the formulas are the Rankine-Hugoniot conditions along the normal *)
Lemma formulas gamma c : agrees gamma c ->
  let s := u_nu c in let r := rho_after c in let w := u_n_after c in let p := p_after c in
  0 < r /\ 0 < p /\ 0 < w < s
  /\ r * w = s * (r - rho_before c)
  /\ r * (w * w) + p - p_before c = s * (r * w)
  /\ w * (p / (gamma - 1) + r * (w * w) / 2 + p)
     = s * (p / (gamma - 1) + r * (w * w) / 2 - p_before c / (gamma - 1)).
Proof.
  intros (G & E & Ep & Em & R & P & A & S & M). cbv zeta.
  unfold u_n_after, p_after, rho_after, u_nu. rewrite E, Ep, Em.
  revert R P A S M. generalize (rho_before c) (p_before c) (a_before c) (m_before c). intros r0 p0 a m R P A S M.
  assert (M2 : 1 < m * m) by nra.
  assert (D : 0 < 1 + m * m * (gamma - 1) / 2) by nra.
  assert (D2 : 0 < r0 * (m * m * (gamma + 1) / 2)) by (apply Rmult_lt_0_compat; nra).
  assert (Q : r0 < r0 * (m * m * (gamma + 1) / 2) / (1 + m * m * (gamma - 1) / 2)).
  { apply Rmult_lt_reg_r with (1 + m * m * (gamma - 1) / 2); [exact D|].
    replace (r0 * (m * m * (gamma + 1) / 2) / (1 + m * m * (gamma - 1) / 2) * (1 + m * m * (gamma - 1) / 2))
      with (r0 * (m * m * (gamma + 1) / 2)) by (field; lra).
    apply Rmult_lt_compat_l; [exact R|]. nra. }
  assert (p0 = r0 * (a * a) / gamma) as -> by (rewrite S; field; lra).
  set (r := r0 * (m * m * (gamma + 1) / 2) / (1 + m * m * (gamma - 1) / 2)) in *.
  assert (K : m * a * (r - r0) / r = m * a * (1 - r0 / r)) by (field; lra).
  assert (L : 0 < r0 / r < 1).
  { split; [apply Rdiv_lt_0_compat; lra|]. apply Rmult_lt_reg_r with r; [lra|].
    replace (r0 / r * r) with r0 by (field; lra). lra. }
  assert (MA : 0 < m * a) by (apply Rmult_lt_0_compat; lra).
  split; [lra|]. split.
  { apply Rdiv_lt_0_compat; [|lra]. apply Rmult_lt_0_compat; [exact P|]. nra. }
  split; [rewrite K; split; nra|]. split; [field; lra|].
  assert (N : 2 + m * m * (gamma - 1) <> 0) by lra.
  unfold r. split; field; repeat split; try lra; try nra.
Qed.

Lemma lax_shock gamma c : agrees gamma c -> lax gamma (u_nu c) normal (value_after gamma c) (value_before gamma c).
Proof.
  intros H. destruct (formulas gamma c H) as (R1 & P1 & W & _).
  destruct H as (G & E & Ep & Em & R & P & A & S & M).
  assert (SB : gamma * p_before c / rho_before c = a_before c * a_before c) by (rewrite <- S; field; lra).
  assert (T : Rsqr (u_nu c - u_n_after c) < gamma * p_after c / rho_after c).
  { replace (u_nu c - u_n_after c) with (u_nu c * rho_before c / rho_after c)
      by (unfold u_n_after; field; lra).
    assert (Q : u_nu c * u_nu c * (rho_before c * rho_before c) < gamma * p_after c * rho_after c).
    { unfold u_nu. replace (m_before c * a_before c * (m_before c * a_before c) * (rho_before c * rho_before c))
        with (m_before c * m_before c * rho_before c * (rho_before c * (a_before c * a_before c))) by ring.
      rewrite S. unfold p_after, rho_after. rewrite E, Ep, Em.
      assert (M2 : 1 < m_before c * m_before c) by nra. revert M2.
      generalize (m_before c * m_before c). intros m M2.
      assert (D : 0 < 1 + m * (gamma - 1) / 2) by nra.
      apply Rmult_lt_reg_r with (1 + m * (gamma - 1) / 2); [exact D|].
      replace (gamma * (p_before c * (m * gamma - (gamma - 1) / 2) / ((gamma + 1) / 2)) *
        (rho_before c * (m * (gamma + 1) / 2) / (1 + m * (gamma - 1) / 2)) * (1 + m * (gamma - 1) / 2))
        with (m * rho_before c * (gamma * p_before c) * (m * gamma - (gamma - 1) / 2)) by (field; split; nra).
      apply Rmult_lt_compat_l; [|nra].
      apply Rmult_lt_0_compat; [apply Rmult_lt_0_compat; lra|apply Rmult_lt_0_compat; lra]. }
    unfold Rsqr. apply Rmult_lt_reg_r with (rho_after c * rho_after c); [nra|].
    replace (_ * _ * (rho_after c * rho_after c)) with (u_nu c * u_nu c * (rho_before c * rho_before c)) by (field; lra).
    replace (gamma * p_after c / rho_after c * (rho_after c * rho_after c)) with (gamma * p_after c * rho_after c) by (field; lra).
    exact Q. }
  rewrite after_along, before_along by lra. unfold lax, sound. rewrite !along_speed, !along_pressure by lra.
  cbn [mass along]. rewrite SB, sqrt_square by lra.
  split; [split|lra].
  - unfold u_nu. nra.
  - assert (K : u_nu c - u_n_after c < sqrt (gamma * p_after c / rho_after c)); [|lra].
    rewrite <- (sqrt_Rsqr (u_nu c - u_n_after c)) by lra. apply sqrt_lt_1_alt. split; [apply Rle_0_sqr|exact T].
Qed.

Lemma front gamma c xyz t : moving_shock gamma c xyz t =
  if Rlt_dec (cos_30 * (vx xyz - x_gap c) - sin_30 * vy xyz) (u_nu c * t) then value_after gamma c else value_before gamma c.
Proof.
  pose proof tan_pos as T. unfold moving_shock, u_x, cos_30, sin_30.
  assert (E : (vx xyz - (x_gap c + u_nu c / (tan_60 * (5 / 10)) * t)) * tan_60 =
    (vx xyz - x_gap c) * tan_60 - 2 * (u_nu c * t)) by (field; lra).
  rewrite E. destruct (Rlt_dec _ (vy xyz)), (Rlt_dec _ (u_nu c * t)); try reflexivity; exfalso; lra.
Qed.

(** ** the exact solution of linear/single.cpp *)

Definition k_wave : R := 9 * (31415926 / 10000000).
Definition profile (x : R) : R := sin ((x - 25 / 10) * 9 * (31415926 / 10000000)).

Lemma profile_d x : derivable_pt_lim profile x (k_wave * cos ((x - 25 / 10) * k_wave)).
Proof.
  unfold profile.
  replace ((x - 25 / 10) * k_wave) with ((x - 25 / 10) * 9 * (31415926 / 10000000)) by (unfold k_wave; ring).
  replace (k_wave * cos _) with (cos ((x - 25 / 10) * 9 * (31415926 / 10000000)) * ((1 - 0) * 9 * (31415926 / 10000000)))
    by (unfold k_wave; ring).
  apply (derivable_pt_lim_comp (fun x => (x - 25 / 10) * 9 * (31415926 / 10000000)) sin); [|apply derivable_pt_lim_sin].
  apply (derivable_pt_lim_ext (fun x => 9 * (31415926 / 10000000) * (x - 25 / 10))); [intros; ring|].
  replace ((1 - 0) * 9 * (31415926 / 10000000)) with (9 * (31415926 / 10000000) * (1 - 0)) by ring.
  apply (derivable_pt_lim_scal (fun x => x - 25 / 10)).
  apply (derivable_pt_lim_minus id (fct_cte (25 / 10))); [apply derivable_pt_lim_id|apply derivable_pt_lim_const].
Qed.

Lemma profile_dd x : derivable_pt_lim (fun x => k_wave * cos ((x - 25 / 10) * k_wave)) x (- (k_wave * k_wave * profile x)).
Proof.
  unfold profile. replace ((x - 25 / 10) * 9 * (31415926 / 10000000)) with ((x - 25 / 10) * k_wave) by (unfold k_wave; ring).
  replace (- (k_wave * k_wave * sin ((x - 25 / 10) * k_wave))) with (k_wave * (- sin ((x - 25 / 10) * k_wave) * (k_wave * (1 - 0)))) by ring.
  apply (derivable_pt_lim_scal (fun x => cos ((x - 25 / 10) * k_wave))).
  apply (derivable_pt_lim_comp (fun x => (x - 25 / 10) * k_wave) cos); [|apply derivable_pt_lim_cos].
  apply (derivable_pt_lim_ext (fun x => k_wave * (x - 25 / 10))); [intros; ring|].
  apply (derivable_pt_lim_scal (fun x => x - 25 / 10)).
  apply (derivable_pt_lim_minus id (fct_cte (25 / 10))); [apply derivable_pt_lim_id|apply derivable_pt_lim_const].
Qed.

Section Travelling.
(** a profile [f] with derivatives [f'] and [f''] travels with the speed [a]; on (lo, hi) it is the initial condition *)
Variables (a lo hi : R) (ic f f' f'' : R -> R).
Hypothesis Hic : forall y, lo < y < hi -> ic y = f y.
Hypothesis Hf : forall y, lo < y < hi -> derivable_pt_lim f y (f' y).
Hypothesis Hf' : forall y, lo < y < hi -> derivable_pt_lim f' y (f'' y).
Variables x t : R.
Hypothesis Hx : lo < x - a * t < hi.

Lemma shift_x y : lo < y - a * t < hi -> derivable_pt_lim (fun z => ic (z - a * t)) y (f' (y - a * t)).
Proof.
  intros H. apply (derivable_pt_lim_locally_ext (fun z => f (z - a * t)) _ y (lo + a * t) (hi + a * t)); [lra| |].
  - intros z Hz. symmetry. apply Hic. lra.
  - replace (f' (y - a * t)) with (f' (y - a * t) * (1 - 0)) by ring.
    apply (derivable_pt_lim_comp (fun z => z - a * t) f); [|apply Hf; exact H].
    apply (derivable_pt_lim_minus id (fct_cte (a * t))); [apply derivable_pt_lim_id|apply derivable_pt_lim_const].
Qed.

Lemma shift_xx : derivable_pt_lim (fun z => f' (z - a * t)) x (f'' (x - a * t)).
Proof.
  replace (f'' (x - a * t)) with (f'' (x - a * t) * (1 - 0)) by ring.
  apply (derivable_pt_lim_comp (fun z => z - a * t) f'); [|apply Hf'; exact Hx].
  apply (derivable_pt_lim_minus id (fct_cte (a * t))); [apply derivable_pt_lim_id|apply derivable_pt_lim_const].
Qed.

(** the neighbourhood of [x] *)
Let r := Rmin (x - a * t - lo) (hi - (x - a * t)).
Lemma r_pos : 0 < r. Proof. unfold r. apply Rmin_glb_lt; lra. Qed.
Lemma r_in y : Rabs (y - x) < r -> lo < y - a * t < hi.
Proof.
  intros H. apply Rabs_def2 in H. pose proof (Rmin_l (x - a * t - lo) (hi - (x - a * t))).
  pose proof (Rmin_r (x - a * t - lo) (hi - (x - a * t))). unfold r in H. lra.
Qed.

Lemma shift_t : derivable_pt_lim (fun s => ic (x - a * s)) t (- a * f' (x - a * t)).
Proof.
  assert (P : 0 < Rabs a + 1) by (pose proof (Rabs_pos a); lra).
  pose proof r_pos as Q. set (d := r / (Rabs a + 1)). assert (D : 0 < d) by (apply Rdiv_lt_0_compat; lra).
  apply (derivable_pt_lim_locally_ext (fun s => f (x - a * s)) _ t (t - d) (t + d)); [lra| |].
  - intros s Hs. symmetry. apply Hic.
    replace (x - a * s) with ((x - a * (s - t)) - a * t) by ring. apply r_in.
    replace (x - a * (s - t) - x) with (- (a * (s - t))) by ring. rewrite Rabs_Ropp, Rabs_mult.
    assert (L : Rabs (s - t) < d) by (apply Rabs_def1; lra).
    apply Rle_lt_trans with (Rabs a * d); [apply Rmult_le_compat_l; [apply Rabs_pos|lra]|].
    assert (E : (Rabs a + 1) * d = r) by (unfold d; field; lra). lra.
  - replace (- a * f' (x - a * t)) with (f' (x - a * t) * (0 - a * 1)) by ring.
    apply (derivable_pt_lim_comp (fun s => x - a * s) f); [|apply Hf; exact Hx].
    apply (derivable_pt_lim_minus (fct_cte x) (mult_real_fct a id)); [apply derivable_pt_lim_const|].
    apply derivable_pt_lim_scal, derivable_pt_lim_id.
Qed.

Lemma travelling nu : solves a nu (fun x t => ic (x - a * t)) x t <-> nu * f'' (x - a * t) = 0.
Proof.
  split.
  - intros (r0 & ux & ut & uxx & T & X & XX & E).
    pose proof (uniqueness_limite _ _ _ _ T shift_t) as ->.
    assert (U : forall y, Rabs (y - x) < r0 -> Rabs (y - x) < r -> ux y = f' (y - a * t)).
    { intros y H1 H2. apply (uniqueness_limite _ _ _ _ (X y H1)). apply shift_x, r_in, H2. }
    pose proof r_pos as Q. pose proof (cond_pos r0) as Q0.
    assert (E2 : uxx = f'' (x - a * t)).
    { apply (uniqueness_limite ux x); [exact XX|].
      set (m := Rmin r0 r). assert (Hm : 0 < m) by (apply Rmin_glb_lt; assumption).
      apply (derivable_pt_lim_locally_ext (fun z => f' (z - a * t)) _ x (x - m) (x + m)); [lra| |apply shift_xx].
      intros z Hz. symmetry. pose proof (Rmin_l r0 r) as M1. pose proof (Rmin_r r0 r) as M2. fold m in M1, M2.
      apply U; apply Rabs_def1; lra. }
    rewrite <- E2. rewrite U in E by (replace (x - x) with 0 by ring; rewrite Rabs_R0; assumption). lra.
  - intros E. exists (mkposreal r r_pos), (fun y => f' (y - a * t)), (- a * f' (x - a * t)), (f'' (x - a * t)).
    split; [exact shift_t|]. split; [intros y H; apply shift_x, r_in, H|]. split; [exact shift_xx|]. rewrite E. ring.
Qed.
End Travelling.

Lemma const_d c y : derivable_pt_lim (fun _ => c) y ((fun _ => 0) y).
Proof. apply (derivable_pt_lim_const c). Qed.

(** in the middle: only where the profile is zero; elsewhere always *)
Lemma single_middle nu x t : 2 < x - single_a_x * t < 3 ->
  (solves single_a_x nu single_exact x t <-> nu * profile (x - single_a_x * t) = 0).
Proof.
  intros H. unfold single_exact.
  rewrite (travelling single_a_x 2 3 single_ic profile (fun x => k_wave * cos ((x - 25 / 10) * k_wave))
    (fun x => - (k_wave * k_wave * profile x))).
  - assert (K : 0 < k_wave * k_wave) by (unfold k_wave; lra). split; intros E.
    + apply (Rmult_eq_reg_l (k_wave * k_wave)); [|lra]. lra.
    + replace (nu * - (k_wave * k_wave * profile (x - single_a_x * t)))
        with (- (k_wave * k_wave) * (nu * profile (x - single_a_x * t))) by ring. rewrite E. ring.
  - intros y Hy. unfold single_ic. destruct (Rgt_dec y 3); [lra|]. destruct (Rgt_dec y 2); [reflexivity|lra].
  - intros y _. apply profile_d.
  - intros y _. apply profile_dd.
  - exact H.
Qed.

Lemma single_outside nu x t : x - single_a_x * t < 2 \/ 3 < x - single_a_x * t -> solves single_a_x nu single_exact x t.
Proof.
  intros [H|H]; unfold single_exact.
  - apply (travelling single_a_x (x - single_a_x * t - 1) 2 single_ic (fun _ => -1) (fun _ => 0) (fun _ => 0)).
    + intros y Hy. unfold single_ic. destruct (Rgt_dec y 3); [lra|]. destruct (Rgt_dec y 2); [lra|reflexivity].
    + intros y _. apply (derivable_pt_lim_const (-1)).
    + intros y _. apply (derivable_pt_lim_const 0).
    + lra.
    + ring.
  - apply (travelling single_a_x 3 (x - single_a_x * t + 1) single_ic (fun _ => 1) (fun _ => 0) (fun _ => 0)).
    + intros y Hy. unfold single_ic. destruct (Rgt_dec y 3); [reflexivity|lra].
    + intros y _. apply (derivable_pt_lim_const 1).
    + intros y _. apply (derivable_pt_lim_const 0).
    + lra.
    + ring.
Qed.

(** ** the exact solution of linear/multiple.cpp *)

(** [A Inv = Inv diag(values)] *)
Lemma right_vectors K A values L Inv : left_vectors K A values L Inv ->
  forall i k, (i < K)%nat -> (k < K)%nat -> sum K (fun j => A i j * Inv j k) = Inv i k * values k.
Proof.
  intros (E & LI & IL) i k Hi Hk.
  rewrite (sum_ext K _ (fun j => sum K (fun p => Inv i p * values p * (L p j * Inv j k)))).
  - rewrite sum_swap. rewrite (sum_ext K _ (fun p => if Nat.eq_dec k p then Inv i p * values p else 0)).
    + apply (sum_single K k (fun p => Inv i p * values p)). exact Hk.
    + intros p Hp. rewrite sum_mul_l, LI by auto. destruct (Nat.eq_dec p k), (Nat.eq_dec k p); try congruence; ring.
  - intros j Hj. rewrite (sum_ext K (fun p => _) (fun p => sum K (fun m => Inv i p * L p m * A m j) * Inv j k)).
    + rewrite sum_mul_r, sum_swap.
      rewrite (sum_ext K (fun m => _) (fun m => if Nat.eq_dec i m then A m j else 0)).
      * rewrite (sum_single K i (fun m => A m j)) by exact Hi. reflexivity.
      * intros m Hm. rewrite sum_mul_r, IL by auto. destruct (Nat.eq_dec i m); ring.
    + intros p Hp. rewrite (sum_ext K (fun m => _) (fun m => Inv i p * (L p m * A m j))) by (intros; ring).
      rewrite sum_mul_l, E by auto. ring.
Qed.

(** near [lambda t], the comparisons are those of the eigenvalues with [lambda] *)
Lemma nearby K (values : Col) lambda t : 0 < t -> exists r, 0 < r /\ forall y i, (i < K)%nat ->
  (lambda * t - r < y < lambda * t -> (y > values i * t <-> values i < lambda))
  /\ (lambda * t < y < lambda * t + r -> (y > values i * t <-> values i <= lambda)).
Proof.
  intros T. induction K as [|K (r & R & H)]; [exists 1; split; [lra|intros; lia]|].
  destruct (Req_dec (values K) lambda) as [E|E].
  - exists r. split; [exact R|]. intros y i Hi. destruct (Nat.eq_dec i K) as [->|N]; [|apply H; lia].
    rewrite E. split; intros; split; intros; lra.
  - assert (P : 0 < Rabs (values K - lambda) * t) by (apply Rmult_lt_0_compat; [apply Rabs_pos_lt; lra|exact T]).
    exists (Rmin r (Rabs (values K - lambda) * t)). split; [apply Rmin_glb_lt; assumption|].
    pose proof (Rmin_l r (Rabs (values K - lambda) * t)) as L1. pose proof (Rmin_r r (Rabs (values K - lambda) * t)) as L2.
    intros y i Hi. destruct (Nat.eq_dec i K) as [->|N].
    + clear H. unfold Rabs in *. destruct (Rcase_abs (values K - lambda)) as [C|C].
      * assert (Q : values K * t < lambda * t) by (apply Rmult_lt_compat_r; lra).
        split; intros Hy; split; intros; lra.
      * assert (Q : lambda * t < values K * t) by (apply Rmult_lt_compat_r; lra).
        split; intros Hy; split; intros; lra.
    + destruct (H y i ltac:(lia)) as [H1 H2]. split; intros Hy; [apply H1|apply H2]; lra.
Qed.

Lemma multiple_right K A values L Inv left right : left_vectors K A values L Inv ->
  linear_riemann K A (multiple_exact K values L Inv left right).
Proof.
  intros H lambda t T.
  set (w := fun i (state : Col) => sum K (fun k => L i k * state k)).
  exists (fun j => sum K (fun i => Inv j i * w i (if Rlt_dec (values i) lambda then right else left))),
         (fun j => sum K (fun i => Inv j i * w i (if Rle_dec (values i) lambda then right else left))).
  split.
  - destruct (nearby K values lambda t T) as (r & R & N). exists r. split; [exact R|]. intros y j Hj.
    unfold multiple_exact, x_0, w. replace (y - 0) with y by ring.
    split; intros Hy; apply sum_ext; intros i Hi; cbv zeta; destruct (N y i Hi) as [N1 N2].
    + specialize (N1 Hy). destruct (Rgt_dec y (values i * t)), (Rlt_dec (values i) lambda); try reflexivity; exfalso; tauto.
    + specialize (N2 Hy). destruct (Rgt_dec y (values i * t)), (Rle_dec (values i) lambda); try reflexivity; exfalso; tauto.
  - intros i Hi.
    set (g := fun k => if Req_EM_T (values k) lambda then w k right - w k left else 0).
    assert (J : forall j, sum K (fun i => Inv j i * w i (if Rle_dec (values i) lambda then right else left)) -
      sum K (fun i => Inv j i * w i (if Rlt_dec (values i) lambda then right else left)) = sum K (fun k => Inv j k * g k)).
    { intros j. replace (_ - _) with (sum K (fun i => Inv j i * w i (if Rle_dec (values i) lambda then right else left)) +
        sum K (fun i => -1 * (Inv j i * w i (if Rlt_dec (values i) lambda then right else left)))) by (rewrite sum_mul_l; ring).
      rewrite <- sum_add. apply sum_ext. intros k Hk. unfold g.
      destruct (Rle_dec (values k) lambda), (Rlt_dec (values k) lambda), (Req_EM_T (values k) lambda); try ring; exfalso; lra. }
    rewrite J. rewrite (sum_ext K _ (fun j => sum K (fun k => A i j * Inv j k * g k))).
    2:{ intros j Hj. rewrite J, <- sum_mul_l. apply sum_ext. intros. ring. }
    rewrite sum_swap, <- sum_mul_l. apply sum_ext. intros k Hk.
    rewrite sum_mul_r, (right_vectors K A values L Inv H) by assumption.
    unfold g. destruct (Req_EM_T (values k) lambda) as [->|]; ring.
Qed.

(** whatever the matrices, as long as they are inverse, the solution starts with the initial condition ... *)
Lemma multiple_start K values V W left right x j : (j < K)%nat ->
  (forall i j, (i < K)%nat -> (j < K)%nat -> sum K (fun k => W i k * V k j) = if Nat.eq_dec i j then 1 else 0) ->
  forall t, (forall i, (i < K)%nat -> (x > values i * t <-> x > 0)) ->
  multiple_exact K values V W left right x t j = multiple_ic left right x j.
Proof.
  intros Hj H t C. unfold multiple_exact, multiple_ic, x_0. replace (x - 0) with x by ring.
  rewrite (sum_ext K _ (fun i => sum K (fun k => W j i * V i k * (if Rgt_dec x 0 then right else left) k))).
  - rewrite sum_swap. rewrite (sum_ext K _ (fun k => if Nat.eq_dec j k then (if Rgt_dec x 0 then right else left) k else 0)).
    + apply (sum_single K j (fun k => (if Rgt_dec x 0 then right else left) k)). exact Hj.
    + intros k Hk. rewrite sum_mul_r, H by auto. destruct (Nat.eq_dec j k); ring.
  - intros i Hi. cbv zeta. rewrite <- sum_mul_l. apply sum_ext. intros k Hk. specialize (C i Hi).
    destruct (Rgt_dec x (values i * t)), (Rgt_dec x 0); try ring; exfalso; tauto.
Qed.
