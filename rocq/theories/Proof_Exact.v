(** Proofs about the exact Riemann solver. *)
From Coq Require Import Reals List Lra Psatz Lia.
From Verif Require Import Arrays Model_Euler Spec_Euler Proof_Euler Model_Exact Spec_Exact.
Import ListNotations.
Open Scope R_scope.

(** ** [FindRoot] on functions that lie below their tangents *)

Lemma tangents_antitone f f' : below_tangents f f' -> forall x y, 0 < x -> x <= y -> f' y <= f' x.
Proof.
  intros H x y Hx L. destruct (Req_dec x y) as [->|N]; [lra|].
  pose proof (H x y ltac:(lra) ltac:(lra)). pose proof (H y x ltac:(lra) ltac:(lra)).
  assert (0 <= (f' x - f' y) * (y - x)) by lra.
  destruct (Rle_dec (f' y) (f' x)); [auto|]. nra.
Qed.

Lemma tangents_increasing f f' : below_tangents f f' -> (forall x, 0 < x -> 0 < f' x) ->
  forall x y, 0 < x -> x < y -> f x < f y.
Proof.
  intros H P x y Hx L. pose proof (H y x ltac:(lra) ltac:(lra)). pose proof (P y ltac:(lra)).
  nra.
Qed.

Section FindRoot.
  Variables (F F' : R -> option R) (f f' : R -> R) (eps : R).
  Hypothesis HF : forall x, 0 < x -> F x = Some (f x).
  Hypothesis HF' : forall x, 0 < x -> F' x = Some (f' x).
  Hypothesis Htan : below_tangents f f'.
  Hypothesis Hpos : forall x, 0 < x -> 0 < f' x.
  Hypothesis Heps : 0 < eps.

  (** one round of the second loop goes up, but not beyond the root *)
  Lemma newton_step x : 0 < x -> f x < - eps ->
    let y := x - f x / f' x in x < y /\ f y <= 0 /\ f x < f y /\ x + eps / f' x <= y.
  Proof.
    intros Hx H y. pose proof (Hpos x Hx) as P.
    assert (x + eps / f' x <= y) as L.
    { unfold y. assert (eps / f' x <= - f x / f' x).
      { unfold Rdiv. apply Rmult_le_compat_r; [left; apply Rinv_0_lt_compat; auto|lra]. }
      unfold Rdiv in *. lra. }
    assert (0 < eps / f' x) by (apply Rmult_lt_0_compat; [auto|apply Rinv_0_lt_compat; auto]).
    assert (x < y) as L' by lra.
    split; [auto|]. split; [|split; [|auto]].
    - pose proof (Htan x y Hx ltac:(lra)) as T. 
      replace (f' x * (y - x)) with (- f x) in T by (unfold y; field; lra). lra.
    - apply tangents_increasing with f'; auto.
  Qed.

  Lemma newton_result fuel x r : 0 < x -> f x <= 0 -> FindRoot_newton F F' eps fuel x = Some r ->
    x <= r /\ - eps <= f r <= 0.
  Proof.
    revert x. induction fuel; intros x Hx Hf E; cbn in E; [discriminate|].
    rewrite HF in E by auto. cbn in E. destruct (Rlt_dec (f x) (- eps)) as [L|L].
    - rewrite HF' in E by auto. cbn in E. destruct (Req_EM_T (f' x) 0); [discriminate|].
      destruct (newton_step x Hx L) as [A [B _]].
      destruct (IHfuel _ (Rlt_trans _ _ _ Hx A) B E) as [C D]. split; [lra|auto].
    - injection E as <-. lra.
  Qed.

  (** the second loop ends if the function does become non-negative *)
  Lemma newton_terminates z : 0 < z -> 0 <= f z -> forall x0, 0 < x0 -> forall n x, x0 <= x -> f x <= 0 ->
    z - x <= INR n * (eps / f' x0) -> exists r, FindRoot_newton F F' eps (S n) x = Some r.
  Proof.
    intros Hz Hfz x0 Hx0. induction n; intros x L Hf B.
    - exists x. cbn. rewrite HF by lra. cbn. destruct (Rlt_dec (f x) (- eps)) as [C|C]; [|reflexivity].
      exfalso. cbn in B. destruct (Rlt_dec x z) as [X|X]; [lra|].
      destruct (Req_dec x z) as [->|N]; [lra|].
      pose proof (tangents_increasing f f' Htan Hpos z x Hz ltac:(lra)). lra.
    - change (exists r, (do fx <- F x; if Rlt_dec fx (- eps) then
        do divisor <- F' x; if Req_EM_T divisor 0 then None else FindRoot_newton F F' eps (S n) (x - fx / divisor)
        else Some x) = Some r).
      rewrite HF by lra. cbn [bind]. destruct (Rlt_dec (f x) (- eps)) as [C|C]; [|exists x; reflexivity].
      rewrite HF' by lra. cbn [bind]. pose proof (Hpos x ltac:(lra)). destruct (Req_EM_T (f' x) 0); [lra|].
      destruct (newton_step x ltac:(lra) C) as [A1 [A2 [A3 A4]]].
      apply IHn; [lra|auto|].
      rewrite S_INR in B.
      assert (eps / f' x0 <= eps / f' x).
      { unfold Rdiv. apply Rmult_le_compat_l; [lra|]. apply Rinv_le_contravar; [auto|].
        apply tangents_antitone with f; auto. }
      lra.
  Qed.

  Lemma newton_fuel n m x r : (n <= m)%nat -> FindRoot_newton F F' eps n x = Some r -> FindRoot_newton F F' eps m x = Some r.
  Proof.
    revert m x. induction n; intros m x L E; [discriminate|]. destruct m; [lia|]. cbn in *.
    destruct (F x); [|discriminate]. cbn in *. destruct (Rlt_dec _ _); [|auto].
    destruct (F' x); [|discriminate]. cbn in *. destruct (Req_EM_T _ 0); [discriminate|]. apply IHn; [lia|auto].
  Qed.

  Lemma halve_fuel n m x r : (n <= m)%nat -> FindRoot_halve F n x = Some r -> FindRoot_halve F m x = Some r.
  Proof.
    revert m x. induction n; intros m x L E; [discriminate|]. destruct m; [lia|]. cbn in *.
    destruct (F x); [|discriminate]. cbn in *. destruct (Rgt_dec _ _); [|auto]. apply IHn; [lia|auto].
  Qed.

  Lemma halve_result fuel x r : 0 < x -> FindRoot_halve F fuel x = Some r -> 0 < r <= x /\ f r <= 0.
  Proof.
    revert x. induction fuel; intros x Hx E; cbn in E; [discriminate|].
    rewrite HF in E by auto. cbn in E. destruct (Rgt_dec (f x) 0).
    - destruct (IHfuel (x * (1 / 2)) ltac:(lra) E). lra.
    - injection E as <-. lra.
  Qed.

  (** the first loop ends if the function is not positive near 0 *)
  Lemma halve_terminates d : 0 < d -> (forall x, 0 < x < d -> f x <= 0) ->
    forall n x, 0 < x -> x < d * 2 ^ n -> exists r, FindRoot_halve F (S n) x = Some r.
  Proof.
    intros Hd Hf. induction n; intros x Hx L.
    - exists x. cbn. rewrite HF by auto. cbn. destruct (Rgt_dec (f x) 0) as [C|C]; [|reflexivity].
      exfalso. cbn in L. pose proof (Hf x ltac:(lra)). lra.
    - change (exists r, (do fx <- F x; if Rgt_dec fx 0 then FindRoot_halve F (S n) (x * (1 / 2)) else Some x) = Some r).
      rewrite HF by auto. cbn [bind]. destruct (Rgt_dec (f x) 0); [|exists x; reflexivity].
      apply IHn; [lra|]. cbn in L. lra.
  Qed.

  Theorem FindRoot_result fuel x r : 0 < x -> FindRoot F F' eps fuel x = Some r ->
    0 < r /\ - eps < f r <= 0.
  Proof.
    intros Hx E. unfold FindRoot in E.
    destruct (FindRoot_halve F fuel x) as [x1|] eqn:E1; [|discriminate]. cbn in E.
    destruct (FindRoot_newton F F' eps fuel x1) as [x2|] eqn:E2; [|discriminate]. cbn in E.
    destruct (halve_result _ _ _ Hx E1) as [A B].
    destruct (newton_result _ _ _ (proj1 A) B E2) as [C D].
    rewrite HF in E by lra. cbn in E. destruct (Rlt_dec (Rabs (f x2)) eps) as [L|L]; [|discriminate].
    injection E as <-. apply Rabs_def2 in L. lra.
  Qed.

  (** it ends, and fails only if the residual is exactly the tolerance (the loop stops there, but the
      final assertion wants it smaller) *)
  Theorem FindRoot_terminates x d z : 0 < x -> 0 < d -> (forall y, 0 < y < d -> f y <= 0) ->
    0 < z -> 0 <= f z ->
    exists n r, 0 < r /\ - eps <= f r <= 0 /\ forall fuel, (n <= fuel)%nat ->
      FindRoot F F' eps fuel x = if Req_EM_T (f r) (- eps) then None else Some r.
  Proof.
    intros Hx Hd Hn Hz Hfz.
    assert (exists n, x < d * 2 ^ n) as [n1 L1].
    { destruct (Pow_x_infinity 2 ltac:(rewrite Rabs_right; lra) (x / d + 1)) as [n Pn].
      exists n. pose proof (Pn n (le_n n)) as P. rewrite Rabs_right in P by (apply Rle_ge, pow_le; lra).
      apply Rmult_lt_reg_r with (/ d); [apply Rinv_0_lt_compat; auto|].
      replace (d * 2 ^ n * / d) with (2 ^ n) by (field; lra). unfold Rdiv in P. lra. }
    destruct (halve_terminates d Hd Hn n1 x Hx L1) as [x1 E1].
    destruct (halve_result _ _ _ Hx E1) as [A B].
    pose proof (Hpos x1 (proj1 A)) as P1.
    assert (0 < eps / f' x1) as Q by (apply Rmult_lt_0_compat; [auto|apply Rinv_0_lt_compat; auto]).
    assert (exists n, z - x1 <= INR n * (eps / f' x1)) as [n2 L2].
    { destruct (archimed_cor1 ((eps / f' x1) / (Rabs (z - x1) + 1))) as [n [Pn N]].
      { apply Rmult_lt_0_compat; [auto|]. apply Rinv_0_lt_compat. pose proof (Rabs_pos (z - x1)). lra. }
      exists n. assert (0 < INR n) as In by (apply lt_0_INR; auto).
      pose proof (Rabs_pos (z - x1)) as Ap. pose proof (Rle_abs (z - x1)).
      apply (Rmult_lt_compat_l (INR n)) in Pn; [|auto]. rewrite Rinv_r in Pn by lra.
      apply (Rmult_lt_compat_r (Rabs (z - x1) + 1)) in Pn; [|lra].
      replace (INR n * (eps / f' x1 / (Rabs (z - x1) + 1)) * (Rabs (z - x1) + 1)) with (INR n * (eps / f' x1)) in Pn
        by (field; lra). lra. }
    destruct (newton_terminates z Hz Hfz x1 (proj1 A) n2 x1 (Rle_refl _) B L2) as [r E2].
    destruct (newton_result _ _ _ (proj1 A) B E2) as [C D].
    exists (S n1 + S n2)%nat, r. split; [lra|]. split; [exact D|].
    intros fuel Hfuel. unfold FindRoot.
    rewrite (halve_fuel (S n1) fuel _ _ ltac:(lia) E1). cbn [bind].
    rewrite (newton_fuel (S n2) fuel _ _ ltac:(lia) E2). cbn [bind].
    rewrite HF by lra. cbn [bind].
    destruct (Req_EM_T (f r) (- eps)) as [Q'|Q'].
    - destruct (Rlt_dec (Rabs (f r)) eps) as [X|X]; [|reflexivity]. apply Rabs_def2 in X. lra.
    - destruct (Rlt_dec (Rabs (f r)) eps) as [X|X]; [reflexivity|]. exfalso. apply X.
      rewrite Rabs_left1 by lra. lra.
  Qed.
End FindRoot.

(** ** The pressure function *)

Lemma bernoulli e r : 0 < e < 1 -> 0 < r -> Rpower r e <= 1 + e * (r - 1).
Proof.
  intros He Hr. unfold Rpower. set (L := ln r).
  assert (r = exp L) as Er by (unfold L; rewrite exp_ln; auto).
  set (m := exp (e * L)). pose proof (exp_pos (e * L)) as Pm. fold m in Pm.
  assert (r = m * exp ((1 - e) * L)) as E1.
  { unfold m. rewrite <- exp_plus. rewrite Er. f_equal. ring. }
  assert (1 = m * exp (- e * L)) as E2.
  { unfold m. rewrite <- exp_plus. replace (e * L + - e * L) with 0 by ring. symmetry. apply exp_0. }
  pose proof (exp_ineq1_le ((1 - e) * L)) as I1. pose proof (exp_ineq1_le (- e * L)) as I2.
  assert (m * (1 + (1 - e) * L) <= r) as J1 by (rewrite E1; apply Rmult_le_compat_l; lra).
  assert (m * (1 + - e * L) <= 1) as J2 by (rewrite E2; apply Rmult_le_compat_l; lra).
  assert (e * (m * (1 + (1 - e) * L)) <= e * r) by (apply Rmult_le_compat_l; lra).
  assert ((1 - e) * (m * (1 + - e * L)) <= (1 - e) * 1) by (apply Rmult_le_compat_l; lra).
  nra.
Qed.

Section Pressure.
  Variables (gamma rho b : R).
  Hypothesis G : 1 < gamma.
  Hypothesis Hrho : 0 < rho.
  Hypothesis Hb : 0 < b.

  Let alpha := (gamma + 1) / 2.
  Let beta := b * ((gamma - 1) / 2).
  Let c := gamma * b.
  Let a := sqrt (gamma * b / rho).
  Let e := (gamma - 1) / 2 / gamma.
  Let s x := sqrt (alpha * x + beta).

  Definition shock (x : R) := (x - b) / sqrt (rho * SpeedChange_P gamma b x).
  Definition shock' (x : R) :=
    (1 + (gamma + 1) / 4 * (b - x) / SpeedChange_P gamma b x) / sqrt (rho * SpeedChange_P gamma b x).
  Definition expansion (x : R) := (powR (x / b) e - 1) * (2 / (gamma - 1) * a).
  Definition expansion' (x : R) := powR (x / b) (- ((gamma + 1) / 2) / gamma) / (rho * a).

  Lemma P_pos x : 0 <= x -> 0 < SpeedChange_P gamma b x.
  Proof. intros. unfold SpeedChange_P. nra. Qed.

  Lemma s_pos x : 0 <= x -> 0 < s x.
  Proof. intros. apply sqrt_lt_R0. apply P_pos; auto. Qed.

  Lemma s_sq x : 0 <= x -> s x * s x = alpha * x + beta.
  Proof. intros. apply sqrt_sqrt. left. apply P_pos; auto. Qed.

  Lemma alpha_pos : 0 < alpha. Proof. unfold alpha. lra. Qed.
  Lemma c_pos : 0 < c. Proof. unfold c. nra. Qed.
  Lemma c_eq : c = beta + alpha * b. Proof. unfold c, beta, alpha. field. Qed.
  Lemma srho_pos : 0 < sqrt rho. Proof. apply sqrt_lt_R0; auto. Qed.

  Lemma sqrt_rhoP x : 0 <= x -> sqrt (rho * SpeedChange_P gamma b x) = sqrt rho * s x.
  Proof. intros. apply sqrt_mult; [lra|]. left. apply P_pos; auto. Qed.

  Lemma shock_s x : 0 <= x -> shock x = (s x - c / s x) / (alpha * sqrt rho).
  Proof.
    intros H. unfold shock. rewrite sqrt_rhoP by auto.
    pose proof (s_pos x H) as P. pose proof (s_sq x H) as Q. pose proof alpha_pos. pose proof srho_pos.
    assert (x = (s x * s x - beta) / alpha) as E by (rewrite Q; field; lra).
    rewrite E at 1. rewrite c_eq. field. lra.
  Qed.

  Lemma shock'_s x : 0 <= x -> shock' x = (1 + c / (s x * s x)) / (2 * s x * sqrt rho).
  Proof.
    intros H. unfold shock'. rewrite sqrt_rhoP by auto.
    pose proof (s_pos x H) as P. pose proof (s_sq x H) as Q. pose proof alpha_pos. pose proof srho_pos.
    change (SpeedChange_P gamma b x) with (alpha * x + beta). rewrite <- Q.
    assert (x = (s x * s x - beta) / alpha) as E by (rewrite Q; field; lra).
    rewrite E at 1. rewrite c_eq. unfold beta, alpha. field. unfold alpha in *. lra.
  Qed.

  Lemma shock_tangent x y : 0 <= x -> 0 <= y -> shock y <= shock x + shock' x * (y - x).
  Proof.
    intros Hx Hy. rewrite !shock_s, shock'_s by auto.
    pose proof (s_pos x Hx) as P. pose proof (s_sq x Hx) as Q.
    pose proof (s_pos y Hy) as P'. pose proof (s_sq y Hy) as Q'.
    pose proof alpha_pos as A. pose proof srho_pos as S. pose proof c_pos as C.
    assert (y - x = (s y * s y - s x * s x) / alpha) as -> by (rewrite Q, Q'; field; lra).
    set (u := s x) in *. set (t := s y) in *. set (k := sqrt rho) in *.
    assert (0 <= (1 + c / (u * u)) / (2 * u * k) * ((t * t - u * u) / alpha)
      - ((t - c / t) / (alpha * k) - (u - c / u) / (alpha * k))) as Z; [|lra].
    replace ((1 + c / (u * u)) / (2 * u * k) * ((t * t - u * u) / alpha)
      - ((t - c / t) / (alpha * k) - (u - c / u) / (alpha * k))) with
      ((t - u) * (t - u) * (u * u * t + c * (t + 2 * u)) * / (2 * u * u * u * t * k * alpha)).
    2:{ field. lra. }
    apply Rmult_le_pos.
    - apply Rmult_le_pos; [apply Rle_0_sqr|]. assert (0 < u * u * t) by (repeat apply Rmult_lt_0_compat; auto).
      nra.
    - left. apply Rinv_0_lt_compat. repeat apply Rmult_lt_0_compat; lra.
  Qed.

  Lemma shock'_pos x : 0 <= x -> 0 < shock' x.
  Proof.
    intros H. rewrite shock'_s by auto. pose proof (s_pos x H) as P. pose proof srho_pos. pose proof c_pos.
    apply Rmult_lt_0_compat.
    - assert (0 < c / (s x * s x)) by (apply Rmult_lt_0_compat; [auto|apply Rinv_0_lt_compat; nra]). lra.
    - apply Rinv_0_lt_compat. repeat apply Rmult_lt_0_compat; lra.
  Qed.

  Lemma a_pos : 0 < a.
  Proof. apply sqrt_lt_R0. apply Rmult_lt_0_compat; [nra|]. apply Rinv_0_lt_compat; auto. Qed.
  Lemma a_sq : a * a = gamma * b / rho.
  Proof. apply sqrt_sqrt. left. apply Rmult_lt_0_compat; [nra|]. apply Rinv_0_lt_compat; auto. Qed.
  Lemma e_range : 0 < e < 1.
  Proof.
    unfold e. split.
    - apply Rmult_lt_0_compat; [lra|]. apply Rinv_0_lt_compat. lra.
    - apply Rmult_lt_reg_r with gamma; [lra|]. unfold Rdiv at 1.
      rewrite Rmult_assoc, Rinv_l by lra. lra.
  Qed.

  Lemma div_pos x y : 0 < x -> 0 < y -> 0 < x / y.
  Proof. intros. apply Rmult_lt_0_compat; [auto|]. apply Rinv_0_lt_compat; auto. Qed.

  Lemma powR_pos x y : 0 < x -> powR x y = Rpower x y.
  Proof. intros. unfold powR. destruct (Req_EM_T x 0); [lra|reflexivity]. Qed.

  Lemma expansion'_eq x : 0 < x -> expansion' x = 2 / (gamma - 1) * a * (e * Rpower (x / b) e / x).
  Proof.
    intros H. pose proof (div_pos x b H Hb) as D. unfold expansion'. rewrite powR_pos by auto.
    replace (- ((gamma + 1) / 2) / gamma) with (e + - (1)) by (unfold e; field; lra).
    rewrite Rpower_plus, Rpower_Ropp, Rpower_1 by auto.
    pose proof a_pos. pose proof a_sq as Q.
    assert (rho = gamma * b / (a * a)) as E by (rewrite Q; field; lra).
    rewrite E. unfold e. field. repeat split; try lra.
  Qed.

  Lemma expansion_tangent x y : 0 < x -> 0 < y -> expansion y <= expansion x + expansion' x * (y - x).
  Proof.
    intros Hx Hy. rewrite expansion'_eq by auto. unfold expansion.
    pose proof (div_pos x b Hx Hb) as Dx. pose proof (div_pos y b Hy Hb) as Dy.
    rewrite !powR_pos by auto.
    assert (Rpower (y / b) e = Rpower (x / b) e * Rpower (y / x) e) as E.
    { rewrite Rpower_mult_distr; [f_equal; field; lra|auto|apply div_pos; auto]. }
    rewrite E. pose proof (bernoulli e (y / x) e_range (div_pos y x Hy Hx)) as B.
    assert (0 < Rpower (x / b) e) as Pp by apply exp_pos.
    pose proof a_pos as A. assert (0 < 2 / (gamma - 1) * a) as K.
    { apply Rmult_lt_0_compat; [|auto]. apply div_pos; lra. }
    set (m := Rpower (x / b) e) in *. set (k := 2 / (gamma - 1) * a) in *.
    assert (m * Rpower (y / x) e <= m * (1 + e * (y / x - 1))) as L by (apply Rmult_le_compat_l; lra).
    replace ((m - 1) * k + k * (e * m / x) * (y - x)) with ((m * (1 + e * (y / x - 1)) - 1) * k) by (field; lra).
    apply Rmult_le_compat_r; lra.
  Qed.

  Lemma expansion'_pos x : 0 < x -> 0 < expansion' x.
  Proof.
    intros H. unfold expansion'. rewrite powR_pos by (apply div_pos; auto).
    apply div_pos; [apply exp_pos|]. pose proof a_pos. nra.
  Qed.

  Lemma expansion_b : expansion b = 0.
  Proof.
    unfold expansion. replace (b / b) with 1 by (field; lra). rewrite powR_pos by lra.
    unfold Rpower. rewrite ln_1, Rmult_0_r, exp_0. ring.
  Qed.
  Lemma shock_b : shock b = 0.
  Proof. unfold shock. rewrite Rminus_eq_0. unfold Rdiv. ring. Qed.

  Lemma slopes_b : shock' b = expansion' b.
  Proof.
    rewrite expansion'_eq by auto. replace (b / b) with 1 by (field; lra).
    unfold Rpower. rewrite ln_1, Rmult_0_r, exp_0.
    unfold shock'. replace (b - b) with 0 by ring.
    pose proof a_pos. pose proof a_sq as Q.
    assert (SpeedChange_P gamma b b = gamma * b) as E by (unfold SpeedChange_P; field). rewrite E.
    assert (sqrt (rho * (gamma * b)) = rho * a) as ->.
    { apply sqrt_lem_1; [repeat apply Rmult_le_pos; lra|apply Rmult_le_pos; lra|]. replace (rho * a * (rho * a)) with (rho * rho * (a * a)) by ring.
      rewrite Q. field. lra. }
    assert (rho = gamma * b / (a * a)) as Er by (rewrite Q; field; lra).
    rewrite Er. unfold e. field. repeat split; lra.
  Qed.

  (** the two branches together *)
  Definition change (x : R) := if Rge_dec x b then shock x else expansion x.
  Definition change' (x : R) := if Rge_dec x b then shock' x else expansion' x.

  Lemma change_tangent : below_tangents change change'.
  Proof.
    intros x y Hx Hy. unfold change, change'.
    destruct (Rge_dec x b) as [X|X], (Rge_dec y b) as [Y|Y].
    - apply shock_tangent; lra.
    - (* y < b <= x *)
      pose proof (shock_tangent x b ltac:(lra) ltac:(lra)) as T1.
      pose proof (expansion_tangent b y ltac:(lra) Hy) as T2.
      rewrite shock_b in T1. rewrite expansion_b, <- slopes_b in T2.
      assert (shock' x <= shock' b) as M.
      { destruct (Req_dec x b) as [->|N]; [lra|].
        pose proof (shock_tangent b x ltac:(lra) ltac:(lra)). rewrite shock_b in *.
        assert (0 <= (shock' b - shock' x) * (x - b)) by lra. 
        destruct (Rle_dec (shock' x) (shock' b)); [auto|nra]. }
      nra.
    - (* x < b <= y *)
      pose proof (expansion_tangent x b Hx ltac:(lra)) as T1.
      pose proof (shock_tangent b y ltac:(lra) ltac:(lra)) as T2.
      rewrite expansion_b in T1. rewrite shock_b, slopes_b in T2.
      assert (expansion' b <= expansion' x) as M.
      { pose proof (expansion_tangent b x ltac:(lra) Hx). rewrite expansion_b in *.
        assert (0 <= (expansion' x - expansion' b) * (b - x)) by lra.
        destruct (Rle_dec (expansion' b) (expansion' x)); [auto|nra]. }
      nra.
    - apply expansion_tangent; auto.
  Qed.

  Lemma change'_pos x : 0 < x -> 0 < change' x.
  Proof.
    intros H. unfold change'. destruct (Rge_dec x b); [apply shock'_pos; lra|apply expansion'_pos; auto].
  Qed.

  (** value at 0, and near 0 *)
  Definition change0 : R := - (2 / (gamma - 1) * a).

  Lemma change_near_0 d : 0 < d -> exists x0, 0 < x0 /\ forall x, 0 < x < x0 -> change x <= change0 + d.
  Proof.
    intros Hd. pose proof a_pos as A. pose proof e_range as [E0 E1].
    assert (0 < 2 / (gamma - 1) * a) as K by (apply Rmult_lt_0_compat; [apply div_pos; lra|auto]).
    set (k := 2 / (gamma - 1) * a) in *.
    exists (Rmin b (b * Rpower (d / k) (/ e))). split.
    { apply Rmin_glb_lt; [auto|]. apply Rmult_lt_0_compat; [auto|apply exp_pos]. }
    intros x [X0 X]. pose proof (Rmin_l b (b * Rpower (d / k) (/ e))). pose proof (Rmin_r b (b * Rpower (d / k) (/ e))).
    unfold change. destruct (Rge_dec x b); [lra|]. unfold expansion. fold k.
    rewrite powR_pos by (apply div_pos; auto).
    assert (Rpower (x / b) e <= d / k) as L.
    { replace (d / k) with (Rpower (Rpower (d / k) (/ e)) e).
      2:{ rewrite Rpower_mult. replace (/ e * e) with 1 by (field; lra). apply Rpower_1. apply div_pos; auto. }
      apply Rle_Rpower_l; [lra|]. split; [apply div_pos; auto|].
      apply Rmult_le_reg_r with b; [auto|]. replace (x / b * b) with x by (field; lra). lra. }
    unfold change0. fold k.
    assert (Rpower (x / b) e * k <= d).
    { replace d with (d / k * k) by (field; lra). apply Rmult_le_compat_r; lra. }
    lra.
  Qed.

  (** it grows beyond every bound *)
  Lemma change_large M : 0 <= M -> exists z, b < z /\ forall y, z <= y -> M <= change y.
  Proof.
    intros HM. pose proof alpha_pos as A.
    set (K := M * M * rho * alpha + 1 + M * M * rho * (alpha * b + beta)).
    assert (0 < beta) as Bp by (unfold beta; nra).
    assert (0 <= M * M * rho) as Mr by (apply Rmult_le_pos; nra).
    assert (0 <= M * M * rho * alpha) as K1 by (apply Rmult_le_pos; lra).
    assert (0 <= M * M * rho * (alpha * b + beta)) as K2 by (apply Rmult_le_pos; [auto|nra]).
    assert (1 <= K) as K3 by (unfold K; lra).
    assert (M <= change (b + K)) as L0.
    { unfold change. destruct (Rge_dec (b + K) b); [|lra]. unfold shock.
      rewrite sqrt_rhoP by lra. pose proof (s_pos (b + K) ltac:(lra)) as P. pose proof srho_pos as Q.
      apply Rmult_le_reg_r with (sqrt rho * s (b + K)); [nra|].
      replace ((b + K - b) / (sqrt rho * s (b + K)) * (sqrt rho * s (b + K))) with K by (field; lra).
      apply Rsqr_incr_0_var; [|lra]. unfold Rsqr.
      replace (M * (sqrt rho * s (b + K)) * (M * (sqrt rho * s (b + K)))) with
        (M * M * (sqrt rho * sqrt rho) * (s (b + K) * s (b + K))) by ring.
      rewrite sqrt_sqrt, s_sq by lra.
      replace (M * M * rho * (alpha * (b + K) + beta)) with
        ((M * M * rho * alpha) * K + M * M * rho * (alpha * b + beta)) by ring.
      unfold K at 3. nra. }
    exists (b + K). split; [lra|]. intros y Hy.
    destruct (Req_dec y (b + K)) as [->|N]; [auto|].
    pose proof (tangents_increasing change change' change_tangent change'_pos (b + K) y ltac:(lra) ltac:(lra)). lra.
  Qed.
End Pressure.

(** ** The code's functions are these *)

Lemma physical_sound gamma w : physical w -> GetSpeedOfSound gamma w = sqrt (gamma * energy w / mass w).
Proof.
  intros [A B]. unfold GetSpeedOfSound. destruct (Rle_dec (mass w) 0); [lra|].
  destruct (Rle_dec (energy w) 0); [lra|]. reflexivity.
Qed.

Lemma sqrt_rhoP_neq gamma w p : 1 < gamma -> physical w -> 0 <= p ->
  sqrt (mass w * SpeedChange_P gamma (energy w) p) <> 0.
Proof.
  intros G [A B] P. apply Rgt_not_eq. apply sqrt_lt_R0. apply Rmult_lt_0_compat; [auto|].
  apply P_pos; auto.
Qed.

Lemma SpeedChange_eq gamma w p : 1 < gamma -> physical w -> 0 < p ->
  SpeedChange gamma w p = Some (change gamma (mass w) (energy w) p).
Proof.
  intros G W P. unfold SpeedChange, change. destruct W as [A B].
  destruct (Rlt_dec p 0); [lra|]. destruct (Rge_dec p (energy w)).
  - destruct (Req_EM_T _ 0) as [Z|Z]; [|reflexivity].
    exfalso. revert Z. apply sqrt_rhoP_neq; [auto|split; auto|lra].
  - destruct (Req_EM_T (mass w) 0); [lra|]. rewrite physical_sound by (split; auto). reflexivity.
Qed.

Lemma SpeedChange_0 gamma w : 1 < gamma -> physical w ->
  SpeedChange gamma w 0 = Some (change0 gamma (mass w) (energy w)).
Proof.
  intros G [A B]. unfold SpeedChange, change0.
  destruct (Rlt_dec 0 0); [lra|]. destruct (Rge_dec 0 (energy w)); [lra|].
  destruct (Req_EM_T (mass w) 0); [lra|]. rewrite physical_sound by (split; auto).
  unfold powR. destruct (Req_EM_T (0 / energy w) 0) as [|N]; [|exfalso; apply N; field; lra].
  f_equal. ring.
Qed.

Lemma SpeedChange_Prime_eq gamma w p : 1 < gamma -> physical w -> 0 < p ->
  SpeedChange_Prime gamma w p = Some (change' gamma (mass w) (energy w) p).
Proof.
  intros G W P. unfold SpeedChange_Prime, change'. destruct W as [A B].
  destruct (Rlt_dec p 0); [lra|]. destruct (Rge_dec p (energy w)).
  - destruct (Req_EM_T _ 0) as [Z|Z]; [|reflexivity].
    exfalso. revert Z. apply sqrt_rhoP_neq; [auto|split; auto|lra].
  - destruct (Req_EM_T (mass w) 0); [lra|].
    destruct (Req_EM_T _ 0) as [Z|Z].
    + exfalso. revert Z. apply Rgt_not_eq. apply Rmult_lt_0_compat; [auto|].
      apply sound_pos; [lra|split; auto].
    + unfold expansion'. rewrite physical_sound by (split; auto). reflexivity.
Qed.

Section Pair.
  Variables (gamma : R) (l r : Tuple).
  Hypothesis G : 1 < gamma.
  Hypothesis Pl : physical l.
  Hypothesis Pr : physical r.

  Definition pf (p : R) : R :=
    change gamma (mass l) (energy l) p + change gamma (mass r) (energy r) p + (mX r - mX l).
  Definition pf' (p : R) : R := change' gamma (mass l) (energy l) p + change' gamma (mass r) (energy r) p.
  Definition pf0 : R :=
    mX r - mX l - 2 / (gamma - 1) * (GetSpeedOfSound gamma l + GetSpeedOfSound gamma r).

  Lemma pf_eq p : 0 < p -> pressure_function gamma l r p = Some (pf p).
  Proof. intros. unfold pressure_function. rewrite !SpeedChange_eq by auto. reflexivity. Qed.
  Lemma pf'_eq p : 0 < p -> pressure_prime gamma l r p = Some (pf' p).
  Proof. intros. unfold pressure_prime. rewrite !SpeedChange_Prime_eq by auto. reflexivity. Qed.
  Lemma pf0_eq : pressure_function gamma l r 0 = Some pf0.
  Proof.
    unfold pressure_function. rewrite !SpeedChange_0 by auto. cbn. f_equal. unfold change0, pf0.
    rewrite !physical_sound by auto. ring.
  Qed.

  Lemma pf_tangent : below_tangents pf pf'.
  Proof.
    intros x y Hx Hy. unfold pf, pf'. destruct Pl, Pr.
    pose proof (change_tangent gamma (mass l) (energy l) G H H0 x y Hx Hy).
    pose proof (change_tangent gamma (mass r) (energy r) G H1 H2 x y Hx Hy). lra.
  Qed.
  Lemma pf'_pos p : 0 < p -> 0 < pf' p.
  Proof.
    intros. unfold pf'. destruct Pl, Pr.
    pose proof (change'_pos gamma (mass l) (energy l) G H0 H1 p H).
    pose proof (change'_pos gamma (mass r) (energy r) G H2 H3 p H). lra.
  Qed.

  Lemma pf_near_0 : pf0 < 0 -> exists d, 0 < d /\ forall p, 0 < p < d -> pf p <= 0.
  Proof.
    intros N. destruct Pl as [A B], Pr as [C D].
    destruct (change_near_0 gamma (mass l) (energy l) G A B (- pf0 / 2)) as [x [X HX]]; [lra|].
    destruct (change_near_0 gamma (mass r) (energy r) G C D (- pf0 / 2)) as [y [Y HY]]; [lra|].
    exists (Rmin x y). split; [apply Rmin_glb_lt; auto|]. intros p [P Q].
    pose proof (Rmin_l x y). pose proof (Rmin_r x y).
    pose proof (HX p ltac:(lra)). pose proof (HY p ltac:(lra)). unfold pf.
    unfold change0 in *. unfold pf0 in *. rewrite !physical_sound in * by auto. lra.
  Qed.

  Lemma pf_large : exists z, 0 < z /\ 0 <= pf z.
  Proof.
    destruct Pl as [A B], Pr as [C D].
    destruct (change_large gamma (mass l) (energy l) G A B (Rabs (mX r - mX l)) (Rabs_pos _)) as [x [X HX]].
    destruct (change_large gamma (mass r) (energy r) G C D 0 (Rle_refl 0)) as [y [Y HY]].
    exists (Rmax x y). pose proof (Rmax_l x y). pose proof (Rmax_r x y). split; [lra|].
    pose proof (HX (Rmax x y) ltac:(lra)). pose proof (HY (Rmax x y) ltac:(lra)).
    unfold pf. pose proof (Rle_abs (- (mX r - mX l))). rewrite Rabs_Ropp in *. lra.
  Qed.

  Theorem star_pressure_found : pf0 < 0 ->
    exists n p, 0 < p /\ - root_eps <= pf p <= 0 /\ forall fuel, (n <= fuel)%nat ->
      FindRoot (pressure_function gamma l r) (pressure_prime gamma l r) root_eps fuel (energy l) =
      if Req_EM_T (pf p) (- root_eps) then None else Some p.
  Proof.
    intros N. destruct (pf_near_0 N) as [d [D HD]]. destruct pf_large as [z [Z HZ]].
    apply (FindRoot_terminates _ _ pf pf' root_eps pf_eq pf'_eq pf_tangent pf'_pos) with (d := d) (z := z); auto.
    - unfold root_eps. apply Rinv_0_lt_compat. apply pow_lt. lra.
    - apply Pl.
  Qed.
End Pair.

Lemma root_eps_pos : 0 < root_eps.
Proof. unfold root_eps. apply Rinv_0_lt_compat. apply pow_lt. lra. Qed.

(** ** The wave in the star region *)

(** equal states: the physical flux *)
Lemma change_b gamma rho b : change gamma rho b b = 0.
Proof. unfold change. destruct (Rge_dec b b); [|lra]. apply shock_b. Qed.

Theorem exact_consistent gamma w s fuel : 1 < gamma -> physical w ->
  Exact_GetFluxUpwind (S fuel) gamma s w w = Some (PrimitiveToFlux gamma w, mX w).
Proof.
  intros G P. destruct P as [A B]. unfold Exact_GetFluxUpwind, GetPrimitiveUpwind, GetPrimitiveUpwind_private.
  destruct (Rgt_dec (mass w) 0); [|lra]. destruct (Rlt_dec (energy w) 0); [lra|].
  rewrite pf0_eq by (try split; auto). cbn [bind].
  assert (physical w) as P by (split; auto).
  assert (pf0 gamma w w < 0) as N.
  { unfold pf0. pose proof (sound_pos gamma w ltac:(lra) P) as Sp.
    assert (0 < 2 / (gamma - 1)) by (apply Rmult_lt_0_compat; [lra|apply Rinv_0_lt_compat; lra]). nra. }
  destruct (Rlt_dec (pf0 gamma w w) 0); [|lra].
  assert (pf gamma w w (energy w) = 0) as Z by (unfold pf; rewrite !change_b; ring).
  assert (FindRoot (pressure_function gamma w w) (pressure_prime gamma w w) root_eps (S fuel) (energy w) = Some (energy w)) as ->.
  { unfold FindRoot, FindRoot_halve, FindRoot_newton. rewrite pf_eq by auto. cbn [bind]. rewrite Z.
    destruct (Rgt_dec 0 0); [lra|]. cbn [bind]. rewrite pf_eq by auto. cbn [bind]. rewrite Z.
    pose proof root_eps_pos. destruct (Rlt_dec 0 (- root_eps)); [lra|]. cbn [bind]. rewrite pf_eq by auto. cbn [bind].
    rewrite Z, Rabs_R0. destruct (Rlt_dec 0 root_eps); [reflexivity|lra]. }
  cbn [bind]. rewrite !SpeedChange_eq by auto. cbn [bind]. rewrite change_b.
  replace (1 / 2 * (mX w + 0 + mX w - 0)) with (mX w) by field.
  destruct (Rge_dec (energy w) (energy w)); [|lra].
  assert (forall k, Shock_u w (mkTuple 0 (mX w) k (energy w)) = mX w + mX w) as U.
  { intros. unfold Shock_u. cbn. rewrite Rminus_eq_0, Rmult_0_l. destruct (Req_EM_T 0 0); [reflexivity|lra]. }
  assert (forall x, mkTuple (mass w) (mX w) (if Rgt_dec x 0 then mT w else mT w) (energy w) = w) as Q.
  { intros. destruct (Rgt_dec x 0); destruct w; reflexivity. }
  destruct (Rlt_dec 0 (mX w)); unfold PrimitiveNearShock; rewrite U; unfold TimeAxisAfterShock.
  - destruct (Rlt_dec (mX w + mX w) 0); [lra|]. cbn [bind]. unfold PassiveScalars_Set. rewrite Q. reflexivity.
  - destruct (Rgt_dec (mX w + mX w) 0); [lra|]. cbn [bind]. unfold PassiveScalars_Set. rewrite Q. reflexivity.
Qed.

(** ** What the answer depends on *)
Theorem exact_no_memory fuel gamma s1 s2 l r :
  mT l = mT r \/ (1 < gamma /\ physical l /\ physical r /\ pf0 gamma l r < 0) ->
  option_map fst (Exact_GetFluxUpwind fuel gamma s1 l r) = option_map fst (Exact_GetFluxUpwind fuel gamma s2 l r).
Proof.
  intros [E|[G [Pl [Pr N]]]].
  - unfold Exact_GetFluxUpwind, GetPrimitiveUpwind.
    assert (forall s u1 u2, PassiveScalars_Set s u1 l r = PassiveScalars_Set s u2 l r) as Q.
    { intros. unfold PassiveScalars_Set. rewrite E. destruct (Rgt_dec u1 0), (Rgt_dec u2 0); reflexivity. }
    assert (option_map fst (GetPrimitiveUpwind_private fuel gamma s1 l r) =
            option_map fst (GetPrimitiveUpwind_private fuel gamma s2 l r)) as P.
    { unfold GetPrimitiveUpwind_private.
      destruct (Rgt_dec (mass l) 0), (Rgt_dec (mass r) 0);
      repeat match goal with
        | |- context [if ?b then _ else _] => destruct b
        | |- context [bind ?e] => destruct e; cbn [bind]
        end; reflexivity. }
    destruct (GetPrimitiveUpwind_private fuel gamma s1 l r) as [[x1 u1]|],
      (GetPrimitiveUpwind_private fuel gamma s2 l r) as [[x2 u2]|]; cbn in *; try discriminate; [|reflexivity].
    injection P as <-. rewrite (Q x1 u1 u2). reflexivity.
  - assert (GetPrimitiveUpwind_private fuel gamma s1 l r = GetPrimitiveUpwind_private fuel gamma s2 l r) as P.
    { unfold GetPrimitiveUpwind_private. destruct Pl as [A B], Pr as [C D].
      destruct (Rgt_dec (mass l) 0); [|lra]. destruct (Rgt_dec (mass r) 0); [|lra].
      destruct (Rlt_dec (energy l) 0); [lra|]. destruct (Rlt_dec (energy r) 0); [lra|].
      rewrite pf0_eq by (try split; auto). cbn [bind]. destruct (Rlt_dec (pf0 gamma l r) 0); [reflexivity|lra]. }
    unfold Exact_GetFluxUpwind, GetPrimitiveUpwind. rewrite P. reflexivity.
Qed.

(** ** The waves satisfy the jump conditions *)

(** for any star state with a different velocity the returned density satisfies the conservation of
    mass and momentum; if the star velocity is the one belonging to its pressure, then energy too *)
Theorem shock_jump gamma k w star : 1 < gamma -> physical w -> energy w < energy star ->
  mX star = mX w + shock_sign k * shock gamma (mass w) (energy w) (energy star) ->
  let s := Shock_u w star in
  exists w1, mX w1 = mX star /\ energy w1 = energy star /\ mass w < mass w1 /\ 0 < shock_sign k * (s - mX w) /\ jump_conditions gamma s w w1 /\
    (PrimitiveNearShock k w star = Some w /\ shock_sign k * s <= 0 \/
     PrimitiveNearShock k w star = Some w1 /\ 0 < shock_sign k * s).
Proof.
  intros G [A B] Lp U s.
  set (b := energy w) in *. set (q := energy star) in *. set (rho := mass w) in *.
  set (P := SpeedChange_P gamma b q). assert (0 < P) as HP by (apply P_pos; auto; lra).
  set (D := sqrt (rho * P)).
  assert (0 < D) as HD by (apply sqrt_lt_R0; apply Rmult_lt_0_compat; auto).
  assert (D * D = rho * P) as HDD by (apply sqrt_sqrt; left; apply Rmult_lt_0_compat; auto).
  unfold shock in U. fold P in U. fold D in U.
  set (sg := shock_sign k) in *. assert (sg * sg = 1) as Sg by (unfold sg; destruct k; cbn; ring).
  assert (sg <> 0) as Sn by (intro Z; rewrite Z in Sg; lra).
  assert (mX star - mX w = sg * ((q - b) / D)) as dU by lra.
  assert (s = mX w + sg * (D / rho)) as Es.
  { unfold s, Shock_u. rewrite dU. fold rho b q.
    assert (sg * ((q - b) / D) * rho <> 0) as Nz.
    { apply Rmult_integral_contrapositive_currified; [|lra].
      apply Rmult_integral_contrapositive_currified; [exact Sn|].
      apply Rmult_integral_contrapositive_currified; [lra|]. apply Rinv_neq_0_compat. lra. }
    destruct (Req_EM_T _ 0); [contradiction|]. f_equal.
    transitivity (/ sg * (D / rho)); [field; repeat split; lra|].
    f_equal. apply Rmult_eq_reg_r with sg; [|exact Sn]. rewrite Sg. field. exact Sn. }
  assert (q - b < P) as HPq by (unfold P, SpeedChange_P; nra).
  set (m1 := rho * ((mX w - s) / (mX star - s))).
  assert (mX star - s = sg * ((q - b) / D - D / rho)) as dS by (rewrite Es; lra).
  assert (mX star - s = - sg * ((P - (q - b)) / D)) as dS'.
  { rewrite dS. replace (D / rho) with (D * D / (D * rho)) by (field; lra). rewrite HDD. field. lra. }
  assert (mX star - s <> 0) as Ns.
  { rewrite dS'. apply Rmult_integral_contrapositive_currified; [lra|].
    apply Rmult_integral_contrapositive_currified; [lra|]. apply Rinv_neq_0_compat. lra. }
  assert (m1 = rho * (P / (P - (q - b)))) as Em.
  { unfold m1. rewrite dS', Es.
    replace (mX w - (mX w + sg * (D / rho))) with (- sg * (D * D / (rho * D))) by (field; lra).
    rewrite HDD. field. repeat split; lra. }
  unfold PrimitiveNearShock. fold s.
  assert (TimeAxisAfterShock k s = true <-> 0 < sg * s) as Ax.
  { unfold sg, TimeAxisAfterShock. destruct k; cbn [shock_sign].
    - destruct (Rlt_dec s 0); split; intros; try lra; try discriminate; reflexivity.
    - destruct (Rgt_dec s 0); split; intros; try lra; try discriminate; reflexivity. }
  exists (mkTuple m1 (mX star) (mT star) (energy star)). cbn [mX energy mass].
  split; [reflexivity|]. split; [reflexivity|]. split; [|split; [|split]].
  - rewrite Em. rewrite <- (Rmult_1_r rho) at 1. apply Rmult_lt_compat_l; [auto|].
      apply Rmult_lt_reg_r with (P - (q - b)); [lra|].
      replace (P / (P - (q - b)) * (P - (q - b))) with P by (field; lra). lra.
  - rewrite Es. replace (sg * (mX w + sg * (D / rho) - mX w)) with (sg * sg * (D / rho)) by ring.
    rewrite Sg. assert (0 < D / rho) by (apply div_pos; auto). lra.
  - assert (m1 * (mX star - s) = rho * (mX w - s)) as J1 by (unfold m1; field; auto).
      assert (rho * (mX w - s) = - sg * D) as J0.
      { rewrite Es. field. lra. }
      assert (rho * (mX w - s) * mX w + b = m1 * (mX star - s) * mX star + q) as J2.
      { rewrite J1, J0. replace (mX star) with (mX w + sg * ((q - b) / D)) by lra.
        replace (- sg * D * (mX w + sg * ((q - b) / D))) with (- sg * D * mX w - sg * sg * (q - b)) by (field; lra).
        rewrite Sg. ring. }
      unfold jump_conditions. cbn [mX energy mass]. fold rho b q. split; [lra|]. split; [exact J2|].
      replace ((q / (gamma - 1) + m1 * (mX star * mX star) / 2) * (mX star - s)) with
        (q * (mX star - s) / (gamma - 1) + m1 * (mX star - s) * (mX star * mX star) / 2) by (field; lra).
      replace ((b / (gamma - 1) + rho * (mX w * mX w) / 2) * (mX w - s)) with
        (b * (mX w - s) / (gamma - 1) + rho * (mX w - s) * (mX w * mX w) / 2) by (field; lra).
      rewrite J1, J0, dS'.
      replace (mX w - s) with (- sg * (P / D)).
      2:{ rewrite Es. replace (D / rho) with (D * D / (rho * D)) by (field; lra). rewrite HDD. field. lra. }
      replace (mX star) with (mX w + sg * ((q - b) / D)) by lra.
      set (v := mX w).
      clear - HD G. unfold P, SpeedChange_P, sg, shock_sign. destruct k; field; lra.
  - destruct (TimeAxisAfterShock k s) eqn:T.
    + right. destruct (Req_EM_T (mX star - s) 0); [contradiction|]. split; [reflexivity|]. apply Ax. reflexivity.
    + left. split; [reflexivity|]. destruct (Rlt_dec 0 (sg * s)) as [X|X]; [apply Ax in X; discriminate|lra].
Qed.

(** ** Expansions *)

Lemma sound_of gamma a rho u t : 0 < gamma -> a <> 0 -> 0 < rho ->
  GetSpeedOfSound gamma (mkTuple rho u t (a * a * rho * (1 / gamma))) = Rabs a.
Proof.
  intros G A P. assert (0 < a * a) by nra.
  rewrite physical_sound.
  - cbn. replace (gamma * (a * a * rho * (1 / gamma)) / rho) with (Rsqr a) by (unfold Rsqr; field; lra).
    apply sqrt_Rsqr_abs.
  - split; cbn; [auto|]. apply Rmult_lt_0_compat; [apply Rmult_lt_0_compat; auto|apply div_pos; lra].
Qed.

Lemma inside_expansion gamma w g2 : 1 < gamma -> physical w -> g2 <> 0 ->
  let w1 := PrimitiveInsideExpansion gamma (energy w / powR (mass w) gamma) g2 in
  let a := (gamma - 1) / (gamma + 1) * g2 in
  physical w1 /\ mX w1 = a /\ GetSpeedOfSound gamma w1 = Rabs a /\ same_entropy gamma w w1.
Proof.
  intros G [A B] N. cbv zeta. rewrite powR_pos by auto. set (a := (gamma - 1) / (gamma + 1) * g2).
  assert (0 < Rpower (mass w) gamma) as Hw by apply exp_pos.
  set (pw := Rpower (mass w) gamma) in *.
  assert (0 < (gamma - 1) / (gamma + 1)) as Hr by (apply div_pos; lra).
  assert (a <> 0) as Na by (unfold a; apply Rmult_integral_contrapositive_currified; lra).
  assert (0 < a * a) as Aa by nra.
  assert (0 < a * a / (energy w / pw) * (1 / gamma)) as Q.
  { apply Rmult_lt_0_compat; [apply div_pos; [auto|apply div_pos; auto]|apply div_pos; lra]. }
  unfold PrimitiveInsideExpansion. fold a. rewrite powR_pos by exact Q.
  set (base := a * a / (energy w / pw) * (1 / gamma)) in *.
  set (rho := Rpower base (1 / (gamma - 1))) in *.
  assert (0 < rho) as Hrho by apply exp_pos.
  split.
  { split; cbn; [auto|]. apply Rmult_lt_0_compat; [apply Rmult_lt_0_compat; auto|apply div_pos; lra]. }
  split; [reflexivity|]. split; [apply sound_of; auto; lra|].
  unfold same_entropy. cbn [mass energy]. fold pw.
  assert (Rpower rho gamma = rho * base) as E.
  { unfold rho. rewrite Rpower_mult.
    replace (1 / (gamma - 1) * gamma) with (1 / (gamma - 1) + 1) by (field; lra).
    rewrite Rpower_plus, Rpower_1 by auto. reflexivity. }
  rewrite E. unfold base. field. repeat split; try lra.
Qed.

Theorem expansion_invariants gamma k w star : 1 < gamma -> physical w -> 0 < energy star < energy w ->
  mX star = mX w + shock_sign k * expansion gamma (mass w) (energy w) (energy star) ->
  exists w1, PrimitiveNearExpansion gamma k w star = Some w1 /\ physical w1 /\
    same_entropy gamma w w1 /\ same_invariant gamma k w w1 /\
    (w1 = w /\ shock_sign k * characteristic gamma k w < 0 \/
     mX w1 = mX star /\ energy w1 = energy star /\ 0 < shock_sign k * characteristic gamma k w1 \/
     characteristic gamma k w1 = 0).
Proof.
  intros G P Hs U. pose proof P as [A B].
  pose proof (sound_pos gamma w ltac:(lra) P) as Sp. pose proof (sound_sq gamma w ltac:(lra) P) as Sq.
  pose proof (physical_sound gamma w P) as Se.
  set (sg := shock_sign k) in *. assert (sg * sg = 1) as Sg by (unfold sg; destruct k; cbn; ring).
  unfold expansion in U. rewrite <- Se in U. rewrite powR_pos in U by (apply div_pos; lra).
  set (a := GetSpeedOfSound gamma w) in *.
  set (e := (gamma - 1) / 2 / gamma) in *.
  set (x := energy star / energy w) in *.
  assert (0 < x) as Hx by (apply div_pos; lra).
  set (m := Rpower x e) in *. assert (0 < m) as Hm by apply exp_pos.
  set (K := 2 / (gamma - 1)) in *. assert (0 < K) as HK by (apply div_pos; lra).
  assert ((gamma - 1) / 2 * K = 1) as HK1 by (unfold K; field; lra).
  assert (AddOrMinus k a ((gamma - 1) / 2 * (mX w - mX star)) = a * m) as Ea.
  { rewrite U. unfold sg, AddOrMinus, shock_sign. destruct k.
    - replace ((gamma - 1) / 2 * (mX w - (mX w + -1 * ((m - 1) * (K * a))))) with ((gamma - 1) / 2 * K * ((m - 1) * a)) by ring.
      rewrite HK1. ring.
    - replace ((gamma - 1) / 2 * (mX w - (mX w + 1 * ((m - 1) * (K * a))))) with (- ((gamma - 1) / 2 * K * ((m - 1) * a))) by ring.
      rewrite HK1. ring. }
  assert (AddOrMinus k (mX w) (K * a) = mX w - sg * (K * a)) as Eg.
  { unfold sg, AddOrMinus, shock_sign. destruct k; ring. }
  assert (mX star - sg * (K * (a * m)) = mX w - sg * (K * a)) as Inv by (rewrite U; ring).
  assert (0 < a * m) as Ham by (apply Rmult_lt_0_compat; auto).
  unfold PrimitiveNearExpansion. fold a K. rewrite Ea, Eg.
  set (after := match k with Wave1 => if Rlt_dec (mX star - a * m) 0 then true else false
    | Wave3 => if Rgt_dec (mX star + a * m) 0 then true else false end).
  set (before := match k with Wave1 => if Rgt_dec (mX w - a) 0 then true else false
    | Wave3 => if Rlt_dec (mX w + a) 0 then true else false end).
  assert (after = true <-> 0 < sg * (mX star + sg * (a * m))) as Hafter.
  { unfold after, sg, shock_sign. destruct k.
    - destruct (Rlt_dec (mX star - a * m) 0); split; intros; try lra; try discriminate; reflexivity.
    - destruct (Rgt_dec (mX star + a * m) 0); split; intros; try lra; try discriminate; reflexivity. }
  assert (before = true <-> sg * (mX w + sg * a) < 0) as Hbefore.
  { unfold before, sg, shock_sign. destruct k.
    - destruct (Rgt_dec (mX w - a) 0); split; intros; try lra; try discriminate; reflexivity.
    - destruct (Rlt_dec (mX w + a) 0); split; intros; try lra; try discriminate; reflexivity. }
  destruct after eqn:Ta.
  - destruct (Req_EM_T (a * m * (a * m)) 0) as [Z|Z]; [nra|].
    set (rho := gamma * energy star / (a * m * (a * m))).
    assert (0 < rho) as Hrho by (apply div_pos; [nra|apply Rmult_lt_0_compat; auto]).
    assert (energy star = a * m * (a * m) * rho * (1 / gamma)) as Ep by (unfold rho; field; lra).
    assert (GetSpeedOfSound gamma (mkTuple rho (mX star) (mT star) (energy star)) = a * m) as Es.
    { rewrite Ep. rewrite sound_of by lra. apply Rabs_right. lra. }
    eexists. split; [reflexivity|]. split; [split; cbn; [auto|lra]|]. split; [|split].
    + unfold same_entropy. cbn [mass energy].
      assert (rho = mass w * Rpower x (/ gamma)) as Er.
      { assert (m * m * Rpower x (/ gamma) = x) as Mx.
        { unfold m. rewrite <- !Rpower_plus. replace (e + e + / gamma) with 1 by (unfold e; field; lra).
          apply Rpower_1; auto. }
        unfold rho. replace (a * m * (a * m)) with (a * a * (m * m)) by ring. rewrite Sq.
        assert (Rpower x (/ gamma) = x / (m * m)) as -> by (rewrite <- Mx at 2; field; lra).
        unfold x. field. repeat split; lra. }
      rewrite Er. rewrite <- Rpower_mult_distr by (auto; apply exp_pos).
      rewrite Rpower_mult. replace (/ gamma * gamma) with 1 by (field; lra). rewrite Rpower_1 by auto.
      unfold x. field. lra.
    + unfold same_invariant. rewrite Es. cbn [mX]. fold K a sg. lra.
    + right. left. cbn [mX energy]. split; [reflexivity|]. split; [reflexivity|].
      unfold characteristic. rewrite Es. cbn [mX]. apply Hafter. reflexivity.
  - destruct before eqn:Tb.
    + exists w. split; [reflexivity|]. split; [exact P|]. split; [unfold same_entropy; ring|].
      split; [unfold same_invariant; ring|]. left. split; [reflexivity|].
      unfold characteristic. fold a sg. apply Hbefore. reflexivity.
    + set (g2 := mX w - sg * (K * a)) in *.
      assert (sg * (mX star + sg * (a * m)) <= 0) as L.
      { destruct (Rlt_dec 0 (sg * (mX star + sg * (a * m)))) as [X|X]; [apply Hafter in X; discriminate|lra]. }
      assert (sg * g2 < 0) as Ng.
      { rewrite <- Inv. 
        replace (sg * (mX star - sg * (K * (a * m)))) with
          (sg * (mX star + sg * (a * m)) - sg * sg * ((K + 1) * (a * m))) by ring.
        rewrite Sg. assert (0 < (K + 1) * (a * m)) by (apply Rmult_lt_0_compat; lra). lra. }
      assert (g2 <> 0) as N0 by (intro Z; rewrite Z in Ng; lra).
      destruct (inside_expansion gamma w g2 G P N0) as [Pi [Ui [Si Ei]]].
      set (w1 := PrimitiveInsideExpansion _ _ _) in *.
      set (r := (gamma - 1) / (gamma + 1)) in *. assert (0 < r) as Hr by (apply div_pos; lra).
      assert (Rabs (r * g2) = - sg * (r * g2)) as Ab.
      { unfold sg, shock_sign in *. destruct k.
        - assert (0 < g2) by lra. rewrite Rabs_right; [ring|]. apply Rle_ge. apply Rmult_le_pos; lra.
        - assert (g2 < 0) by lra. rewrite Rabs_left; [ring|]. nra. }
      exists w1. split; [reflexivity|]. split; [exact Pi|]. split; [exact Ei|]. split.
      * unfold same_invariant. rewrite Si, Ui, Ab. fold a K sg g2.
        replace (r * g2 - sg * (K * (- sg * (r * g2)))) with (g2 * (r * (1 + sg * sg * K))) by ring.
        rewrite Sg. replace (r * (1 + 1 * K)) with 1 by (unfold r, K; field; lra). ring.
      * right. right. unfold characteristic. rewrite Si, Ui, Ab. fold sg.
        replace (r * g2 + sg * (- sg * (r * g2))) with (r * g2 * (1 - sg * sg)) by ring. rewrite Sg. ring.
Qed.

(** ** The whole solver, when the iteration has found the root *)

Lemma seen gamma k w p u : 1 < gamma -> physical w -> 0 < p ->
  u = mX w + shock_sign k * change gamma (mass w) (energy w) p -> shock_sign k * u <= 0 ->
  exists w2, (if Rge_dec p (energy w) then PrimitiveNearShock k w (mkTuple 0 u [] p)
              else PrimitiveNearExpansion gamma k w (mkTuple 0 u [] p)) = Some w2 /\
  seen_through gamma k w p u w2.
Proof.
  intros G P Hp U Hu. unfold change in U. destruct (Rge_dec p (energy w)) as [Ge|Ge].
  - destruct (Req_dec p (energy w)) as [E|N].
    + subst p. rewrite shock_b in U. assert (u = mX w) as Eu by lra.
      exists w. split; [|apply seen_no_wave; auto]. unfold PrimitiveNearShock.
      assert (Shock_u w (mkTuple 0 u [] (energy w)) = mX w + mX w) as ->.
      { unfold Shock_u. cbn. rewrite Eu, Rminus_eq_0, Rmult_0_l. destruct (Req_EM_T 0 0); [reflexivity|lra]. }
      unfold TimeAxisAfterShock, shock_sign in *. destruct k.
      * destruct (Rlt_dec (mX w + mX w) 0); [lra|reflexivity].
      * destruct (Rgt_dec (mX w + mX w) 0); [lra|reflexivity].
    + destruct (shock_jump gamma k w (mkTuple 0 u [] p) G P) as [w1 [E1 [E2 [E3 [E3' [E4 E5]]]]]]; cbn; [lra|exact U|].
      cbn in E1, E2. destruct E5 as [[E5 E6]|[E5 E6]].
      * exists w. split; [exact E5|]. eapply seen_shock with (w1 := w1); eauto. lra.
      * exists w1. split; [exact E5|]. eapply seen_shock with (w1 := w1); eauto. lra.
  - destruct (expansion_invariants gamma k w (mkTuple 0 u [] p) G P) as [w2 [E1 [E2 [E3 [E4 E5]]]]]; cbn; [lra|exact U|].
    exists w2. split; [exact E1|]. apply seen_expansion; auto. lra.
Qed.

Theorem exact_solver_waves gamma l r s fuel p : 1 < gamma -> physical l -> physical r -> pf0 gamma l r < 0 ->
  0 < p -> pf gamma l r p = 0 ->
  FindRoot (pressure_function gamma l r) (pressure_prime gamma l r) root_eps fuel (energy l) = Some p ->
  let u := mX l - change gamma (mass l) (energy l) p in
  u = mX r + change gamma (mass r) (energy r) p /\
  exists w, GetPrimitiveUpwind_private fuel gamma s l r = Some (w, u) /\
  (0 < u -> seen_through gamma Wave1 l p u w) /\ (u <= 0 -> seen_through gamma Wave3 r p u w).
Proof.
  intros G Pl Pr N Hp Z F u. unfold pf in Z. split; [unfold u; lra|].
  assert (u = mX r + change gamma (mass r) (energy r) p) as Ur by (unfold u; lra).
  unfold GetPrimitiveUpwind_private. pose proof Pl as [A B]. pose proof Pr as [C D].
  destruct (Rgt_dec (mass l) 0); [|lra]. destruct (Rgt_dec (mass r) 0); [|lra].
  destruct (Rlt_dec (energy l) 0); [lra|]. destruct (Rlt_dec (energy r) 0); [lra|].
  rewrite pf0_eq by auto. cbn [bind]. destruct (Rlt_dec (pf0 gamma l r) 0); [|lra].
  rewrite F. cbn [bind]. rewrite !SpeedChange_eq by auto. cbn [bind].
  replace (1 / 2 * (mX r + change gamma (mass r) (energy r) p + mX l - change gamma (mass l) (energy l) p))
    with u by (unfold u in *; lra).
  destruct (Rlt_dec 0 u) as [L|L].
  - destruct (seen gamma Wave1 l p u G Pl Hp) as [w [E S]]; [cbn; unfold u; ring|cbn; lra|].
    exists w. rewrite E. cbn [bind]. split; [reflexivity|]. split; [auto|lra].
  - destruct (seen gamma Wave3 r p u G Pr Hp) as [w [E S]]; [cbn; lra|cbn; lra|].
    exists w. rewrite E. cbn [bind]. split; [reflexivity|]. split; [lra|auto].
Qed.

(** ** Vacuum between the two sides *)
Theorem vacuum_states gamma l r s fuel : 1 < gamma -> physical l -> physical r -> 0 <= pf0 gamma l r ->
  exists w, GetPrimitiveUpwind_private fuel gamma s l r = Some (w, s) /\
  (w = l /\ 0 < characteristic gamma Wave1 l \/
   w = r /\ characteristic gamma Wave3 r < 0 \/
   physical w /\ same_entropy gamma l w /\ same_invariant gamma Wave1 l w /\ characteristic gamma Wave1 w = 0 \/
   physical w /\ same_entropy gamma r w /\ same_invariant gamma Wave3 r w /\ characteristic gamma Wave3 w = 0 \/
   w = zero_tuple /\ mX l + 2 / (gamma - 1) * GetSpeedOfSound gamma l <= 0 /\
                     0 <= mX r - 2 / (gamma - 1) * GetSpeedOfSound gamma r).
Proof.
  intros G Pl Pr N. unfold GetPrimitiveUpwind_private. pose proof Pl as [A B]. pose proof Pr as [C D].
  destruct (Rgt_dec (mass l) 0); [|lra]. destruct (Rgt_dec (mass r) 0); [|lra].
  destruct (Rlt_dec (energy l) 0); [lra|]. destruct (Rlt_dec (energy r) 0); [lra|].
  rewrite pf0_eq by auto. cbn [bind]. destruct (Rlt_dec (pf0 gamma l r) 0); [lra|].
  eexists. split; [reflexivity|]. unfold PrimitiveNearVacuum.
  set (K := 2 / (gamma - 1)). assert (0 < K) as HK by (apply div_pos; lra).
  unfold pf0 in N. fold K in N.
  set (al := GetSpeedOfSound gamma l) in *. set (ar := GetSpeedOfSound gamma r) in *.
  pose proof (sound_pos gamma l ltac:(lra) Pl) as Hal. pose proof (sound_pos gamma r ltac:(lra) Pr) as Har.
  fold al in Hal. fold ar in Har.
  set (rr := (gamma - 1) / (gamma + 1)). assert (0 < rr) as Hr by (apply div_pos; lra).
  assert (rr * (1 + K) = 1) as HrK by (unfold rr, K; field; lra).
  unfold characteristic, shock_sign. fold al ar.
  destruct (Rgt_dec (mX l) al); [left; split; [reflexivity|lra]|].
  destruct (Rlt_dec (mX r + ar) 0); [right; left; split; [reflexivity|lra]|].
  destruct (Rge_dec (mX l + al * K) 0) as [Ge|Ge].
  - destruct (Req_dec (mX l + al * K) 0) as [Z|Z].
    + right. right. right. right. rewrite Z. split; [|lra].
      unfold PrimitiveInsideExpansion, zero_tuple, powR. rewrite !Rmult_0_r.
      destruct (Req_EM_T _ 0) as [|Q]; [|exfalso; apply Q; unfold Rdiv; ring]. f_equal. ring.
    + right. right. left. destruct (inside_expansion gamma l (mX l + al * K) G Pl Z) as [I1 [I2 [I3 I4]]].
      fold rr in I2, I3. set (g := mX l + al * K) in *.
      assert (Rabs (rr * g) = rr * g) as Ab by (apply Rabs_right; apply Rle_ge; apply Rmult_le_pos; lra).
      split; [exact I1|]. split; [exact I4|]. unfold same_invariant, shock_sign. rewrite I3, I2, Ab. fold al K. split; [|ring].
      replace (rr * g - -1 * (K * (rr * g))) with (g * (rr * (1 + K))) by ring. rewrite HrK. unfold g. ring.
  - destruct (Rlt_dec (mX r - ar * K) 0) as [L|L].
    + right. right. right. left.
      destruct (inside_expansion gamma r (mX r - ar * K) G Pr ltac:(lra)) as [I1 [I2 [I3 I4]]].
      fold rr in I2, I3. set (g := mX r - ar * K) in *.
      assert (Rabs (rr * g) = - (rr * g)) as Ab by (apply Rabs_left; nra).
      split; [exact I1|]. split; [exact I4|]. unfold same_invariant, shock_sign. rewrite I3, I2, Ab. fold ar K. split; [|ring].
      replace (rr * g - 1 * (K * - (rr * g))) with (g * (rr * (1 + K))) by ring. rewrite HrK. unfold g. ring.
    + right. right. right. right. split; [reflexivity|]. lra.
Qed.

(** ** The star region is joined to both sides *)
Lemma joined_both gamma k w p u : 1 < gamma -> physical w -> 0 < p ->
  u = mX w + shock_sign k * change gamma (mass w) (energy w) p -> joined gamma k w p u.
Proof.
  intros G P Hp U. pose proof P as [A B]. unfold change in U. destruct (Rge_dec p (energy w)) as [Ge|Ge].
  - destruct (Req_dec p (energy w)) as [E|N].
    + subst p. rewrite shock_b in U. apply joined_no_wave; lra.
    + destruct (shock_jump gamma k w (mkTuple 0 u [] p) G P) as [w1 [E1 [E2 [E3 [E3' [E4 _]]]]]]; cbn; [lra|exact U|].
      apply joined_shock with (Shock_u w (mkTuple 0 u [] p)) w1; auto; cbn in *; lra.
  - pose proof (sound_pos gamma w ltac:(lra) P) as Sp. pose proof (sound_sq gamma w ltac:(lra) P) as Sq.
    unfold expansion in U. rewrite <- (physical_sound gamma w P) in U. rewrite powR_pos in U by (apply div_pos; lra).
    set (a := GetSpeedOfSound gamma w) in *. set (e := (gamma - 1) / 2 / gamma) in *.
    set (x := p / energy w) in *. assert (0 < x) as Hx by (apply div_pos; lra).
    set (m := Rpower x e) in *. assert (0 < m) as Hm by apply exp_pos.
    assert (0 < a * m) as Ham by (apply Rmult_lt_0_compat; auto).
    set (rho := gamma * p / (a * m * (a * m))).
    assert (0 < rho) as Hrho by (apply div_pos; [nra|apply Rmult_lt_0_compat; auto]).
    assert (p = a * m * (a * m) * rho * (1 / gamma)) as Ep by (unfold rho; field; lra).
    assert (GetSpeedOfSound gamma (mkTuple rho u [] p) = a * m) as Es.
    { rewrite Ep. rewrite sound_of by lra. apply Rabs_right. lra. }
    apply joined_expansion with (mkTuple rho u [] p); auto; [lra|split; auto|..].
    + unfold same_entropy. cbn [mass energy].
      assert (rho = mass w * Rpower x (/ gamma)) as Er.
      { assert (m * m * Rpower x (/ gamma) = x) as Mx.
        { unfold m. rewrite <- !Rpower_plus. replace (e + e + / gamma) with 1 by (unfold e; field; lra).
          apply Rpower_1; auto. }
        unfold rho. replace (a * m * (a * m)) with (a * a * (m * m)) by ring. rewrite Sq.
        assert (Rpower x (/ gamma) = x / (m * m)) as -> by (rewrite <- Mx at 2; field; lra).
        unfold x. field. repeat split; lra. }
      rewrite Er. rewrite <- Rpower_mult_distr by (auto; apply exp_pos).
      rewrite Rpower_mult. replace (/ gamma * gamma) with 1 by (field; lra). rewrite Rpower_1 by auto.
      unfold x. field. lra.
    + unfold same_invariant. rewrite Es. cbn [mX]. fold a. rewrite U. unfold Rdiv. ring.
Qed.
