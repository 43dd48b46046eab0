(** The derivative used by the exact Riemann solvers is the derivative. *)
From Coq Require Import Reals List Lra Lia Psatz.
From Coquelicot Require Import Coquelicot.
From Verif Require Import Arrays Model_Euler Spec_Euler Model_Exact Spec_Exact Proof_Euler Proof_Exact.
From Verif Require Import Model_PyEuler Proof_PyEuler Model_PyExact Proof_PyExact.
Import ListNotations.
Open Scope R_scope.

Section Derivative.
  Variables (gamma rho b : R).
  Hypothesis (G : 1 < gamma) (Hrho : 0 < rho) (Hb : 0 < b).

  Lemma shock_derivative x : 0 < x -> derivable_pt_lim (shock gamma rho b) x (shock' gamma rho b x).
  Proof.
    intros H. pose proof (P_pos gamma b G Hb x ltac:(lra)) as P.
    apply is_derive_Reals. unfold shock, shock', SpeedChange_P in *.
    set (c := (gamma + 1) / 2) in *. set (d := b * ((gamma - 1) / 2)) in *.
    assert (0 < rho * (c * x + d)) as Q by nra.
    auto_derive; [split; [lra|split; [apply Rgt_not_eq, sqrt_lt_R0; lra|auto]]|].
    pose proof (sqrt_lt_R0 _ Q) as S. pose proof (sqrt_sqrt _ (Rlt_le _ _ Q)) as SS.
    set (q := sqrt (rho * (c * x + d))) in *.
    replace (c * x + d) with (q * q / rho) by (rewrite SS; field; lra).
    replace ((gamma + 1) / 4) with (c / 2) by (unfold c; field). field. lra.
  Qed.

  Lemma expansion_derivative x : 0 < x -> derivable_pt_lim (expansion gamma rho b) x (expansion' gamma rho b x).
  Proof.
    intros H. apply is_derive_Reals. rewrite (expansion'_eq gamma rho b G Hrho Hb) by auto.
    set (k := 2 / (gamma - 1) * sqrt (gamma * b / rho)). set (e := (gamma - 1) / 2 / gamma).
    apply is_derive_ext_loc with (fun x => (exp (e * ln (x / b)) - 1) * k).
    - exists (mkposreal x H). intros y Hy. change (Rabs (y - x) < x) in Hy. apply Rabs_def2 in Hy.
      unfold expansion. fold e k. rewrite powR_pos by (apply Rdiv_lt_0_compat; lra). reflexivity.
    - auto_derive; [apply Rdiv_lt_0_compat; lra|]. unfold Rpower. unfold Rdiv. field. lra.
  Qed.

  Lemma change_derivative x : 0 < x -> derivable_pt_lim (change gamma rho b) x (change' gamma rho b x).
  Proof.
    intros H eps E.
    destruct (shock_derivative x H eps E) as [d1 D1]. destruct (expansion_derivative x H eps E) as [d2 D2].
    pose proof (cond_pos d1). pose proof (cond_pos d2).
    destruct (Rlt_dec x b) as [L|L]; [|destruct (Req_dec x b) as [->|N]].
    - assert (Q : 0 < Rmin d2 (b - x)) by (apply Rmin_pos; lra). exists (mkposreal _ Q). intros h Nh Hh.
      cbn in Hh. pose proof (Rmin_l d2 (b - x)). pose proof (Rmin_r d2 (b - x)). pose proof (Rle_abs h).
      unfold change, change'. destruct (Rge_dec (x + h) b); [lra|]. destruct (Rge_dec x b); [lra|]. apply D2; lra.
    - assert (Q : 0 < Rmin d1 d2) by (apply Rmin_pos; lra). exists (mkposreal _ Q). intros h Nh Hh.
      cbn in Hh. pose proof (Rmin_l d1 d2). pose proof (Rmin_r d1 d2).
      unfold change, change'. destruct (Rge_dec b b); [|lra]. destruct (Rge_dec (b + h) b).
      + apply D1; lra.
      + rewrite shock_b, (slopes_b gamma rho b G Hrho Hb). pose proof (expansion_b gamma rho b Hb) as Z. rewrite Z in D2. apply D2; lra.
    - assert (Q : 0 < Rmin d1 (x - b)) by (apply Rmin_pos; lra). exists (mkposreal _ Q). intros h Nh Hh.
      cbn in Hh. pose proof (Rmin_l d1 (x - b)). pose proof (Rmin_r d1 (x - b)).
      pose proof (Rle_abs (- h)) as A. rewrite Rabs_Ropp in A.
      unfold change, change'. destruct (Rge_dec (x + h) b); [|lra]. destruct (Rge_dec x b); [|lra]. apply D1; lra.
  Qed.
End Derivative.

Lemma f_prime_eq gamma p p1 rho : 1 < gamma -> 0 < p -> 0 < p1 -> 0 < rho ->
  py_f_prime gamma p p1 rho = Some (change' gamma rho p1 p).
Proof.
  intros G P P1 H. unfold py_f_prime. destruct (Req_EM_T p1 0); [lra|].
  assert (Qp : 0 < rho * p1 * gamma) by (repeat apply Rmult_lt_0_compat; lra).
  destruct (Rgt_dec p p1) as [X|X].
  - unfold change'. destruct (Rge_dec p p1); [|lra]. rewrite P_eq.
    pose proof (P_pos gamma p1 G P1 p ltac:(lra)) as Q. assert (0 < rho * SpeedChange_P gamma p1 p) by nra.
    rewrite div_ok by lra. cbn [bind]. rewrite root_ok by lra. cbn [bind].
    rewrite div_ok by (apply Rgt_not_eq, sqrt_lt_R0; auto). unfold shock'. f_equal. f_equal. field. lra.
  - rewrite root_ok by lra. cbn [bind]. rewrite div_ok by (apply Rgt_not_eq, sqrt_lt_R0; auto). cbn [bind].
    destruct (Rlt_dec p p1) as [Y|Y].
    + rewrite div_ok by lra. cbn [bind]. unfold change'. destruct (Rge_dec p p1); [lra|]. unfold expansion'.
      rewrite !powR_pos by (apply Rdiv_lt_0_compat; lra). f_equal.
      replace (rho * sqrt (gamma * p1 / rho)) with (sqrt (rho * p1 * gamma)).
      2:{ rewrite <- (sqrt_square rho) at 2 by lra. rewrite <- sqrt_mult; [f_equal; field; lra|nra|].
          left. apply Rdiv_lt_0_compat; nra. }
      replace (Rpower (p1 / p) ((gamma + 1) / gamma / 2)) with (Rpower (p / p1) (- ((gamma + 1) / 2) / gamma)).
      * unfold Rdiv. ring.
      * unfold Rpower. f_equal. replace (p1 / p) with (/ (p / p1)) by (field; lra).
        rewrite ln_Rinv by (apply Rdiv_lt_0_compat; lra). field. lra.
    + replace p with p1 by lra. unfold change'. destruct (Rge_dec p1 p1); [|lra]. unfold shock'. f_equal.
      replace (rho * SpeedChange_P gamma p1 p1) with (rho * p1 * gamma) by (unfold SpeedChange_P; field).
      replace (p1 - p1) with 0 by ring. unfold Rdiv. ring.
Qed.

Lemma func_prime_eq gamma l r p : 1 < gamma -> physical (tup l) -> physical (tup r) -> 0 < p ->
  py_func_prime gamma l r p = Some (pf' gamma (tup l) (tup r) p).
Proof.
  intros G [A B] [C D] P. cbn in A, B, C, D. unfold py_func_prime. rewrite !f_prime_eq by auto. reflexivity.
Qed.

Lemma pf_derivative gamma l r p : 1 < gamma -> physical l -> physical r -> 0 < p ->
  derivable_pt_lim (pf gamma l r) p (pf' gamma l r p).
Proof.
  intros G [A B] [C D] P. apply is_derive_Reals. unfold pf, pf'.
  replace (change' gamma (mass l) (energy l) p + change' gamma (mass r) (energy r) p) with
    (plus (plus (change' gamma (mass l) (energy l) p) (change' gamma (mass r) (energy r) p)) zero)
    by (unfold plus, zero; cbn; ring).
  apply (is_derive_plus (fun p => change gamma (mass l) (energy l) p + change gamma (mass r) (energy r) p) (fun _ => mX r - mX l)).
  - apply (is_derive_plus (change gamma (mass l) (energy l)) (change gamma (mass r) (energy r)));
      apply is_derive_Reals; apply change_derivative; auto.
  - exact (@is_derive_const R_AbsRing R_NormedModule (mX r - mX l) p).
Qed.
