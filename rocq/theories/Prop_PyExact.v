(** Properties C126 and C127: the exact Riemann solver of the Python package. *)
From Coq Require Import Reals List Lra Lia Psatz.
From Verif Require Import Arrays Model_Euler Spec_Euler Model_Exact Spec_Exact Proof_Euler Proof_Exact.
From Verif Require Import Model_PyEuler Spec_PyEuler Proof_PyEuler Model_PyExact Spec_PyExact Proof_PyExact Proof_PyPrime.
Import ListNotations.
Open Scope R_scope.

(** ** C126 *)

(** The function handed to the root finder increases and lies below its tangents, its companion is its
    derivative; without vacuum it has exactly one root, and the search for a first guess ends at a point
    that is not beyond the root. *)
Theorem py_exact_iteration : forall (gamma : R) (l r : Prim), 1 < gamma ->
  0 < p_rho l -> 0 < p_p l -> 0 < p_rho r -> 0 < p_p r ->
  exists f f' : R -> R,
    (forall p, 0 < p -> py_func gamma l r p = Some (f p) /\ py_func_prime gamma l r p = Some (f' p) /\
       derivable_pt_lim f p (f' p) /\ 0 < f' p) /\ below_tangents f f' /\
    (~ vacuum_between gamma (mkTuple (p_rho l) (p_u l) [] (p_p l)) (mkTuple (p_rho r) (p_u r) [] (p_p r)) ->
     exists root guess n, 0 < guess <= root /\ guess <= p_p l /\ f root = 0 /\ (forall p, 0 < p -> f p = 0 -> p = root) /\
       forall fuel, (n <= fuel)%nat -> py_guess (py_func gamma l r) fuel (p_p l) = Some guess).
Proof.
  intros gamma l r G A B C D.
  assert (Pl : physical (tup l)) by (split; auto). assert (Pr : physical (tup r)) by (split; auto).
  exists (pf gamma (tup l) (tup r)), (pf' gamma (tup l) (tup r)).
  assert (T : below_tangents (pf gamma (tup l) (tup r)) (pf' gamma (tup l) (tup r))) by (apply pf_tangent; auto).
  assert (Pos : forall p, 0 < p -> 0 < pf' gamma (tup l) (tup r) p) by (intros; apply pf'_pos; auto).
  split; [|split; [exact T|]].
  - intros p P. split; [apply func_eq; auto|]. split; [apply func_prime_eq; auto|]. split; [apply pf_derivative; auto|auto].
  - intros V. fold (tup l) (tup r) in V.
    destruct (guess_found gamma l r G Pl Pr) as (n & g & Hg & Fg & E).
    { unfold pf0, vacuum_between in *. lra. }
    destruct (pf_large gamma (tup l) (tup r) G Pl Pr) as (z & Hz & Fz).
    pose proof (tangents_increasing _ _ T Pos) as Inc.
    assert (Q : exists root, g <= root /\ pf gamma (tup l) (tup r) root = 0).
    { destruct (Req_dec (pf gamma (tup l) (tup r) g) 0) as [Z|Z]; [exists g; lra|].
      destruct (Req_dec (pf gamma (tup l) (tup r) z) 0) as [Z'|Z'].
      - exists z. split; [|auto]. destruct (Rle_lt_dec g z) as [X|X]; [lra|]. pose proof (Inc z g Hz X). lra.
      - assert (X : g < z).
        { destruct (Rlt_le_dec g z) as [X|X]; [auto|]. destruct (Req_dec z g) as [->|N]; [lra|].
          pose proof (Inc z g Hz ltac:(lra)). lra. }
        destruct (Ranalysis5.IVT_interv (pf gamma (tup l) (tup r)) g z) as (root & Hr & Er); try lra.
        + intros a Ha. apply derivable_continuous_pt. exists (pf' gamma (tup l) (tup r) a).
          apply pf_derivative; auto. lra.
        + exists root. lra. }
    destruct Q as (root & Hr & Er). exists root, g, n. split; [lra|]. split; [lra|]. split; [exact Er|]. split; [|exact E].
    intros p Hp Ep. destruct (Rtotal_order p root) as [X|[X|X]]; [|exact X|].
    + pose proof (Inc p root Hp X). lra.
    + pose proof (Inc root p ltac:(lra) X). lra.
Qed.
Print Assumptions py_exact_iteration.

(** When the root finder has found the root, and the pressure differs from that of each side not at all
    or by more than the tolerances in the code, the states of both sides are joined by waves with the
    region between them, and the value on every ray is the one seen through the waves.  At time zero the
    data are given back. *)
Theorem py_exact_solution : forall (fsolve : Fsolve) (fuel : nat) (gamma : R) (L R_ : Arr) (p : R), 1 < gamma ->
  physical1 gamma L -> physical1 gamma R_ ->
  ~ vacuum_between gamma (state gamma L) (state gamma R_) ->
  let l := mkPrim (a0 L) (speed1 L) (pressure1 gamma L) in
  let r := mkPrim (a0 R_) (speed1 R_) (pressure1 gamma R_) in
  py_star_pressure fsolve fuel gamma l r = Some p -> 0 < p -> py_func gamma l r p = Some 0 ->
  resolved (/ 10 ^ 10) p (pressure1 gamma L) -> resolved (/ 10 ^ 8) p (pressure1 gamma R_) ->
  exists u, joined gamma Wave1 (state gamma L) p u /\ joined gamma Wave3 (state gamma R_) p u /\
    (forall x t, 0 < t -> exists w,
      py_get_value fsolve fuel gamma L R_ x t = Some (Num (conserved gamma (mass w) (mX w) (energy w))) /\
      on_ray gamma (state gamma L) (state gamma R_) p u (x / t) w) /\
    (forall x, py_get_value fsolve fuel gamma L R_ x 0 = Some (Num (if Rle_dec x 0 then L else R_))).
Proof.
  intros fsolve fuel gamma L R_ p G PL PR V l r E Hp Z Rl Rr.
  destruct (solution fsolve fuel gamma L R_ G PL PR p V E Hp Z Rl Rr) as (W & u & S & J1 & J3 & H).
  exists u. split; [exact J1|]. split; [exact J3|]. split.
  - intros x t T. destruct (H (x / t)) as (w & Hw & O). exists w. split; [|exact O].
    unfold py_get_value. rewrite S. cbn [bind]. destruct (Req_EM_T t 0); [lra|]. exact Hw.
  - intros x. unfold py_get_value. rewrite S. cbn [bind]. destruct (Req_EM_T 0 0); [|lra].
    destruct (Rle_dec x 0); reflexivity.
Qed.
Print Assumptions py_exact_solution.

(** A shock runs from a gas at pressure 4 into one at pressure 1; no root finder is called. *)
Example py_exact_example : forall fsolve : Fsolve,
  let L := conserved 3 1 (-1) 4 in let R_ := conserved 3 1 (-2) 1 in
  let l := mkPrim 1 (-1) 4 in let r := mkPrim 1 (-2) 1 in
  py_star_pressure fsolve 1 3 l r = Some 4 /\ py_func 3 l r 4 = Some 0 /\
  py_get_value fsolve 1 3 L R_ 0 1 = Some (Num (conserved 3 (3 / 2) (-1) 4)) /\
  py_get_value fsolve 1 3 L R_ 2 1 = Some (Num R_).
Proof.
  intros fsolve L R_ l r.
  assert (C : py_f 3 4 1 1 = Some 1).
  { unfold py_f. destruct (Rgt_dec 4 1); [|lra]. unfold py_P.
    replace (1 * ((1 * (3 - 1) + 4 * (3 + 1)) / 2)) with (3 * 3) by field.
    rewrite root_ok by lra. cbn [bind]. rewrite sqrt_square by lra. rewrite div_ok by lra. f_equal. field. }
  assert (C0 : py_f 3 4 4 1 = Some 0).
  { unfold py_f. destruct (Rgt_dec 4 4); [lra|]. destruct (Rlt_dec 4 4); [lra|reflexivity]. }
  assert (F : py_func 3 l r 4 = Some 0).
  { unfold py_func, l, r. cbn [p_p p_rho p_u]. rewrite C0, C. cbn [bind]. f_equal. ring. }
  assert (S : py_star_pressure fsolve 1 3 l r = Some 4).
  { unfold py_star_pressure. change (p_p l) with 4. cbn [py_guess]. rewrite F. cbn [bind].
    destruct (Rgt_dec 0 0); [lra|]. cbn [bind]. rewrite F. cbn [bind]. rewrite Rabs_R0.
    pose proof (pow10_pos 8). destruct (Rgt_dec 0 (/ 10 ^ 8)); [lra|reflexivity]. }
  split; [exact S|]. split; [exact F|].
  assert (QL : conservative_to_primitive 3 L = Some (1, -1, 4)).
  { unfold L. rewrite c2p_ok; rewrite ?pressure_conserved by lra; [|cbn [conserved a0]; lra|lra].
    unfold speed1, conserved. cbn [a0 a1]. replace (1 * -1 / 1) with (-1) by field. reflexivity. }
  assert (QR : conservative_to_primitive 3 R_ = Some (1, -2, 1)).
  { unfold R_. rewrite c2p_ok; rewrite ?pressure_conserved by lra; [|cbn [conserved a0]; lra|lra].
    unfold speed1, conserved. cbn [a0 a1]. replace (1 * -2 / 1) with (-2) by field. reflexivity. }
  assert (St : exists W, py_wave_structure fsolve 1 3 L R_ = Some W /\ w_left W = l /\ w_right W = r /\
    w_star W = Some (mkStar 4 (-1) 1 (3 / 2)) /\ slope_2 W = -1 /\ slope_3_left W = 1 /\ slope_3_right W = 1).
  { unfold py_wave_structure. rewrite QL, QR. cbn [bind]. destruct (Req_EM_T (4 * 1) 0); [lra|].
    rewrite !a_eq by lra. cbn [bind].
    assert (P1 : forall g, powR 1 g = 1).
    { intros g. rewrite powR_pos by lra. unfold Rpower. rewrite ln_1, Rmult_0_r. apply exp_0. }
    rewrite !P1. rewrite !div_ok by lra. cbn [bind].
    assert (0 < sqrt (3 * 4 / 1)) by (apply sqrt_lt_R0; lra). assert (0 < sqrt (3 * 1 / 1)) by (apply sqrt_lt_R0; lra).
    destruct (Rle_dec _ _); [lra|]. fold l r. rewrite S. cbn [bind]. rewrite C0, C. cbn [bind].
    replace ((-1 - 0 + -2 + 1) / 2) with (-1) by field.
    unfold py_wave_1, py_wave_3. change (p_p l) with 4. change (p_p r) with 1.
    pose proof (pow10_pos 10). pose proof (pow10_pos 8).
    assert (/ 10 ^ 8 < 1) by (rewrite <- Rinv_1; apply Rinv_lt_contravar; [rewrite Rmult_1_l; apply pow_lt; lra|apply Rlt_pow_R1; [lra|lia]]).
    destruct (Rgt_dec 4 (4 + / 10 ^ 10)); [lra|]. destruct (Rlt_dec 4 (4 - / 10 ^ 10)); [lra|]. cbn [bind].
    destruct (Rgt_dec 4 (1 + / 10 ^ 8)); [|lra]. unfold py_shock. cbn [r p_u p_rho].
    destruct (Req_EM_T (-1) (-2)); [lra|]. rewrite div_ok by lra. cbn [bind].
    replace (-2 + (4 - 1) / (-1 - -2) / 1) with 1 by field. destruct (Req_EM_T (-1) 1); [lra|]. cbn [bind fst snd].
    eexists. split; [reflexivity|]. cbn [w_left w_right w_star slope_2 slope_3_left slope_3_right l p_rho].
    repeat split. f_equal. f_equal. field. }
  destruct St as (W & E & E1 & E2 & E3 & E4 & E5 & E6).
  unfold py_get_value. rewrite E. cbn [bind]. destruct (Req_EM_T 1 0); [lra|].
  unfold py_value_at. rewrite E2, E3, E4, E5, E6. split.
  - replace (0 / 1) with 0 by field. destruct (Rlt_dec 0 (-1)); [lra|]. destruct (Rge_dec 0 1); [lra|].
    destruct (Rle_dec 0 1); [|lra]. unfold give. rewrite p2c_ok by lra. reflexivity.
  - replace (2 / 1) with 2 by field. destruct (Rlt_dec 2 (-1)); [lra|]. destruct (Rge_dec 2 1); [|lra].
    unfold give. rewrite p2c_ok by lra. reflexivity.
Qed.

(** ** C127 *)

(** The solver knows about vacuum, but between the two expansions it gives not-a-number, and the flux
    fails, whatever the root finder does. *)
Theorem py_exact_vacuum_refuted : exists (gamma : R) (L R_ : Arr), 1 < gamma /\
  physical1 gamma L /\ physical1 gamma R_ /\ vacuum_between gamma (state gamma L) (state gamma R_) /\
  forall (fsolve : Fsolve) (fuel : nat),
    py_exact_flux fsolve fuel gamma L R_ = None /\
    py_get_value fsolve fuel gamma L R_ 0 1 = Some NaN3.
Proof.
  pose (L := conserved (7 / 5) (7 / 5) (-6) 1). pose (R_ := conserved (7 / 5) (7 / 5) 6 1).
  assert (PL : physical1 (7 / 5) L).
  { split; [unfold L, conserved; cbn [a0]; lra|]. unfold L. rewrite pressure_conserved; lra. }
  assert (PR : physical1 (7 / 5) R_).
  { split; [unfold R_, conserved; cbn [a0]; lra|]. unfold R_. rewrite pressure_conserved; lra. }
  assert (S : forall u, GetSpeedOfSound (7 / 5) (state (7 / 5) (conserved (7 / 5) (7 / 5) u 1)) = 1).
  { intros u. rewrite physical_sound.
    - cbn [state mass energy]. rewrite pressure_conserved by lra. unfold conserved. cbn [a0].
      replace (7 / 5 * 1 / (7 / 5)) with 1 by field. apply sqrt_1.
    - apply state_physical. split; [unfold conserved; cbn [a0]; lra|]. rewrite pressure_conserved; lra. }
  assert (UL : mX (state (7 / 5) L) = -6) by (unfold state, speed1, L, conserved; cbn [mX a0 a1]; field).
  assert (UR : mX (state (7 / 5) R_) = 6) by (unfold state, speed1, R_, conserved; cbn [mX a0 a1]; field).
  assert (V : vacuum_between (7 / 5) (state (7 / 5) L) (state (7 / 5) R_)).
  { unfold vacuum_between. rewrite UL, UR. unfold L, R_. rewrite !S. lra. }
  assert (I : escape_left (7 / 5) (state (7 / 5) L) < 0 <= escape_right (7 / 5) (state (7 / 5) R_)).
  { unfold escape_left, escape_right. rewrite UL, UR. unfold L, R_. rewrite !S. lra. }
  exists (7 / 5), L, R_. split; [lra|]. split; [exact PL|]. split; [exact PR|]. split; [exact V|].
  intros fsolve fuel. split; [apply vacuum_flux; auto; lra|].
  destruct (vacuum_nan fsolve fuel (7 / 5) L R_ ltac:(lra) PL PR 0 V I) as (W & E & F).
  unfold py_get_value. rewrite E. cbn [bind]. destruct (Req_EM_T 1 0); [lra|]. replace (0 / 1) with 0 by field. exact F.
Qed.
Print Assumptions py_exact_vacuum_refuted.

(** Every problem with vacuum over the time axis fails. *)
Theorem py_exact_vacuum_always : forall (fsolve : Fsolve) (fuel : nat) (gamma : R) (L R_ : Arr), 1 < gamma ->
  physical1 gamma L -> physical1 gamma R_ -> vacuum_between gamma (state gamma L) (state gamma R_) ->
  escape_left gamma (state gamma L) < 0 <= escape_right gamma (state gamma R_) ->
  py_exact_flux fsolve fuel gamma L R_ = None.
Proof. intros. apply vacuum_flux; auto. Qed.
Print Assumptions py_exact_vacuum_always.

(** Outside of the vacuum the values are those of the data or of expansions. *)
Theorem py_exact_vacuum_outside_partial : forall (fsolve : Fsolve) (fuel : nat) (gamma : R) (L R_ : Arr) (s : R), 1 < gamma ->
  physical1 gamma L -> physical1 gamma R_ -> vacuum_between gamma (state gamma L) (state gamma R_) ->
  s < escape_left gamma (state gamma L) \/ escape_right gamma (state gamma R_) < s ->
  exists w, (forall t, 0 < t -> py_get_value fsolve fuel gamma L R_ (s * t) t =
      Some (Num (conserved gamma (mass w) (mX w) (energy w)))) /\
    (w = state gamma L /\ s <= characteristic gamma Wave1 (state gamma L) \/
     w = state gamma R_ /\ characteristic gamma Wave3 (state gamma R_) <= s \/
     physical w /\ same_entropy gamma (state gamma L) w /\ same_invariant gamma Wave1 (state gamma L) w /\
       characteristic gamma Wave1 w = s \/
     physical w /\ same_entropy gamma (state gamma R_) w /\ same_invariant gamma Wave3 (state gamma R_) w /\
       characteristic gamma Wave3 w = s).
Proof.
  intros fsolve fuel gamma L R_ s G PL PR V H.
  destruct (vacuum_outside fsolve fuel gamma L R_ G PL PR s V H) as (W & w & E & F & C).
  exists w. split; [|exact C]. intros t T. unfold py_get_value. rewrite E. cbn [bind].
  destruct (Req_EM_T t 0); [lra|]. replace (s * t / t) with s by (field; lra). exact F.
Qed.
Print Assumptions py_exact_vacuum_outside_partial.

Example py_exact_vacuum_example :
  let L := conserved (7 / 5) (7 / 5) (-6) 1 in let R_ := conserved (7 / 5) (7 / 5) 6 1 in
  escape_left (7 / 5) (state (7 / 5) L) = -1 /\ escape_right (7 / 5) (state (7 / 5) R_) = 1.
Proof.
  assert (S : forall u, GetSpeedOfSound (7 / 5) (state (7 / 5) (conserved (7 / 5) (7 / 5) u 1)) = 1).
  { intros u. rewrite physical_sound.
    - cbn [state mass energy]. rewrite pressure_conserved by lra. unfold conserved. cbn [a0].
      replace (7 / 5 * 1 / (7 / 5)) with 1 by field. apply sqrt_1.
    - apply state_physical. split; [unfold conserved; cbn [a0]; lra|]. rewrite pressure_conserved; lra. }
  intros L R_. unfold escape_left, escape_right. unfold L, R_. rewrite !S.
  cbn [state mX]. unfold speed1, conserved. cbn [a0 a1]. split; field.
Qed.
