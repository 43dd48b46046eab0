(** Proofs about the exact Riemann solver of the Python package. *)
From Coq Require Import Reals List Lra Lia Psatz.
From Verif Require Import Arrays Model_Euler Spec_Euler Model_Exact Spec_Exact Proof_Euler Proof_Exact.
From Verif Require Import Model_PyEuler Spec_PyEuler Proof_PyEuler Proof_PyRoe Model_PyExact Spec_PyExact.
Import ListNotations.
Open Scope R_scope.

Lemma P_eq gamma p1 p2 : py_P gamma p1 p2 = SpeedChange_P gamma p1 p2.
Proof. unfold py_P, SpeedChange_P. field. Qed.

Lemma a_eq gamma p rho : 1 < gamma -> 0 < p -> 0 < rho -> p_rho_to_a gamma p rho = Some (sqrt (gamma * p / rho)).
Proof.
  intros G P H. unfold p_rho_to_a, p_rho_to_aa. destruct (Req_EM_T rho 0); [lra|]. cbn [bind].
  replace (p / rho * gamma) with (gamma * p / rho) by (field; lra).
  apply root_ok. left. apply Rdiv_lt_0_compat; nra.
Qed.

Lemma f_eq gamma p p1 rho : 1 < gamma -> 0 < p -> 0 < p1 -> 0 < rho ->
  py_f gamma p p1 rho = Some (change gamma rho p1 p).
Proof.
  intros G P P1 H. unfold py_f, change. destruct (Rgt_dec p p1) as [X|X].
  - destruct (Rge_dec p p1); [|lra]. rewrite P_eq.
    pose proof (P_pos gamma p1 G P1 p ltac:(lra)) as Q.
    assert (0 < rho * SpeedChange_P gamma p1 p) by nra.
    rewrite root_ok by lra. cbn [bind]. rewrite div_ok by (apply Rgt_not_eq, sqrt_lt_R0; auto). reflexivity.
  - destruct (Rlt_dec p p1) as [Y|Y].
    + destruct (Rge_dec p p1); [lra|]. rewrite div_ok by lra. cbn [bind].
      pose proof (Rdiv_lt_0_compat p p1 P P1). destruct (Rge_dec (p / p1) 0); [|lra].
      rewrite a_eq by auto. cbn [bind]. unfold expansion. f_equal.
      replace ((gamma - 1) / gamma / 2) with ((gamma - 1) / 2 / gamma) by (field; lra). field. lra.
    + destruct (Rge_dec p p1); [|lra]. replace p with p1 by lra. rewrite shock_b. reflexivity.
Qed.

Definition tup (w : Prim) : Tuple := mkTuple (p_rho w) (p_u w) [] (p_p w).
Lemma func_eq gamma l r p : 1 < gamma -> physical (tup l) -> physical (tup r) -> 0 < p ->
  py_func gamma l r p = Some (pf gamma (tup l) (tup r) p).
Proof.
  intros G [A B] [C D] P. cbn in A, B, C, D. unfold py_func. rewrite !f_eq by auto. reflexivity.
Qed.

Lemma guess_eq f n x : py_guess f n x = FindRoot_halve f n x.
Proof.
  revert x. induction n; intros x; cbn; [reflexivity|]. destruct (f x); cbn; [|reflexivity].
  destruct (Rgt_dec _ _); auto.
Qed.

Theorem guess_found gamma l r : 1 < gamma -> physical (tup l) -> physical (tup r) -> pf0 gamma (tup l) (tup r) < 0 ->
  exists n p, 0 < p <= p_p l /\ pf gamma (tup l) (tup r) p <= 0 /\
  forall fuel, (n <= fuel)%nat -> py_guess (py_func gamma l r) fuel (p_p l) = Some p.
Proof.
  intros G L R N. destruct (pf_near_0 gamma (tup l) (tup r) G L R N) as (d & D & H).
  pose proof L as [_ B]. cbn in B.
  assert (Q : exists n, p_p l < d * 2 ^ n).
  { destruct (Pow_x_infinity 2 ltac:(rewrite Rabs_pos_eq; lra) (p_p l / d + 1)) as (n & Hn).
    exists n. specialize (Hn n (le_n n)). rewrite Rabs_pos_eq in Hn by (apply pow_le; lra).
    apply Rmult_lt_reg_r with (/ d); [apply Rinv_0_lt_compat; auto|].
    replace (d * 2 ^ n * / d) with (2 ^ n) by (field; lra). unfold Rdiv in Hn. lra. }
  destruct Q as (n & Hn).
  assert (E : forall x, 0 < x -> py_func gamma l r x = Some (pf gamma (tup l) (tup r) x)) by (intros; apply func_eq; auto).
  destruct (halve_terminates (py_func gamma l r) (pf gamma (tup l) (tup r)) E d D H n (p_p l) B Hn) as (p & F).
  exists (S n), p.
  destruct (halve_result (py_func gamma l r) (pf gamma (tup l) (tup r)) E (S n) (p_p l) p B F) as [X Y].
  split; [exact X|]. split; [exact Y|]. intros fuel Hf. rewrite guess_eq.
  apply halve_fuel with (S n); auto.
Qed.

(** ** One wave at a time *)
Lemma tup_sound gamma w : physical (tup w) -> GetSpeedOfSound gamma (tup w) = sqrt (gamma * p_p w / p_rho w).
Proof. apply physical_sound. Qed.
Lemma moving_sound gamma s w : GetSpeedOfSound gamma (moving s w) = GetSpeedOfSound gamma w.
Proof. reflexivity. Qed.
Lemma moving_physical s w : physical w -> physical (moving s w).
Proof. intros [A B]. split; auto. Qed.

Lemma shock_eq gamma k w p u : 1 < gamma -> physical (tup w) -> p_p w < p ->
  u = p_u w + shock_sign k * shock gamma (p_rho w) (p_p w) p ->
  exists rho S, py_shock u p (p_u w) (p_p w) (p_rho w) = Some (rho, S) /\
  forall s, PrimitiveNearShock k (moving s (tup w)) (mkTuple 0 (u - s) [] p) =
    Some (if TimeAxisAfterShock k (S - s) then moving s (mkTuple rho u [] p) else moving s (tup w)).
Proof.
  intros G P L U. pose proof P as [A B]. cbn in A, B.
  destruct (shock_jump gamma k (tup w) (mkTuple 0 u [] p) G P L U) as (w1 & E1 & E2 & E3 & E4 & E5 & _).
  set (S := Shock_u (tup w) (mkTuple 0 u [] p)) in *. cbn in E1, E2, E3.
  assert (Nu : u - p_u w <> 0).
  { rewrite U. pose proof (P_pos gamma (p_p w) G B p ltac:(lra)) as Q.
    assert (0 < shock gamma (p_rho w) (p_p w) p).
    { apply Rdiv_lt_0_compat; [lra|]. apply sqrt_lt_R0. apply Rmult_lt_0_compat; auto. }
    destruct k; cbn [shock_sign]; lra. }
  assert (Nd : (u - p_u w) * p_rho w <> 0) by (apply Rmult_integral_contrapositive_currified; lra).
  assert (ES : S = p_u w + (p - p_p w) / (u - p_u w) / p_rho w).
  { unfold S, Shock_u. cbn [mX mass energy tup]. destruct (Req_EM_T _ 0); [contradiction|]. f_equal. field. lra. }
  destruct E5 as (J1 & _). cbn [mass mX tup] in J1. rewrite E1 in J1. cbn [mX tup] in E4.
  assert (N2 : u - S <> 0).
  { intros Z. rewrite Z, Rmult_0_r in J1. apply Rmult_integral in J1. destruct J1 as [J1|J1]; [lra|].
    replace (S - p_u w) with 0 in E4 by lra. lra. }
  exists (p_rho w * (p_u w - S) / (u - S)), S. split.
  - unfold py_shock. destruct (Req_EM_T u (p_u w)); [lra|]. rewrite div_ok by lra. cbn [bind]. rewrite <- ES.
    destruct (Req_EM_T u S); [lra|]. reflexivity.
  - intros s. unfold PrimitiveNearShock.
    replace (Shock_u (moving s (tup w)) (mkTuple 0 (u - s) [] p)) with (S - s).
    2:{ unfold S, Shock_u, moving. cbn [mX mass energy tup].
        replace (u - s - (p_u w - s)) with (u - p_u w) by ring. destruct (Req_EM_T _ 0); [contradiction|]. ring. }
    destruct (TimeAxisAfterShock k (S - s)); [|reflexivity]. cbn [mX mass energy mT moving tup].
    destruct (Req_EM_T (u - s - (S - s)) 0); [lra|]. unfold moving. cbn [mX mass energy]. f_equal. f_equal.
    replace (p_u w - s - (S - s)) with (p_u w - S) by ring. replace (u - s - (S - s)) with (u - S) by ring. field. exact N2.
Qed.

(** velocity between the waves and the speed of sound behind an expansion *)
Lemma expansion_a gamma k w p u : 1 < gamma -> physical (tup w) -> 0 < p < p_p w ->
  u = p_u w + shock_sign k * expansion gamma (p_rho w) (p_p w) p ->
  let a := GetSpeedOfSound gamma (tup w) in
  let a2 := a + - shock_sign k * ((p_u w - u) / 2 * (gamma - 1)) in
  0 < a2 < a.
Proof.
  intros G P L U a a2. pose proof (Proof_Euler.sound_pos gamma (tup w) ltac:(lra) P) as Sp. fold a in Sp.
  pose proof P as [A B]. cbn in A, B.
  unfold expansion in U. rewrite <- (tup_sound gamma w P) in U. fold a in U.
  rewrite powR_pos in U by (apply Rdiv_lt_0_compat; lra).
  set (m := Rpower (p / p_p w) ((gamma - 1) / 2 / gamma)) in *.
  assert (M : 0 < m < 1).
  { split; [apply exp_pos|]. unfold m. rewrite <- (Rpower_O (p / p_p w)) at 2 by (apply Rdiv_lt_0_compat; lra).
    unfold Rpower. apply exp_increasing. rewrite Rmult_0_l.
    assert (X : ln (p / p_p w) < 0).
    { rewrite <- ln_1. apply ln_increasing; [apply Rdiv_lt_0_compat; lra|].
      apply Rmult_lt_reg_r with (p_p w); [lra|]. unfold Rdiv. rewrite Rmult_assoc, Rinv_l by lra. lra. }
    assert (0 < (gamma - 1) / 2 / gamma) by (repeat apply Rdiv_lt_0_compat; lra). nra. }
  assert (E : a2 = a * m).
  { unfold a2. rewrite U. destruct k; cbn [shock_sign]; field; lra. }
  rewrite E. nra.
Qed.

(** the inside of an expansion *)
Definition py_fan (gamma e a u : R) : option Tuple :=
  if Rge_dec a 0 then
    do q <- div (a ^ 2 / gamma) e;
    let rho := powR q (1 / (gamma - 1)) in
    Some (mkTuple rho u [] (a ^ 2 * rho / gamma))
  else None.
(** the left half of [_get_value] *)
Definition half_1 (gamma : R) (w : Prim) (e i sl sr : R) (star : option Tuple) (s : R) : option (option Tuple) :=
  if Rle_dec s sl then Some (Some (tup w))
  else if Rgt_dec s sr then Some star
  else do x <- py_fan gamma e ((i - s) * ((gamma - 1) / (gamma + 1))) (s + (i - s) * ((gamma - 1) / (gamma + 1))); Some (Some x).
Definition half_3 (gamma : R) (w : Prim) (e i sl sr : R) (star : option Tuple) (s : R) : option (option Tuple) :=
  if Rge_dec s sr then Some (Some (tup w))
  else if Rle_dec s sl then Some star
  else do x <- py_fan gamma e ((s - i) * ((gamma - 1) / (gamma + 1))) (s - (s - i) * ((gamma - 1) / (gamma + 1))); Some (Some x).

Definition give_tup (gamma : R) (x : option Tuple) : option Val :=
  match x with Some w => give gamma (mass w) (mX w) (energy w) | None => Some NaN3 end.

Definition star_left (w : Waves) : option Tuple := option_map (fun s => mkTuple (s_rho_left s) (s_u s) [] (s_p s)) (w_star w).
Definition star_right (w : Waves) : option Tuple := option_map (fun s => mkTuple (s_rho_right s) (s_u s) [] (s_p s)) (w_star w).

Lemma value_halves gamma w s : py_value_at gamma w s =
  do x <- (if Rlt_dec s (slope_2 w)
    then half_1 gamma (w_left w) (fst (w_inv_left w)) (snd (w_inv_left w)) (slope_1_left w) (slope_1_right w) (star_left w) s
    else half_3 gamma (w_right w) (fst (w_inv_right w)) (snd (w_inv_right w)) (slope_3_left w) (slope_3_right w) (star_right w) s);
  give_tup gamma x.
Proof.
  unfold py_value_at, half_1, half_3, star_left, star_right, py_fan.
  destruct (Rlt_dec s (slope_2 w)).
  - destruct (Rle_dec s (slope_1_left w)); [reflexivity|].
    destruct (Rgt_dec s (slope_1_right w)); [destruct (w_star w); reflexivity|].
    destruct (Rge_dec _ 0); [|reflexivity].
    destruct (div _ _); reflexivity.
  - destruct (Rge_dec s (slope_3_right w)); [reflexivity|].
    destruct (Rle_dec s (slope_3_left w)); [destruct (w_star w); reflexivity|].
    destruct (Rge_dec _ 0); [|reflexivity].
    destruct (div _ _); reflexivity.
Qed.

(** the fan of the code is the fan of C++ in the moving frame *)
Lemma fan_1 gamma w s g : 1 < gamma -> physical (tup w) -> 0 <= g - s ->
  let r := (gamma - 1) / (gamma + 1) in
  exists x, py_fan gamma (p_p w / powR (p_rho w) gamma) ((g - s) * r) (s + (g - s) * r) = Some x /\
    moving s x = PrimitiveInsideExpansion gamma (energy (tup w) / powR (mass (tup w)) gamma) (g - s).
Proof.
  intros G [A B] H r. cbn in A, B. assert (0 < r) by (apply Rdiv_lt_0_compat; lra).
  unfold py_fan. destruct (Rge_dec ((g - s) * r) 0) as [_|X]; [|exfalso; apply X; apply Rle_ge, Rmult_le_pos; lra].
  assert (0 < powR (p_rho w) gamma) by (rewrite powR_pos by auto; apply exp_pos).
  rewrite div_ok by (apply Rgt_not_eq, Rdiv_lt_0_compat; auto). cbn [bind].
  eexists. split; [reflexivity|]. unfold moving, PrimitiveInsideExpansion. fold r. cbn [mass mX energy tup].
  replace (((g - s) * r) ^ 2 / gamma / (p_p w / powR (p_rho w) gamma)) with
    (r * (g - s) * (r * (g - s)) / (p_p w / powR (p_rho w) gamma) * (1 / gamma)) by (field; lra).
  f_equal; [ring|]. field. lra.
Qed.
Lemma fan_3 gamma w s g : 1 < gamma -> physical (tup w) -> 0 <= s - g ->
  let r := (gamma - 1) / (gamma + 1) in
  exists x, py_fan gamma (p_p w / powR (p_rho w) gamma) ((s - g) * r) (s - (s - g) * r) = Some x /\
    moving s x = PrimitiveInsideExpansion gamma (energy (tup w) / powR (mass (tup w)) gamma) (g - s).
Proof.
  intros G [A B] H r. cbn in A, B. assert (0 < r) by (apply Rdiv_lt_0_compat; lra).
  unfold py_fan. destruct (Rge_dec ((s - g) * r) 0) as [_|X]; [|exfalso; apply X; apply Rle_ge, Rmult_le_pos; lra].
  assert (0 < powR (p_rho w) gamma) by (rewrite powR_pos by auto; apply exp_pos).
  rewrite div_ok by (apply Rgt_not_eq, Rdiv_lt_0_compat; auto). cbn [bind].
  eexists. split; [reflexivity|]. unfold moving, PrimitiveInsideExpansion. fold r. cbn [mass mX energy tup].
  replace (((s - g) * r) ^ 2 / gamma / (p_p w / powR (p_rho w) gamma)) with
    (r * (g - s) * (r * (g - s)) / (p_p w / powR (p_rho w) gamma) * (1 / gamma)) by (field; lra).
  f_equal; [ring|]. field. lra.
Qed.

Lemma pow10_pos n : 0 < / 10 ^ n.
Proof. apply Rinv_0_lt_compat, pow_lt. lra. Qed.

Section Side.
  Variables (gamma : R) (w : Prim) (p u : R).
  Hypothesis (G : 1 < gamma) (P : physical (tup w)) (Hp : 0 < p).
  Let a := GetSpeedOfSound gamma (tup w).
  Let e := p_p w / powR (p_rho w) gamma.

  Lemma wave_1_seen : u = p_u w - change gamma (p_rho w) (p_p w) p -> resolved (/ 10 ^ 10) p (p_p w) ->
    exists rho sl sr, py_wave_1 gamma a u p w = Some (rho, sl, sr) /\
    forall s, s < u -> exists x,
      half_1 gamma w e (p_u w + 2 * a / (gamma - 1)) sl sr (Some (mkTuple rho u [] p)) s = Some (Some x) /\
      seen_through gamma Wave1 (moving s (tup w)) p (u - s) (moving s x).
  Proof.
    intros U Rs. pose proof P as [A B]. cbn in A, B. pose proof (pow10_pos 10) as Ep.
    assert (MS : forall s, s < u -> exists w2, (if Rge_dec p (p_p w) then PrimitiveNearShock Wave1 (moving s (tup w)) (mkTuple 0 (u - s) [] p)
              else PrimitiveNearExpansion gamma Wave1 (moving s (tup w)) (mkTuple 0 (u - s) [] p)) = Some w2 /\
       seen_through gamma Wave1 (moving s (tup w)) p (u - s) w2).
    { intros s Hs. apply (seen gamma Wave1 (moving s (tup w)) p (u - s)); auto using moving_physical.
      - cbn [shock_sign moving mX mass energy tup]. rewrite U. ring.
      - cbn [shock_sign]. lra. }
    unfold py_wave_1. destruct Rs as [Rs|[Rs|Rs]].
    - subst p. rewrite change_b in U. destruct (Rgt_dec _ _); [lra|]. destruct (Rlt_dec _ _); [lra|].
      do 3 eexists. split; [reflexivity|]. intros s Hs. exists (tup w). unfold half_1. destruct (Rle_dec s (p_u w)); [|lra].
      split; [reflexivity|]. apply seen_no_wave; [reflexivity|]. cbn. lra.
    - destruct (Rgt_dec _ _); [|lra].
      assert (U' : u = p_u w + shock_sign Wave1 * shock gamma (p_rho w) (p_p w) p).
      { rewrite U. unfold change. destruct (Rge_dec p (p_p w)); [|lra]. cbn. ring. }
      destruct (shock_eq gamma Wave1 w p u G P ltac:(lra) U') as (rho & S & E & N). rewrite E. cbn [bind fst snd].
      do 3 eexists. split; [reflexivity|]. intros s Hs. destruct (MS s Hs) as (w2 & M1 & M2).
      destruct (Rge_dec p (p_p w)); [|lra]. rewrite N in M1. unfold TimeAxisAfterShock in M1.
      unfold half_1. destruct (Rle_dec s S) as [X|X].
      + exists (tup w). split; [reflexivity|]. destruct (Rlt_dec (S - s) 0); [lra|].
        injection M1 as <-. exact M2.
      + destruct (Rgt_dec s S); [|lra]. eexists. split; [reflexivity|]. destruct (Rlt_dec (S - s) 0); [|lra].
        injection M1 as <-. exact M2.
    - destruct (Rgt_dec _ _); [lra|]. destruct (Rlt_dec _ _); [|lra].
      assert (U' : u = p_u w + shock_sign Wave1 * expansion gamma (p_rho w) (p_p w) p).
      { rewrite U. unfold change. destruct (Rge_dec p (p_p w)); [lra|]. cbn. ring. }
      pose proof (expansion_a gamma Wave1 w p u G P ltac:(lra) U') as E2. cbv zeta in E2. fold a in E2. cbn [shock_sign] in E2.
      replace (a + - -1 * ((p_u w - u) / 2 * (gamma - 1))) with (a + (p_u w - u) / 2 * (gamma - 1)) in E2 by ring.
      set (a2 := a + (p_u w - u) / 2 * (gamma - 1)) in *.
      destruct (Rge_dec a2 0); [|lra]. rewrite div_ok by nra. cbn [bind].
      do 3 eexists. split; [reflexivity|]. intros s Hs. unfold half_1. destruct (Rle_dec s (p_u w - a)) as [X|X].
      + exists (tup w). split; [reflexivity|].
        apply seen_expansion; [cbn; lra|apply moving_physical; auto|unfold same_entropy; ring|unfold same_invariant; ring|].
        unfold characteristic. rewrite moving_sound. fold a. cbn [shock_sign moving mX tup].
        destruct (Req_dec s (p_u w - a)); [right; right; lra|left; split; [reflexivity|lra]].
      + destruct (MS s Hs) as (w2 & M1 & M2). destruct (Rge_dec p (p_p w)); [lra|].
        unfold PrimitiveNearExpansion in M1. rewrite moving_sound in M1. fold a in M1. cbn [AddOrMinus] in M1.
        cbn [moving mX mass energy mT] in M1.
        replace (a + (gamma - 1) / 2 * (mX (tup w) - s - (u - s))) with a2 in M1 by (unfold a2; cbn [mX tup]; field).
        destruct (Rgt_dec s (u - a2)) as [Y|Y].
        * eexists. split; [reflexivity|]. destruct (Rlt_dec (u - s - a2) 0); [|lra].
          destruct (Req_EM_T (a2 * a2) 0) as [Z|Z]; [nra|]. injection M1 as <-.
          unfold moving. cbn [mass mX energy].
          replace (p / a2 ^ 2 * gamma) with (gamma * p / (a2 * a2)) by (field; lra). exact M2.
        * destruct (Rlt_dec (u - s - a2) 0); [lra|].
          destruct (Rgt_dec (mX (tup w) - s - a) 0) as [Z|Z]; [cbn [mX tup] in Z; lra|].
          set (g := p_u w + 2 * a / (gamma - 1)).
          assert (Eg : mX (tup w) - s + 2 / (gamma - 1) * a = g - s) by (unfold g; cbn [mX tup]; field; lra).
          rewrite Eg in M1.
          assert (Gs : 0 <= g - s).
          { replace g with (u + 2 * a2 / (gamma - 1)) by (unfold g, a2; field; lra).
            assert (0 < 2 * a2 / (gamma - 1)) by (apply Rdiv_lt_0_compat; lra). lra. }
          destruct (fan_1 gamma w s g G P Gs) as (x & F1 & F2). fold e in F1. rewrite F1. cbn [bind].
          exists x. split; [reflexivity|]. rewrite F2. injection M1 as <-. exact M2.
  Qed.

  Lemma wave_3_seen : u = p_u w + change gamma (p_rho w) (p_p w) p -> resolved (/ 10 ^ 8) p (p_p w) ->
    exists rho sl sr, py_wave_3 gamma a u p w = Some (rho, sl, sr) /\
    forall s, u <= s -> exists x,
      half_3 gamma w e (p_u w - 2 * a / (gamma - 1)) sl sr (Some (mkTuple rho u [] p)) s = Some (Some x) /\
      seen_through gamma Wave3 (moving s (tup w)) p (u - s) (moving s x).
  Proof.
    intros U Rs. pose proof P as [A B]. cbn in A, B. pose proof (pow10_pos 8) as Ep.
    assert (MS : forall s, u <= s -> exists w2, (if Rge_dec p (p_p w) then PrimitiveNearShock Wave3 (moving s (tup w)) (mkTuple 0 (u - s) [] p)
              else PrimitiveNearExpansion gamma Wave3 (moving s (tup w)) (mkTuple 0 (u - s) [] p)) = Some w2 /\
       seen_through gamma Wave3 (moving s (tup w)) p (u - s) w2).
    { intros s Hs. apply (seen gamma Wave3 (moving s (tup w)) p (u - s)); auto using moving_physical.
      - cbn [shock_sign moving mX mass energy tup]. rewrite U. ring.
      - cbn [shock_sign]. lra. }
    unfold py_wave_3. destruct Rs as [Rs|[Rs|Rs]].
    - subst p. rewrite change_b in U. destruct (Rgt_dec _ _); [lra|]. destruct (Rlt_dec _ _); [lra|].
      do 3 eexists. split; [reflexivity|]. intros s Hs. exists (tup w). unfold half_3. destruct (Rge_dec s (p_u w)); [|lra].
      split; [reflexivity|]. apply seen_no_wave; [reflexivity|]. cbn. lra.
    - destruct (Rgt_dec _ _); [|lra].
      assert (U' : u = p_u w + shock_sign Wave3 * shock gamma (p_rho w) (p_p w) p).
      { rewrite U. unfold change. destruct (Rge_dec p (p_p w)); [|lra]. cbn. ring. }
      destruct (shock_eq gamma Wave3 w p u G P ltac:(lra) U') as (rho & S & E & N). rewrite E. cbn [bind fst snd].
      do 3 eexists. split; [reflexivity|]. intros s Hs. destruct (MS s Hs) as (w2 & M1 & M2).
      destruct (Rge_dec p (p_p w)); [|lra]. rewrite N in M1. unfold TimeAxisAfterShock in M1.
      unfold half_3. destruct (Rge_dec s S) as [X|X].
      + exists (tup w). split; [reflexivity|]. destruct (Rgt_dec (S - s) 0); [lra|].
        injection M1 as <-. exact M2.
      + destruct (Rle_dec s S); [|lra]. eexists. split; [reflexivity|]. destruct (Rgt_dec (S - s) 0); [|lra].
        injection M1 as <-. exact M2.
    - destruct (Rgt_dec _ _); [lra|]. destruct (Rlt_dec _ _); [|lra].
      assert (U' : u = p_u w + shock_sign Wave3 * expansion gamma (p_rho w) (p_p w) p).
      { rewrite U. unfold change. destruct (Rge_dec p (p_p w)); [lra|]. cbn. ring. }
      pose proof (expansion_a gamma Wave3 w p u G P ltac:(lra) U') as E2. cbv zeta in E2. fold a in E2. cbn [shock_sign] in E2.
      replace (a + - (1) * ((p_u w - u) / 2 * (gamma - 1))) with (a - (p_u w - u) / 2 * (gamma - 1)) in E2 by ring.
      set (a2 := a - (p_u w - u) / 2 * (gamma - 1)) in *.
      destruct (Rge_dec a2 0); [|lra]. rewrite div_ok by nra. cbn [bind].
      do 3 eexists. split; [reflexivity|]. intros s Hs. unfold half_3. destruct (Rge_dec s (p_u w + a)) as [X|X].
      + exists (tup w). split; [reflexivity|].
        apply seen_expansion; [cbn; lra|apply moving_physical; auto|unfold same_entropy; ring|unfold same_invariant; ring|].
        unfold characteristic. rewrite moving_sound. fold a. cbn [shock_sign moving mX tup].
        destruct (Req_dec s (p_u w + a)); [right; right; lra|left; split; [reflexivity|lra]].
      + destruct (MS s Hs) as (w2 & M1 & M2). destruct (Rge_dec p (p_p w)); [lra|].
        unfold PrimitiveNearExpansion in M1. rewrite moving_sound in M1. fold a in M1. cbn [AddOrMinus] in M1.
        cbn [moving mX mass energy mT] in M1.
        replace (a - (gamma - 1) / 2 * (mX (tup w) - s - (u - s))) with a2 in M1 by (unfold a2; cbn [mX tup]; field).
        set (g := p_u w - 2 * a / (gamma - 1)).
        assert (Eg : mX (tup w) - s - 2 / (gamma - 1) * a = g - s) by (unfold g; cbn [mX tup]; field; lra).
        rewrite Eg in M1.
        assert (Gu : g = u - 2 * a2 / (gamma - 1)) by (unfold g, a2; field; lra).
        assert (0 < 2 * a2 / (gamma - 1)) by (apply Rdiv_lt_0_compat; lra).
        destruct (Rle_dec s (u + a2)) as [Y|Y].
        * eexists. split; [reflexivity|].
          destruct (Rgt_dec (u - s + a2) 0) as [V|V].
          -- destruct (Req_EM_T (a2 * a2) 0) as [Z|Z]; [nra|]. injection M1 as <-.
             unfold moving. cbn [mass mX energy].
             replace (p / a2 ^ 2 * gamma) with (gamma * p / (a2 * a2)) by (field; lra). exact M2.
          -- (* the last ray of the star region *)
             assert (Es : s = u + a2) by lra.
             set (rho := p / a2 ^ 2 * gamma).
             assert (Hr : 0 < rho) by (unfold rho; apply Rmult_lt_0_compat; [apply Rdiv_lt_0_compat; nra|lra]).
             assert (Pe : p = a2 * a2 * rho * (1 / gamma)) by (unfold rho; field; lra).
             assert (Sd : GetSpeedOfSound gamma (moving s (mkTuple rho u [] p)) = a2).
             { unfold moving. cbn [mass mX energy]. rewrite Pe. rewrite sound_of by lra. apply Rabs_right. lra. }
             (* any ray inside the star region has the same state *)
             destruct (expansion_invariants gamma Wave3 (moving u (tup w)) (mkTuple 0 (u - u) [] p) G (moving_physical u _ P))
               as (w3 & N1 & N2 & N3 & N4 & _); [cbn; lra|cbn [shock_sign mX moving tup mass energy]; rewrite U'; cbn [shock_sign]; ring|].
             unfold PrimitiveNearExpansion in N1. rewrite moving_sound in N1. fold a in N1. cbn [AddOrMinus] in N1.
             cbn [moving mX mass energy mT] in N1.
             replace (a - (gamma - 1) / 2 * (mX (tup w) - u - (u - u))) with a2 in N1 by (unfold a2; cbn [mX tup]; field).
             destruct (Rgt_dec (u - u + a2) 0); [|lra]. destruct (Req_EM_T (a2 * a2) 0); [nra|]. injection N1 as <-.
             apply seen_expansion; [cbn; lra| | | |].
             ++ split; cbn; [auto|lra].
             ++ unfold same_entropy in *. cbn [mass energy moving] in *.
                replace rho with (gamma * p / (a2 * a2)) by (unfold rho; field; lra). exact N3.
             ++ unfold same_invariant. rewrite Sd, moving_sound. fold a. cbn [shock_sign moving mX tup].
                unfold g in Gu. unfold Rdiv in *. lra.
             ++ right. right. unfold characteristic. rewrite Sd. cbn [shock_sign moving mX]. lra.
        * destruct (Rgt_dec (u - s + a2) 0); [lra|].
          destruct (Rlt_dec (mX (tup w) - s + a) 0) as [Z|Z]; [cbn [mX tup] in Z; lra|].
          assert (Gs : 0 <= s - g) by lra.
          destruct (fan_3 gamma w s g G P Gs) as (x & F1 & F2). fold e in F1. rewrite F1. cbn [bind].
          exists x. split; [reflexivity|]. rewrite F2. injection M1 as <-. exact M2.
  Qed.
End Side.

(** ** The whole solver *)
Definition prim (gamma : R) (U : Arr) : Prim := mkPrim (a0 U) (speed1 U) (pressure1 gamma U).
Lemma tup_prim gamma U : tup (prim gamma U) = state gamma U.
Proof. reflexivity. Qed.
Lemma state_physical gamma U : physical1 gamma U -> physical (state gamma U).
Proof. intros [A B]. split; auto. Qed.

Section Solver.
  Variables (fsolve : Fsolve) (fuel : nat) (gamma : R) (L R : Arr).
  Hypothesis (G : 1 < gamma) (PL : physical1 gamma L) (PR : physical1 gamma R).
  Let l := prim gamma L.
  Let r := prim gamma R.
  Let al := GetSpeedOfSound gamma (state gamma L).
  Let ar := GetSpeedOfSound gamma (state gamma R).
  Let el := p_p l / powR (p_rho l) gamma.
  Let er := p_p r / powR (p_rho r) gamma.
  Let il := p_u l + 2 * al / (gamma - 1).
  Let ir := p_u r - 2 * ar / (gamma - 1).

  Lemma structure_start : py_wave_structure fsolve fuel gamma L R =
    if Rle_dec il ir then
      if Rlt_dec (p_u l - al) il then if Rle_dec il ((il + ir) / 2) then if Rle_dec ((il + ir) / 2) ir then if Rlt_dec ir (p_u r + ar) then
        Some (mkWaves l r (el, il) (er, ir) None (p_u l - al) il ((il + ir) / 2) ir (p_u r + ar))
      else None else None else None else None
    else
      do p_2 <- py_star_pressure fsolve fuel gamma l r;
      do f_left <- py_f gamma p_2 (p_p l) (p_rho l);
      do f_right <- py_f gamma p_2 (p_p r) (p_rho r);
      let u_2 := (p_u l - f_left + p_u r + f_right) / 2 in
      do w1 <- py_wave_1 gamma al u_2 p_2 l;
      do w3 <- py_wave_3 gamma ar u_2 p_2 r;
      let '(rho_2_left, s1l, s1r) := w1 in
      let '(rho_2_right, s3l, s3r) := w3 in
      Some (mkWaves l r (el, il) (er, ir) (Some (mkStar p_2 u_2 rho_2_left rho_2_right)) s1l s1r u_2 s3l s3r).
  Proof.
    destruct PL as [A B], PR as [C D]. unfold py_wave_structure. rewrite !c2p_ok by lra. cbn [bind].
    destruct (Req_EM_T (pressure1 gamma L * pressure1 gamma R) 0) as [Z|_]; [nra|].
    rewrite !a_eq by auto. cbn [bind].
    assert (0 < powR (a0 L) gamma) by (rewrite powR_pos by auto; apply exp_pos).
    assert (0 < powR (a0 R) gamma) by (rewrite powR_pos by auto; apply exp_pos).
    rewrite !div_ok by lra. cbn [bind].
    pose proof (physical_sound gamma (state gamma L) (state_physical gamma L PL)) as S1.
    pose proof (physical_sound gamma (state gamma R) (state_physical gamma R PR)) as S2.
    cbn [state mass energy] in S1, S2. rewrite <- S1, <- S2. reflexivity.
  Qed.

  Lemma escape_l : il = escape_left gamma (state gamma L).
  Proof. unfold il, escape_left. fold al. cbn [state mX l prim p_u]. field. lra. Qed.
  Lemma escape_r : ir = escape_right gamma (state gamma R).
  Proof. unfold ir, escape_right. fold ar. cbn [state mX r prim p_u]. field. lra. Qed.
  Lemma al_pos : 0 < al.
  Proof. apply Proof_Euler.sound_pos; [lra|]. apply state_physical; auto. Qed.
  Lemma ar_pos : 0 < ar.
  Proof. apply Proof_Euler.sound_pos; [lra|]. apply state_physical; auto. Qed.

  Theorem solution p : ~ vacuum_between gamma (state gamma L) (state gamma R) ->
    py_star_pressure fsolve fuel gamma l r = Some p -> 0 < p -> py_func gamma l r p = Some 0 ->
    resolved (/ 10 ^ 10) p (p_p l) -> resolved (/ 10 ^ 8) p (p_p r) ->
    exists W u, py_wave_structure fsolve fuel gamma L R = Some W /\
      joined gamma Wave1 (state gamma L) p u /\ joined gamma Wave3 (state gamma R) p u /\
      forall s, exists w, py_value_at gamma W s = Some (Num (conserved gamma (mass w) (mX w) (energy w))) /\
        on_ray gamma (state gamma L) (state gamma R) p u s w.
  Proof.
    intros V Sp Hp Z Rl Rr. 
    assert (Pl : physical (tup l)) by (apply state_physical; auto).
    assert (Pr : physical (tup r)) by (apply state_physical; auto).
    rewrite structure_start. destruct (Rle_dec il ir) as [X|_].
    { exfalso. apply V. unfold vacuum_between. rewrite escape_l, escape_r in X. exact X. }
    rewrite Sp. cbn [bind]. rewrite func_eq in Z by auto. injection Z as Z. unfold pf in Z. cbn [mass mX energy tup] in Z.
    pose proof Pl as [A B]. pose proof Pr as [C D]. cbn in A, B, C, D.
    rewrite !f_eq by auto. cbn [bind].
    set (u := p_u l - change gamma (p_rho l) (p_p l) p).
    assert (Ur : u = p_u r + change gamma (p_rho r) (p_p r) p) by (unfold u; lra).
    replace ((u + p_u r + change gamma (p_rho r) (p_p r) p) / 2) with u by lra.
    destruct (wave_1_seen gamma l p u G Pl Hp eq_refl Rl) as (rl & s1l & s1r & E1 & S1).
    destruct (wave_3_seen gamma r p u G Pr Hp Ur Rr) as (rr & s3l & s3r & E3 & S3).
    cbv zeta. change (GetSpeedOfSound gamma (tup l)) with al in *. change (GetSpeedOfSound gamma (tup r)) with ar in *.
    rewrite E1, E3. cbn [bind]. eexists. exists u. split; [reflexivity|]. split; [|split].
    - apply joined_both; auto. unfold u. cbn. lra.
    - apply joined_both; auto. rewrite Ur. cbn. lra.
    - intros s. rewrite value_halves. cbn [w_left w_right w_inv_left w_inv_right fst snd slope_1_left slope_1_right slope_2 slope_3_left slope_3_right].
      unfold star_left, star_right. cbn [w_star option_map s_rho_left s_rho_right s_u s_p].
      destruct (Rlt_dec s u) as [Y|Y].
      + destruct (S1 s Y) as (x & F & Sx). fold il el in F. rewrite F. cbn [bind give_tup].
        exists x. unfold give. rewrite p2c_ok by lra. cbn [bind]. split; [reflexivity|]. split; [auto|lra].
      + destruct (S3 s ltac:(lra)) as (x & F & Sx). fold ir er in F. rewrite F. cbn [bind give_tup].
        exists x. unfold give. rewrite p2c_ok by lra. cbn [bind]. split; [reflexivity|]. split; [lra|auto].
  Qed.

  (** ** Vacuum *)
  Lemma vacuum_structure : vacuum_between gamma (state gamma L) (state gamma R) ->
    py_wave_structure fsolve fuel gamma L R =
      Some (mkWaves l r (el, il) (er, ir) None (p_u l - al) il ((il + ir) / 2) ir (p_u r + ar)).
  Proof.
    intros V. rewrite structure_start. pose proof al_pos. pose proof ar_pos.
    assert (il <= ir) by (rewrite escape_l, escape_r; exact V).
    assert (0 < 2 * al / (gamma - 1)) by (apply Rdiv_lt_0_compat; lra).
    assert (0 < 2 * ar / (gamma - 1)) by (apply Rdiv_lt_0_compat; lra).
    destruct (Rle_dec il ir); [|lra]. destruct (Rlt_dec (p_u l - al) il) as [_|X]; [|exfalso; apply X; unfold il; lra].
    destruct (Rle_dec il ((il + ir) / 2)); [|lra]. destruct (Rle_dec ((il + ir) / 2) ir); [|lra].
    destruct (Rlt_dec ir (p_u r + ar)) as [_|X]; [|exfalso; apply X; unfold ir; lra]. reflexivity.
  Qed.

  Theorem vacuum_nan s : vacuum_between gamma (state gamma L) (state gamma R) ->
    escape_left gamma (state gamma L) < s <= escape_right gamma (state gamma R) ->
    exists W, py_wave_structure fsolve fuel gamma L R = Some W /\ py_value_at gamma W s = Some NaN3.
  Proof.
    intros V H. eexists. split; [apply vacuum_structure; auto|]. rewrite <- escape_l, <- escape_r in H.
    pose proof al_pos. pose proof ar_pos.
    assert (0 < 2 * al / (gamma - 1)) by (apply Rdiv_lt_0_compat; lra).
    assert (0 < 2 * ar / (gamma - 1)) by (apply Rdiv_lt_0_compat; lra).
    unfold py_value_at. cbn [slope_1_left slope_1_right slope_2 slope_3_left slope_3_right w_star].
    destruct (Rlt_dec s ((il + ir) / 2)).
    - destruct (Rle_dec s (p_u l - al)) as [X|_]; [exfalso; unfold il in H; lra|].
      destruct (Rgt_dec s il); [reflexivity|lra].
    - destruct (Rge_dec s (p_u r + ar)) as [X|_]; [exfalso; unfold ir in H; lra|].
      destruct (Rle_dec s ir); [reflexivity|lra].
  Qed.

  Theorem vacuum_flux : vacuum_between gamma (state gamma L) (state gamma R) ->
    escape_left gamma (state gamma L) < 0 <= escape_right gamma (state gamma R) ->
    py_exact_flux fsolve fuel gamma L R = None.
  Proof.
    intros V H. destruct (vacuum_nan 0 V H) as (W & E & F). unfold py_exact_flux, py_get_value.
    rewrite E. cbn [bind]. destruct (Req_EM_T 1 0); [lra|]. replace (0 / 1) with 0 by field. rewrite F. reflexivity.
  Qed.

  (** outside of the vacuum *)
  Theorem vacuum_outside s : vacuum_between gamma (state gamma L) (state gamma R) ->
    s < escape_left gamma (state gamma L) \/ escape_right gamma (state gamma R) < s ->
    exists W w, py_wave_structure fsolve fuel gamma L R = Some W /\
      py_value_at gamma W s = Some (Num (conserved gamma (mass w) (mX w) (energy w))) /\
      (w = state gamma L /\ s <= characteristic gamma Wave1 (state gamma L) \/
       w = state gamma R /\ characteristic gamma Wave3 (state gamma R) <= s \/
       physical w /\ same_entropy gamma (state gamma L) w /\ same_invariant gamma Wave1 (state gamma L) w /\ characteristic gamma Wave1 w = s \/
       physical w /\ same_entropy gamma (state gamma R) w /\ same_invariant gamma Wave3 (state gamma R) w /\ characteristic gamma Wave3 w = s).
  Proof.
    intros V H. eexists.
    assert (Pl : physical (tup l)) by (apply state_physical; auto).
    assert (Pr : physical (tup r)) by (apply state_physical; auto).
    assert (il <= ir) as I by (rewrite escape_l, escape_r; exact V).
    rewrite <- escape_l, <- escape_r in H. pose proof al_pos. pose proof ar_pos.
    set (rr := (gamma - 1) / (gamma + 1)). assert (0 < rr) as Hr by (apply Rdiv_lt_0_compat; lra).
    set (K := 2 / (gamma - 1)). assert (0 < K) as HK by (apply Rdiv_lt_0_compat; lra).
    assert (rr * (1 + K) = 1) as HrK by (unfold rr, K; field; lra).
    destruct (Rlt_dec s ((il + ir) / 2)) as [Y|Y].
    - destruct (Rle_dec s (p_u l - al)) as [X|X].
      + exists (state gamma L). split; [apply vacuum_structure; auto|]. rewrite value_halves.
        cbn [w_left w_right w_inv_left w_inv_right fst snd slope_1_left slope_1_right slope_2 slope_3_left slope_3_right].
        destruct (Rlt_dec s ((il + ir) / 2)); [|lra]. unfold half_1. destruct (Rle_dec s (p_u l - al)); [|lra].
        cbn [bind give_tup]. unfold give. rewrite p2c_ok by lra. split; [reflexivity|]. left. split; [reflexivity|].
        unfold characteristic. fold al. cbn [shock_sign state mX]. cbn [l prim p_u] in *. lra.
      + assert (Sl : s < il) by lra.
        destruct (fan_1 gamma l s il G Pl ltac:(lra)) as (x & F1 & F2). fold rr in F1.
        destruct (inside_expansion gamma (tup l) (il - s) G Pl ltac:(lra)) as (I1 & I2 & I3 & I4). fold rr in I2, I3.
        rewrite <- F2 in I1, I2, I3, I4. rewrite Rabs_right in I3 by (apply Rle_ge, Rmult_le_pos; lra).
        rewrite moving_sound in I3. cbn [moving mX] in I2.
        exists x. split; [apply vacuum_structure; auto|]. rewrite value_halves.
        cbn [w_left w_right w_inv_left w_inv_right fst snd slope_1_left slope_1_right slope_2 slope_3_left slope_3_right].
        destruct (Rlt_dec s ((il + ir) / 2)); [|lra]. unfold half_1. destruct (Rle_dec s (p_u l - al)); [lra|].
        destruct (Rgt_dec s il); [lra|]. fold rr. unfold el. rewrite F1. cbn [bind give_tup]. unfold give. rewrite p2c_ok by lra.
        split; [reflexivity|]. right. right. left. split; [exact I1|]. split; [exact I4|]. split.
        * unfold same_invariant. rewrite I3. fold al K. cbn [shock_sign].
          replace (mX x) with (s + rr * (il - s)) by lra.
          replace (s + rr * (il - s) - -1 * (K * (rr * (il - s)))) with (s + rr * (1 + K) * (il - s)) by ring.
          rewrite HrK. unfold il, K. cbn [state mX l prim p_u]. field. lra.
        * unfold characteristic. rewrite I3. cbn [shock_sign]. lra.
    - destruct (Rge_dec s (p_u r + ar)) as [X|X].
      + exists (state gamma R). split; [apply vacuum_structure; auto|]. rewrite value_halves.
        cbn [w_left w_right w_inv_left w_inv_right fst snd slope_1_left slope_1_right slope_2 slope_3_left slope_3_right].
        destruct (Rlt_dec s ((il + ir) / 2)); [lra|]. unfold half_3. destruct (Rge_dec s (p_u r + ar)); [|lra].
        cbn [bind give_tup]. unfold give. rewrite p2c_ok by lra. split; [reflexivity|]. right. left. split; [reflexivity|].
        unfold characteristic. fold ar. cbn [shock_sign state mX]. cbn [r prim p_u] in *. lra.
      + assert (Sl : ir < s) by lra.
        destruct (fan_3 gamma r s ir G Pr ltac:(lra)) as (x & F1 & F2). fold rr in F1.
        destruct (inside_expansion gamma (tup r) (ir - s) G Pr ltac:(lra)) as (I1 & I2 & I3 & I4). fold rr in I2, I3.
        rewrite <- F2 in I1, I2, I3, I4. rewrite Rabs_left in I3 by nra.
        rewrite moving_sound in I3. cbn [moving mX] in I2.
        exists x. split; [apply vacuum_structure; auto|]. rewrite value_halves.
        cbn [w_left w_right w_inv_left w_inv_right fst snd slope_1_left slope_1_right slope_2 slope_3_left slope_3_right].
        destruct (Rlt_dec s ((il + ir) / 2)); [lra|]. unfold half_3. destruct (Rge_dec s (p_u r + ar)); [lra|].
        destruct (Rle_dec s ir); [lra|]. fold rr. unfold er. rewrite F1. cbn [bind give_tup]. unfold give. rewrite p2c_ok by lra.
        split; [reflexivity|]. right. right. right. split; [exact I1|]. split; [exact I4|]. split.
        * unfold same_invariant. rewrite I3. fold ar K. cbn [shock_sign].
          replace (mX x) with (s + rr * (ir - s)) by lra.
          replace (s + rr * (ir - s) - 1 * (K * - (rr * (ir - s)))) with (s + rr * (1 + K) * (ir - s)) by ring.
          rewrite HrK. unfold ir, K. cbn [state mX r prim p_u]. field. lra.
        * unfold characteristic. rewrite I3. cbn [shock_sign]. lra.
  Qed.
End Solver.
