(** C172, C173: modes and discrete Fourier coefficients of the Python package *)
From Coq Require Import Reals List Arith ZArith Lra Lia.
From Verif Require Import Arrays RSum Model_PyEuler Model_PyWaves.
Import ListNotations.
Open Scope R_scope.

(** ** C172 *)
Lemma lower_spec n : (1 <= n)%Z -> forall fuel i, (i <= Z.of_nat fuel)%Z -> exists q j, lower (S fuel) n i = Some j /\ (j <= n)%Z /\ (i = j + 2 * n * q)%Z /\ (0 <= q)%Z /\ (- n < j \/ j = i)%Z.
Proof.
  intros N. induction fuel as [|fuel IH]; intros i I.
  - cbn [lower]. destruct (Z.ltb_spec n i); [lia|]. exists 0%Z, i. repeat split; lia.
  - change (lower (S (S fuel)) n i) with (if (n <? i)%Z then lower (S fuel) n (i - n * 2)%Z else Some i). destruct (Z.ltb_spec n i) as [L|L]; [|exists 0%Z, i; repeat split; lia].
    destruct (IH (i - n * 2)%Z ltac:(lia)) as (q & j & E & J & Q & P & R). exists (q + 1)%Z, j. split; [exact E|]. repeat split; lia.
Qed.
Lemma raise_spec n : (1 <= n)%Z -> forall fuel i, (- i <= Z.of_nat fuel)%Z -> (i <= n)%Z -> exists q j, raise (S fuel) n i = Some j /\ (- n < j <= n)%Z /\ (i = j + 2 * n * q)%Z.
Proof.
  intros N. induction fuel as [|fuel IH]; intros i I J.
  - cbn [raise]. destruct (Z.leb_spec i (- n)); [lia|]. exists 0%Z, i. repeat split; lia.
  - change (raise (S (S fuel)) n i) with (if (i <=? - n)%Z then raise (S fuel) n (i + n * 2)%Z else Some i). destruct (Z.leb_spec i (- n)) as [L|L]; [|exists 0%Z, i; repeat split; lia].
    destruct (IH (i + n * 2)%Z ltac:(lia) ltac:(lia)) as (q & j & E & P & Q). exists (q - 1)%Z, j. split; [exact E|]. split; [exact P|lia].
Qed.
(** both assertions hold, and the mode is the one reached by shifts of the period and by reflection *)
Theorem py_physical_mode n kappa_h : (1 <= n)%Z -> exists fuel m, (forall more, (fuel <= more)%nat -> physical_mode more n kappa_h = Some m) /\ (0 <= m < n)%Z /\
  exists q, (IZR (m + 2 * n * q) * PI <= kappa_h < (IZR (m + 2 * n * q) + 1) * PI) \/ (IZR (-1 - m + 2 * n * q) * PI <= kappa_h < (IZR (-1 - m + 2 * n * q) + 1) * PI).
Proof.
  intros N. set (i := Int_part (kappa_h / PI)). exists (S (Z.to_nat (Z.abs i) + Z.to_nat n))%nat.
  assert (Fl : IZR i * PI <= kappa_h < (IZR i + 1) * PI).
  { destruct (base_Int_part (kappa_h / PI)) as (A & B). fold i in A, B. pose proof PI_RGT_0 as P. assert (E : kappa_h = kappa_h / PI * PI) by (field; lra). set (z := kappa_h / PI) in *. clearbody z. rewrite E. split; [apply Rmult_le_compat_r; lra|apply Rmult_lt_compat_r; lra]. }
  assert (H : exists m, (0 <= m < n)%Z /\ (exists q, i = m + 2 * n * q \/ i = -1 - m + 2 * n * q)%Z /\ forall more, (S (Z.to_nat (Z.abs i) + Z.to_nat n) <= more)%nat -> physical_mode more n kappa_h = Some m).
  { assert (U : exists a b j, (i = j + 2 * n * (a + b))%Z /\ (- n < j <= n)%Z /\ forall more, (S (Z.to_nat (Z.abs i) + Z.to_nat n) <= more)%nat -> (do x <- lower more n i; raise more n x) = Some j).
    { destruct (lower_spec n N (Z.to_nat (Z.abs i) + Z.to_nat n) i ltac:(lia)) as (a & x & E & X & Q & P & W). destruct (raise_spec n N (Z.to_nat (Z.abs i) + Z.to_nat n) x ltac:(lia) X) as (b & j & E' & J & Q').
      exists a, b, j. split; [lia|]. split; [exact J|]. intros more M. destruct more as [|more]; [lia|]. destruct (lower_spec n N more i ltac:(lia)) as (a2 & x2 & E2 & X2 & Q2 & P2 & W2). rewrite E2. cbn [bind].
      destruct (raise_spec n N more x2 ltac:(lia) X2) as (b2 & j2 & E3 & J2 & Q3). rewrite E3. f_equal. assert (j2 - j = 2 * n * (a + b - a2 - b2))%Z by lia. assert (a + b - a2 - b2 = 0)%Z by nia. nia. }
    destruct U as (a & b & j & I & J & M).
    assert (Run : forall more, (S (Z.to_nat (Z.abs i) + Z.to_nat n) <= more)%nat -> physical_mode more n kappa_h = Some (if (j <? 0)%Z then (-1 - j)%Z else (j - (if (j =? n)%Z then 1 else 0))%Z)).
    { intros more Hm. specialize (M more Hm). unfold physical_mode. fold i. destruct (lower more n i) as [x|]; [|discriminate]. cbn [bind] in *. rewrite M. cbn [bind].
      destruct (Z.ltb_spec (- n) j), (Z.leb_spec j n); try lia. cbn [andb negb]. destruct (Z.ltb_spec j 0) as [Neg|Pos]; [|destruct (Z.eqb_spec j n)].
      - destruct (Z.leb_spec 0 (-1 - j)), (Z.ltb_spec (-1 - j) n); try lia. reflexivity.
      - destruct (Z.leb_spec 0 (j - 1)), (Z.ltb_spec (j - 1) n); try lia. reflexivity.
      - destruct (Z.leb_spec 0 (j - 0)), (Z.ltb_spec (j - 0) n); try lia. reflexivity. }
    eexists. split; [|split; [|exact Run]].
    - destruct (Z.ltb_spec j 0); [lia|]. destruct (Z.eqb_spec j n); lia.
    - destruct (Z.ltb_spec j 0); [exists (a + b)%Z; right; lia|]. destruct (Z.eqb_spec j n); [exists (a + b + 1)%Z; right; lia|exists (a + b)%Z; left; lia]. }
  destruct H as (m & M & (q & Q) & Run). exists m. split; [exact Run|]. split; [exact M|]. exists q. destruct Q as [<- | <-]; [left|right]; exact Fl.
Qed.
Print Assumptions py_physical_mode.
(** hence the curve repeats with the period *)
Lemma floor_unique x i : IZR i * PI <= x < (IZR i + 1) * PI -> forall j, IZR j * PI <= x < (IZR j + 1) * PI -> j = i.
Proof.
  intros H j J. pose proof PI_RGT_0. assert (A : IZR i < IZR j + 1) by (apply (Rmult_lt_reg_r PI); lra). assert (B : IZR j < IZR i + 1) by (apply (Rmult_lt_reg_r PI); lra). rewrite <- plus_IZR in A, B. apply lt_IZR in A. apply lt_IZR in B. lia.
Qed.
Theorem py_physical_mode_unique n kappa_h fuel m m' q : (1 <= n)%Z -> physical_mode fuel n kappa_h = Some m -> (0 <= m' < n)%Z ->
  (IZR (m' + 2 * n * q) * PI <= kappa_h < (IZR (m' + 2 * n * q) + 1) * PI) \/ (IZR (-1 - m' + 2 * n * q) * PI <= kappa_h < (IZR (-1 - m' + 2 * n * q) + 1) * PI) -> m = m'.
Proof.
  intros N E M' H. destruct (py_physical_mode n kappa_h N) as (f & m0 & Run & M0 & q0 & H0).
  assert (m = m0).
  { assert (Lm : forall f i x, lower f n i = Some x -> forall g, (f <= g)%nat -> lower g n i = Some x) by (induction f0 as [|f0 IH]; intros i x X g G; [discriminate|]; destruct g; [lia|]; cbn [lower] in *; destruct (n <? i)%Z; [apply IH; [exact X|lia]|exact X]).
    assert (Rm : forall f i x, raise f n i = Some x -> forall g, (f <= g)%nat -> raise g n i = Some x) by (induction f0 as [|f0 IH]; intros i x X g G; [discriminate|]; destruct g; [lia|]; cbn [raise] in *; destruct (i <=? - n)%Z; [apply IH; [exact X|lia]|exact X]).
    assert (physical_mode (fuel + f) n kappa_h = Some m).
    { unfold physical_mode in *. destruct (lower fuel n _) as [x|] eqn:L; [|discriminate]. cbn [bind] in E. destruct (raise fuel n x) as [y|] eqn:Ry; [|discriminate]. rewrite (Lm _ _ _ L) by lia. cbn [bind]. rewrite (Rm _ _ _ Ry) by lia. exact E. }
    rewrite Run in H1 by lia. congruence. }
  subst m0. destruct H as [H|H], H0 as [H0|H0]; pose proof (floor_unique _ _ H _ H0) as U.
  - assert (m - m' = 2 * n * (q - q0))%Z by lia. assert (q - q0 = 0)%Z by nia. nia.
  - assert (-1 - m - m' = 2 * n * (q - q0))%Z by lia. assert (q - q0 = 0 \/ q - q0 = -1 \/ q - q0 <= -2 \/ 1 <= q - q0)%Z as [Z|[Z|[Z|Z]]] by lia; nia.
  - assert (m + 1 + m' = 2 * n * (q - q0))%Z by lia. assert (q - q0 = 0 \/ q - q0 = 1 \/ q - q0 <= -1 \/ 2 <= q - q0)%Z as [Z|[Z|[Z|Z]]] by lia; nia.
  - assert (m' - m = 2 * n * (q - q0))%Z by lia. assert (q - q0 = 0)%Z by nia. nia.
Qed.
Print Assumptions py_physical_mode_unique.
Example py_physical_mode_example : exists fuel, physical_mode fuel 3 (5 / 2 * PI) = Some 2%Z /\ physical_mode fuel 3 (- (5 / 2) * PI) = Some 2%Z /\ physical_mode fuel 3 (17 / 2 * PI) = Some 2%Z.
Proof.
  pose proof PI_RGT_0 as P. destruct (py_physical_mode 3 (5 / 2 * PI) ltac:(lia)) as (f1 & m1 & R1 & _). destruct (py_physical_mode 3 (- (5 / 2) * PI) ltac:(lia)) as (f2 & m2 & R2 & _). destruct (py_physical_mode 3 (17 / 2 * PI) ltac:(lia)) as (f3 & m3 & R3 & _).
  exists (f1 + f2 + f3)%nat. specialize (R1 (f1 + f2 + f3)%nat ltac:(lia)). specialize (R2 (f1 + f2 + f3)%nat ltac:(lia)). specialize (R3 (f1 + f2 + f3)%nat ltac:(lia)). rewrite R1, R2, R3.
  split; [|split]; f_equal.
  - apply (py_physical_mode_unique 3 _ _ _ 2 0 ltac:(lia) R1 ltac:(lia)). left. split; cbn [Z.mul Z.add]; lra.
  - apply (py_physical_mode_unique 3 _ _ _ 2 0 ltac:(lia) R2 ltac:(lia)). right. split; cbn; lra.
  - apply (py_physical_mode_unique 3 _ _ _ 2 1 ltac:(lia) R3 ltac:(lia)). left. split; cbn; lra.
Qed.

(** ** C173 *)
Lemma cos_telescope phi n : 2 * sin (phi / 2) * rsum n (fun j => cos (INR j * phi)) = sin (INR n * phi - phi / 2) + sin (phi / 2).
Proof.
  induction n as [|n IH]; [cbn [rsum INR]; replace (0 * phi - phi / 2) with (- (phi / 2)) by field; rewrite sin_neg; ring|]. cbn [rsum]. rewrite Rmult_plus_distr_l, IH, S_INR.
  replace ((INR n + 1) * phi - phi / 2) with (INR n * phi + phi / 2) by field. rewrite sin_plus, sin_minus. ring.
Qed.
Lemma sin_telescope phi n : 2 * sin (phi / 2) * rsum n (fun j => sin (INR j * phi)) = cos (phi / 2) - cos (INR n * phi - phi / 2).
Proof.
  induction n as [|n IH]; [cbn [rsum INR]; replace (0 * phi - phi / 2) with (- (phi / 2)) by field; rewrite cos_neg; ring|]. cbn [rsum]. rewrite Rmult_plus_distr_l, IH, S_INR.
  replace ((INR n + 1) * phi - phi / 2) with (INR n * phi + phi / 2) by field. rewrite cos_plus, cos_minus. ring.
Qed.
Lemma sines_vanish n d : (0 < d < n)%nat -> rsum n (fun j => cos (INR j * (INR d * (2 * PI / INR n)))) = 0 /\ rsum n (fun j => sin (INR j * (INR d * (2 * PI / INR n)))) = 0.
Proof.
  intros D. set (phi := INR d * (2 * PI / INR n)). assert (Nn : 0 < INR n) by (apply lt_0_INR; lia). assert (Dp : 0 < INR d) by (apply lt_0_INR; lia). assert (Dn : INR d < INR n) by (apply lt_INR; lia). pose proof PI_RGT_0 as P.
  assert (S : 0 < sin (phi / 2)).
  { apply sin_gt_0; unfold phi.
    - replace (INR d * (2 * PI / INR n) / 2) with (INR d * PI / INR n) by (field; lra). apply Rdiv_lt_0_compat; [apply Rmult_lt_0_compat; assumption|exact Nn].
    - replace (INR d * (2 * PI / INR n) / 2) with (INR d / INR n * PI) by (field; lra). rewrite <- (Rmult_1_l PI) at 2. apply Rmult_lt_compat_r; [exact P|]. apply (Rmult_lt_reg_r (INR n)); [exact Nn|]. replace (INR d / INR n * INR n) with (INR d) by (field; lra). lra. }
  assert (E : INR n * phi - phi / 2 = - (phi / 2) + 2 * INR d * PI) by (unfold phi; field; lra).
  pose proof (cos_telescope phi n) as C. pose proof (sin_telescope phi n) as T. rewrite E in C, T. rewrite sin_period, sin_neg in C. rewrite cos_period, cos_neg in T.
  split; [apply (Rmult_eq_reg_l (2 * sin (phi / 2))); lra|apply (Rmult_eq_reg_l (2 * sin (phi / 2))); lra].
Qed.
(** equidistant midpoints *)
Lemma sample_is x_left x_right n s j : (1 <= n)%nat -> (1 <= s)%nat -> (j < n * s)%nat -> sample_point x_left x_right n s j = x_left + (INR j + 1 / 2) * ((x_right - x_left) / INR (n * s)).
Proof.
  intros N S J. unfold sample_point, linspace_at. assert (Np : 0 < INR n) by (apply lt_0_INR; lia). assert (Sp : 0 < INR s) by (apply lt_0_INR; lia). rewrite mult_INR. destruct (Nat.leb_spec (n * s) 1) as [L|L].
  - assert (j = 0)%nat by nia. subst j. cbn [INR]. field. lra.
  - rewrite minus_INR by lia. rewrite mult_INR. cbn [INR]. assert (I : 1 < INR n * INR s) by (rewrite <- mult_INR; replace 1 with (INR 1) by reflexivity; apply lt_INR; lia). field. repeat split; lra.
Qed.
(** the coefficient of a wave with number [m] is its value at the first point for [k = m], and zero for the other numbers below that of the samples *)
Theorem py_fourier x_left x_right n s k m : (1 <= n)%nat -> (1 <= s)%nat -> x_left < x_right ->
  let kappa := INR m * PI / ((x_right - x_left) / 2) in
  let c := complex_coeff x_left x_right n s k (fun x => cos (kappa * x)) (fun x => sin (kappa * x)) in
  let x_0 := sample_point x_left x_right n s 0 in
  (k = m -> c = (cos (kappa * x_0), sin (kappa * x_0))) /\ (k <> m -> (k < m + n * s)%nat -> (m < k + n * s)%nat -> c = (0, 0)).
Proof.
  intros N S X. cbv zeta. set (ns := (n * s)%nat). assert (Ns : (1 <= ns)%nat) by (unfold ns; nia). assert (Np : 0 < INR ns) by (apply lt_0_INR; lia). set (theta := 2 * PI / INR ns). set (kappa := INR m * PI / ((x_right - x_left) / 2)). set (x_0 := sample_point x_left x_right n s 0).
  assert (Ph : forall j, (j < ns)%nat -> kappa * sample_point x_left x_right n s j = kappa * x_0 + INR j * INR m * theta).
  { intros j J. unfold x_0. rewrite !sample_is by (try assumption; unfold ns in *; lia). fold ns. unfold kappa, theta. cbn [INR]. field. split; lra. }
  set (A := rsum ns (fun j => cos (INR j * ((INR m - INR k) * theta)))). set (B := rsum ns (fun j => sin (INR j * ((INR m - INR k) * theta)))).
  assert (V : complex_coeff x_left x_right n s k (fun x => cos (kappa * x)) (fun x => sin (kappa * x)) = ((cos (kappa * x_0) * A - sin (kappa * x_0) * B) / INR ns, (sin (kappa * x_0) * A + cos (kappa * x_0) * B) / INR ns)).
  { unfold complex_coeff, kth_fourier_coeff. cbn [fst snd]. fold ns. fold theta. f_equal.
    - unfold Rdiv. rewrite <- Rmult_minus_distr_r. f_equal. rewrite <- rsum_sub. unfold A, B. rewrite <- !rsum_mul_l, <- rsum_sub. apply rsum_ext. intros j J. rewrite (Ph j J). rewrite <- cos_plus. rewrite <- cos_plus. f_equal. ring.
    - unfold Rdiv. rewrite <- Rmult_plus_distr_r. f_equal. rewrite <- rsum_add. unfold A, B. rewrite <- !rsum_mul_l, <- rsum_add. apply rsum_ext. intros j J. rewrite (Ph j J). set (p := kappa * x_0 + INR j * INR m * theta). set (q := - (INR j * INR k) * theta). transitivity (sin (p + q)); [rewrite sin_plus; ring|]. transitivity (sin (kappa * x_0 + INR j * ((INR m - INR k) * theta))); [f_equal; unfold p, q; ring|rewrite sin_plus; reflexivity]. }
  rewrite V. split.
  - intros ->. assert (A1 : A = INR ns). { unfold A. rewrite (rsum_ext _ _ (fun _ => 1)); [rewrite rsum_const; ring|]. intros j J. replace (INR j * ((INR m - INR m) * theta)) with 0 by ring. apply cos_0. }
    assert (B0 : B = 0). { unfold B. apply rsum_zero. intros j J. replace (INR j * ((INR m - INR m) * theta)) with 0 by ring. apply sin_0. }
    rewrite A1, B0. f_equal; field; lra.
  - intros D D1 D2. assert (Z : A = 0 /\ B = 0).
    { destruct (Nat.lt_total k m) as [L|[L|L]]; [|contradiction|].
      - unfold A, B. rewrite <- minus_INR by lia. apply (sines_vanish ns (m - k)). lia.
      - destruct (sines_vanish ns (k - m)) as (C & T); [lia|]. rewrite minus_INR in C, T by lia. fold theta in C, T. unfold A, B. split.
        + rewrite <- C. apply rsum_ext. intros j J. rewrite <- cos_neg. f_equal. ring.
        + replace 0 with (- 0) by ring. rewrite <- T. rewrite <- rsum_opp. apply rsum_ext. intros j J. rewrite <- sin_neg. f_equal. ring. }
    destruct Z as (-> & ->). f_equal; field; lra.
Qed.
Print Assumptions py_fourier.
Example py_fourier_example : complex_coeff 0 4 2 2 1 (fun x => cos (INR 1 * PI / ((4 - 0) / 2) * x)) (fun x => sin (INR 1 * PI / ((4 - 0) / 2) * x)) = (cos (PI / 4), sin (PI / 4)) /\
  complex_coeff 0 4 2 2 3 (fun x => cos (INR 1 * PI / ((4 - 0) / 2) * x)) (fun x => sin (INR 1 * PI / ((4 - 0) / 2) * x)) = (0, 0).
Proof.
  destruct (py_fourier 0 4 2 2 1 1) as (A & _); try lia; try lra. destruct (py_fourier 0 4 2 2 3 1) as (_ & B); try lia; try lra. split; [|apply B; lia]. rewrite (A eq_refl). rewrite sample_is by lia.
  replace (INR 1 * PI / ((4 - 0) / 2) * (0 + (INR 0 + 1 / 2) * ((4 - 0) / INR (2 * 2)))) with (PI / 4) by (cbn; field). reflexivity.
Qed.
