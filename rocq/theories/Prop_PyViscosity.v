(** C165, C166, C167, C168: artificial viscosity of the Python package *)
From Coq Require Import Reals List Arith ZArith Lra Lia Bool.
From Verif Require Import Arrays RSum Model_PyEuler Model_PyIntegrator Proof_PyIntegrator Spec_PyExpansion Model_PyDetector Proof_PyDetector Model_PyViscosity.
Import ListNotations.
Open Scope R_scope.

(** ** C165 *)
Lemma ln10 : 0 < ln 10. Proof. rewrite <- ln_1. apply ln_increasing; lra. Qed.
Lemma gap_is degree s : (1 <= degree)%nat -> 0 < s -> log10 s - -4 * log10 (INR degree) = log10 (s * INR degree ^ 4).
Proof.
  intros D S. assert (P : 0 < INR degree) by (apply lt_0_INR; lia). unfold log10. pose proof ln10.
  replace (s * INR degree ^ 4) with (s * (INR degree * (INR degree * (INR degree * INR degree)))) by ring.
  rewrite !ln_mult; repeat apply Rmult_lt_0_compat; try assumption. field. lra.
Qed.
Lemma log10_power k : log10 (Rpower 10 k) = k.
Proof. unfold log10, Rpower. rewrite ln_exp. field. pose proof ln10. lra. Qed.
Lemma sine_range kappa t : 0 < kappa -> - kappa <= t <= kappa -> - (PI / 2) <= t / kappa * PI / 2 <= PI / 2.
Proof.
  intros K T. pose proof PI_RGT_0. assert (A : -1 <= t / kappa <= 1). { split; [apply (Rmult_le_reg_r kappa)|apply (Rmult_le_reg_r kappa)]; try assumption; replace (t / kappa * kappa) with t by (field; lra); lra. }
  split; nra.
Qed.
Theorem py_persson_viscosity kappa degree length : 0 < kappa -> (1 <= degree)%nat -> 0 < length ->
  (forall s, 0 <= persson_nu kappa degree length s <= length / INR degree) /\
  (forall s s', 0 <= s -> s <= s' -> persson_nu kappa degree length s <= persson_nu kappa degree length s') /\
  (forall s, Rpower 10 kappa <= s * INR degree ^ 4 -> persson_nu kappa degree length s = length / INR degree) /\
  (forall s, s * INR degree ^ 4 <= Rpower 10 (- kappa) -> persson_nu kappa degree length s = 0) /\
  persson_nu kappa degree length (/ INR degree ^ 4) = length / INR degree / 2.
Proof.
  intros K D L. assert (P : 0 < INR degree) by (apply lt_0_INR; lia). assert (P4 : 0 < INR degree ^ 4) by (apply pow_lt, P). assert (N : 0 < length / INR degree) by (apply Rdiv_lt_0_compat; assumption).
  set (nu := length / INR degree) in *.
  set (f := fun t => if Rlt_dec kappa t then nu else if Rlt_dec (- kappa) t then nu * (1 / 2 * (1 + sin (t / kappa * PI / 2))) else 0).
  assert (E : forall s, 0 < s -> persson_nu kappa degree length s = f (log10 (s * INR degree ^ 4))).
  { intros s Hs. unfold persson_nu. rewrite gap_is by assumption. destruct (Rle_dec s 0); [lra|]. reflexivity. }
  assert (E0 : forall s, s <= 0 -> persson_nu kappa degree length s = 0) by (intros s Hs; unfold persson_nu; destruct (Rle_dec s 0); [reflexivity|lra]).
  assert (Fr : forall t, 0 <= f t <= nu).
  { intros t. unfold f. destruct (Rlt_dec kappa t); [lra|]. destruct (Rlt_dec (- kappa) t); [|lra]. pose proof (SIN_bound (t / kappa * PI / 2)). split; nra. }
  assert (Fm : forall t u, t <= u -> f t <= f u).
  { intros t u T. destruct (Fr t) as (F1 & F2). destruct (Fr u) as (F3 & F4). unfold f in *. destruct (Rlt_dec kappa t), (Rlt_dec kappa u); try lra. destruct (Rlt_dec (- kappa) t), (Rlt_dec (- kappa) u); try lra.
    apply Rmult_le_compat_l; [lra|]. apply Rmult_le_compat_l; [lra|]. apply Rplus_le_compat_l.
    pose proof (sine_range kappa t K ltac:(lra)). pose proof (sine_range kappa u K ltac:(lra)). pose proof PI_RGT_0.
    apply sin_incr_1; try lra. apply Rmult_le_compat_r; [lra|]. apply Rmult_le_compat_r; [lra|]. apply Rmult_le_compat_r; [left; apply Rinv_0_lt_compat, K|exact T]. }
  split; [|split; [|split; [|split]]].
  - intros s. destruct (Rle_dec s 0) as [H|H]; [rewrite E0 by exact H; lra|rewrite E by lra; apply Fr].
  - intros s s' S S'. destruct (Rle_dec s 0) as [H|H].
    + rewrite (E0 s H). destruct (Rle_dec s' 0) as [H'|H']; [rewrite E0 by exact H'; lra|rewrite E by lra; apply Fr].
    + rewrite !E by lra. apply Fm. apply log10_le; [apply Rmult_lt_0_compat; lra|]. apply Rmult_le_compat_r; lra.
  - intros s H. assert (Q : 0 < Rpower 10 kappa) by apply exp_pos. assert (S : 0 < s) by (apply (Rmult_lt_reg_r (INR degree ^ 4)); [exact P4|]; lra).
    rewrite E by exact S. pose proof (log10_le _ _ Q H) as T. rewrite log10_power in T. pose proof (Fm _ _ T) as M. pose proof (Fr (log10 (s * INR degree ^ 4))).
    assert (f kappa = nu); [|lra]. unfold f. destruct (Rlt_dec kappa kappa); [lra|]. destruct (Rlt_dec (- kappa) kappa); [|lra].
    replace (kappa / kappa * PI / 2) with (PI / 2) by (field; lra). rewrite sin_PI2. field.
  - intros s H. destruct (Rle_dec s 0) as [Z|Z]; [apply E0, Z|]. rewrite E by lra. assert (Q : 0 < s * INR degree ^ 4) by (apply Rmult_lt_0_compat; lra).
    pose proof (log10_le _ _ Q H) as T. rewrite log10_power in T. unfold f. destruct (Rlt_dec kappa _); [lra|]. destruct (Rlt_dec (- kappa) _); [lra|reflexivity].
  - rewrite E by (apply Rinv_0_lt_compat, P4). rewrite Rinv_l by lra. rewrite log10_1. unfold f. destruct (Rlt_dec kappa 0); [lra|]. destruct (Rlt_dec (- kappa) 0); [|lra].
    replace (0 / kappa * PI / 2) with 0 by (field; lra). rewrite sin_0. field.
Qed.
Print Assumptions py_persson_viscosity.
Example py_persson_viscosity_example : persson_nu 2 3 6 0 = 0 /\ persson_nu 2 3 6 (/ INR 3 ^ 4) = 1 /\ persson_nu 2 3 6 200 = 2.
Proof.
  destruct (py_persson_viscosity 2 3 6) as (_ & _ & A & B & C); [lra|lia|lra|]. assert (I3 : INR 3 = 3) by (cbn; ring). split; [|split].
  - apply B. rewrite Rmult_0_l. left. apply exp_pos.
  - rewrite C, I3. field.
  - rewrite A; [rewrite I3; field|]. rewrite I3. replace 2 with (INR 2) at 1 by (cbn; ring). rewrite Rpower_pow by lra. lra.
Qed.

(** ** C166 *)
Lemma energy_sum (w j : nat -> R) l : forall e, fold_left (fun energy k => energy + w k * j k ^ 2 / 2) l e = e + fold_right Rplus 0 (map (fun k => w k * j k ^ 2 / 2) l).
Proof. induction l as [|k l IH]; intros e; cbn [fold_left map fold_right]; [ring|]. rewrite IH. ring. Qed.
Lemma jumps_nonneg n (w j : nat -> R) l : (forall k, (k < n)%nat -> 0 <= w k) -> (forall k, In k l -> (k < n)%nat) -> 0 <= jumps_to_energy w j l.
Proof.
  intros W B. unfold jumps_to_energy. rewrite energy_sum. induction l as [|k l IH]; cbn [map fold_right]; [lra|].
  assert (0 <= w k * j k ^ 2) by (apply Rmult_le_pos; [apply W, B; left; reflexivity|apply pow2_ge_0]). specialize (IH ltac:(intros; apply B; right; assumption)). lra.
Qed.
Lemma jumps_zero (w j : nat -> R) l : (forall k, In k l -> j k = 0) -> jumps_to_energy w j l = 0.
Proof.
  intros H. unfold jumps_to_energy. rewrite energy_sum. induction l as [|k l IH]; cbn [map fold_right]; [ring|]. rewrite (H k (or_introl eq_refl)).
  specialize (IH ltac:(intros; apply H; right; assumption)). lra.
Qed.
Lemma half_bounds n : (1 <= n)%nat -> (forall k, In k (seq 0 ((1 + n) / 2)) -> (k < n)%nat) /\ (forall k, In k (seq (n / 2) (n - n / 2)) -> (k < n)%nat).
Proof.
  intros N. split; intros k H; apply in_seq in H; [|lia]. assert ((1 + n) / 2 < 1 + n)%nat by (apply Nat.div_lt; lia). lia.
Qed.
Lemma half_nonneg n mid w p v l that : (forall k, (k < n)%nat -> 0 <= w k) -> (forall k, In k l -> (k < n)%nat) -> 0 <= half_energy n mid w p v l that.
Proof. intros W B. destruct that as [[high low]|]; cbn [half_energy]; [|lra]. apply Rmin_glb; apply (jumps_nonneg n); assumption. Qed.
Lemma half_zero n mid w p v l high low : (forall k, (k < n)%nat -> 0 <= w k) -> (forall k, In k l -> (k < n)%nat) -> (forall k, (k < n)%nat -> high (p k) = v k) -> half_energy n mid w p v l (Some (high, low)) = 0.
Proof.
  intros W B H. cbn [half_energy]. rewrite (jumps_zero w (half_jumps n mid p v high)).
  - apply Rmin_right. apply (jumps_nonneg n); assumption.
  - intros k Hk. unfold half_jumps. rewrite H by (apply B, Hk). replace (v k - v k) with 0 by ring. destruct (Nat.odd n && (k =? mid)%nat); [unfold Rdiv; ring|reflexivity].
Qed.
(** halves of one node add up to the whole *)
Lemma odd_half n j : Nat.odd n = true -> (j / sqrt 2) ^ 2 = j ^ 2 / 2.
Proof. intros _. assert (S : sqrt 2 * sqrt 2 = 2) by (apply sqrt_sqrt; lra). assert (0 < sqrt 2) by (apply sqrt_lt_R0; lra). replace ((j / sqrt 2) ^ 2) with (j ^ 2 / (sqrt 2 * sqrt 2)) by (field; lra). rewrite S. reflexivity. Qed.
(** when both neighbors say the same, the energy is the one of the whole cell *)
Lemma energy_split n w p v f : (1 <= n)%nat ->
  jumps_to_energy w (half_jumps n ((1 + n) / 2 - 1) p v f) (seq 0 ((1 + n) / 2)) + jumps_to_energy w (half_jumps n (n / 2) p v f) (seq (n / 2) (n - n / 2)) =
  rsum n (fun k => w k * (v k - f (p k)) ^ 2 / 2).
Proof.
  intros N. unfold jumps_to_energy. rewrite !energy_sum, !Rplus_0_l. set (g := fun k => w k * (v k - f (p k)) ^ 2 / 2).
  assert (Q : forall a m, fold_right Rplus 0 (map g (seq a m)) = rsum m (fun k => g (a + k)%nat)).
  { intros a m. revert a. induction m as [|m IH]; intros a; [reflexivity|]. cbn [seq map fold_right]. rewrite IH. rewrite (rsum_first m (fun k => g (a + k)%nat)). rewrite Nat.add_0_r. f_equal.
    apply rsum_ext. intros k Hk. f_equal. lia. }
  assert (Ext : forall mid a m, (forall k, (a <= k < a + m)%nat -> Nat.odd n = false \/ k <> mid) -> map (fun k => w k * half_jumps n mid p v f k ^ 2 / 2) (seq a m) = map g (seq a m)).
  { intros mid a m H. apply map_ext_in. intros k Hk. apply in_seq in Hk. unfold half_jumps, g. destruct (H k Hk) as [O|O]; [rewrite O; reflexivity|]. destruct (Nat.eqb_spec k mid); [contradiction|]. rewrite andb_false_r. reflexivity. }
  assert (Sp : forall a b, rsum (a + b) g = rsum a g + rsum b (fun k => g (a + k)%nat)).
  { intros a b. induction b as [|b IHb]; [rewrite Nat.add_0_r; cbn [rsum]; ring|]. replace (a + S b)%nat with (S (a + b)) by lia. cbn [rsum]. rewrite IHb. ring. }
  destruct (Nat.odd n) eqn:O.
  - apply Nat.odd_spec in O as (m & ->). replace ((1 + (2 * m + 1)) / 2)%nat with (m + 1)%nat by (symmetry; replace (1 + (2 * m + 1))%nat with ((m + 1) * 2)%nat by lia; apply Nat.div_mul; lia).
    replace ((2 * m + 1) / 2)%nat with m by (symmetry; rewrite Nat.mul_comm, Nat.div_add_l by lia; cbn; lia). replace (m + 1 - 1)%nat with m by lia. replace (2 * m + 1 - m)%nat with (m + 1)%nat by lia.
    assert (Od : Nat.odd (2 * m + 1) = true) by (apply Nat.odd_spec; exists m; reflexivity).
    assert (Mid : w m * half_jumps (2 * m + 1) m p v f m ^ 2 / 2 = g m / 2).
    { unfold half_jumps, g. rewrite Od, Nat.eqb_refl. cbn [andb]. rewrite (odd_half _ _ Od). field. }
    rewrite seq_app, map_app. rewrite fold_right_app. cbn [Nat.add seq map fold_right]. rewrite (Ext m 0%nat m) by (intros k Hk; right; lia).
    rewrite (Nat.add_1_r m). cbn [seq map fold_right]. replace (S m + 0)%nat with (S m) by lia. rewrite (Ext m (S m) m) by (intros k Hk; right; lia).
    replace (2 * m + 1)%nat with (m + S m)%nat in * by lia. rewrite Mid. rewrite Rplus_0_r.
    assert (Fa : forall l s, fold_right Rplus s (map g l) = fold_right Rplus 0 (map g l) + s) by (induction l as [|k l IHl]; intros s; cbn [map fold_right]; [ring|rewrite IHl; ring]).
    rewrite Fa, !Q. rewrite (Sp m (S m)). rewrite (rsum_first m (fun k => g (m + k)%nat)). rewrite Nat.add_0_r.
    rewrite (rsum_ext m (fun k => g (S m + k)%nat) (fun i => g (m + S i)%nat)) by (intros; f_equal; lia). cbn [Nat.add]. change (fun k : nat => g k) with g. clearbody g. generalize (rsum m (fun i => g (m + S i)%nat)), (rsum m g), (g m). intros; lra.
  - assert (Ev : Nat.even n = true) by (unfold Nat.odd in O; destruct (Nat.even n); [reflexivity|discriminate]). apply Nat.even_spec in Ev as (m & ->).
    replace ((1 + 2 * m) / 2)%nat with m by (symmetry; rewrite Nat.add_comm, Nat.mul_comm, Nat.div_add_l by lia; cbn; lia). replace (2 * m / 2)%nat with m by (symmetry; rewrite Nat.mul_comm; apply Nat.div_mul; lia).
    replace (2 * m - m)%nat with m by lia. rewrite !Ext by (intros; left; reflexivity). rewrite !Q. replace (2 * m)%nat with (m + m)%nat by lia. rewrite Sp. reflexivity.
Qed.
Lemma max_nonneg (radius : R -> R) (v : nat -> R) l : forall a, 0 <= a -> 0 <= fold_left (fun a (i : nat) => Rmax a (radius (v i))) l a.
Proof. induction l as [|i l IH]; intros a A; cbn [fold_left]; [exact A|]. apply IH. apply Rle_trans with a; [exact A|apply Rmax_l]. Qed.
Theorem py_energy_viscosity tau n mat_d weights points values left right radius length degree nu : 0 < tau -> 0 < length -> (1 <= n)%nat -> (1 <= degree)%nat -> (forall k, (k < n)%nat -> 0 <= weights k) ->
  constant_coeff tau n mat_d weights points values left right radius length degree = Some nu ->
  (exists nu_max, max_nu n radius values length degree = Some nu_max /\ 0 <= nu <= nu_max) /\
  (forall that, (left = None \/ left = Some that) -> (right = None \/ right = Some that) -> (forall k, (k < n)%nat -> fst that (points k) = values k) -> nu = 0).
Proof.
  intros T L N D W E. unfold constant_coeff in E. unfold dissipation_rate in E. destruct (Rlt_dec _ 0) as [Dn|]; [|discriminate]. cbn [bind] in E. set (ds := rsum n _) in *. set (en := lazy_half_energy _ _ _ _ _ _) in *.
  assert (Mx : exists q, max_nu n radius values length degree = Some q /\ 0 <= q).
  { unfold max_nu, div. assert (0 < INR degree) by (apply lt_0_INR; lia). destruct (Req_EM_T (INR degree) 0); [lra|]. cbn [bind]. eexists. split; [reflexivity|]. apply Rmult_le_pos; [left; apply Rdiv_lt_0_compat; assumption|apply max_nonneg; lra]. }
  destruct Mx as (q & Q & Qn). rewrite Q in E. cbn [bind] in E. injection E as <-. destruct (half_bounds n N) as (B1 & B2).
  assert (En : 0 <= en) by (unfold en, lazy_half_energy; apply Rplus_le_le_0_compat; apply half_nonneg; assumption).
  assert (Dp : 0 < - ds * tau) by (apply Rmult_lt_0_compat; lra). assert (0 <= en / (- ds * tau)) by (apply Rmult_le_pos; [exact En|left; apply Rinv_0_lt_compat, Dp]).
  split; [exists q; split; [exact Q|]; split; [apply Rmin_glb; assumption|apply Rmin_r]|].
  intros [high low] Hl Hr A. cbn [fst] in A. assert (Z : en = 0).
  { unfold en, lazy_half_energy. assert (half_energy n ((1 + n) / 2 - 1) weights points values (seq 0 ((1 + n) / 2)) left = 0) by (destruct Hl as [->| ->]; [reflexivity|apply half_zero; assumption]).
    assert (half_energy n (n / 2) weights points values (seq (n / 2) (n - n / 2)) right = 0) by (destruct Hr as [->| ->]; [reflexivity|apply half_zero; assumption]). lra. }
  rewrite Z. replace (0 / (- ds * tau)) with 0 by (field; lra). apply Rmin_left, Qn.
Qed.
Print Assumptions py_energy_viscosity.
(** what is measured: with the same straight line as the better approximation on both sides, half of the squared distance, every point once *)
Theorem py_half_energy n weights points values f : (1 <= n)%nat ->
  lazy_half_energy n weights points values (Some (f, f)) (Some (f, f)) = rsum n (fun k => weights k * (values k - f (points k)) ^ 2 / 2).
Proof.
  intros N. unfold lazy_half_energy. cbn [half_energy]. rewrite !Rmin_left by lra. apply energy_split, N.
Qed.
Print Assumptions py_half_energy.
(** ... but a cell where the solution is zero fails an assertion *)
Theorem py_energy_viscosity_refuted : exists values : nat -> R, forall tau n mat_d weights points left right radius length degree,
  constant_coeff tau n mat_d weights points values left right radius length degree = None.
Proof.
  exists (fun _ => 0). intros. unfold constant_coeff, dissipation_rate.
  assert (Z : rsum n (fun i => 0 * rsum n (fun j => mat_d i j * 0)) = 0) by (assert (G : forall m (g : nat -> R), rsum m (fun i => 0 * g i) = 0) by (induction m as [|m IHm]; intros g; cbn [rsum]; [reflexivity|rewrite IHm; ring]); apply (G n (fun i => rsum n (fun j => mat_d i j * 0)))).
  destruct (Rlt_dec _ 0) as [L|]; [exfalso; cbv beta in L; rewrite Z in L; lra|reflexivity].
Qed.
Print Assumptions py_energy_viscosity_refuted.
Example py_energy_viscosity_example : constant_coeff (1 / 2) 2 (fun i j => if (i =? j)%nat then -1 else 0) (fun _ => 1) INR (fun k => 1 + INR k) (Some (fun _ => 0, fun _ => 0)) (Some (fun x => x + 1, fun _ => 0)) (fun _ => 7) 1 1 = Some (1 / 5).
Proof.
  unfold constant_coeff, dissipation_rate. cbn [rsum Nat.eqb INR]. destruct (Rlt_dec _ 0) as [L|L]; [|exfalso; apply L; lra]. cbn [bind]. unfold max_nu, div. cbn [INR]. destruct (Req_EM_T 1 0); [lra|]. cbn [bind]. f_equal.
  unfold lazy_half_energy. replace ((1 + 2) / 2)%nat with 1%nat by reflexivity. replace (2 / 2)%nat with 1%nat by reflexivity. cbn [half_energy Nat.sub seq]. unfold jumps_to_energy, half_jumps. cbn [Nat.odd Nat.even negb andb fold_left seq INR].
  rewrite (Rmin_left (0 + 1 * (1 + 0 - 0) ^ 2 / 2)) by lra. rewrite (Rmin_right _ (0 + 1 * (1 + 1 - (1 + 1)) ^ 2 / 2)) by lra.
  rewrite !(Rmax_right 0 7) by lra. rewrite (Rmax_left 7 7) by lra. match goal with |- Rmin ?a _ = _ => replace a with (1 / 5) by field end. apply Rmin_left. lra.
Qed.

(** ** C167 *)
(** the cells before and after, around the ends *)
Definition before (n i : nat) : nat := if (i =? 0)%nat then (n - 1)%nat else (i - 1)%nat.
Definition after (n i : nat) : nat := if (i =? n - 1)%nat then 0%nat else (i + 1)%nat.
Definition nu_of (d : nat -> option R) (i : nat) : R := match d i with Some nu => nu | None => 0 end.
Lemma nu_before d n i : (i < n)%nat -> get_nu d (Z.of_nat i - 1) n = Some (nu_of d (before n i)).
Proof.
  intros H. unfold get_nu, before, nu_of. destruct (Z.leb_spec (-1) (Z.of_nat i - 1)), (Z.leb_spec (Z.of_nat i - 1) (Z.of_nat n)); try lia. cbn [andb negb].
  destruct (Nat.eqb_spec i 0) as [->|N].
  - destruct (Z.ltb_spec (Z.of_nat 0 - 1) 0); [|lia]. destruct (Z.eqb_spec (Z.of_nat 0 - 1 + Z.of_nat n) (Z.of_nat n)); [lia|]. replace (Z.to_nat (Z.of_nat 0 - 1 + Z.of_nat n)) with (n - 1)%nat by lia. reflexivity.
  - destruct (Z.ltb_spec (Z.of_nat i - 1) 0); [lia|]. destruct (Z.eqb_spec (Z.of_nat i - 1) (Z.of_nat n)); [lia|]. replace (Z.to_nat (Z.of_nat i - 1)) with (i - 1)%nat by lia. reflexivity.
Qed.
Lemma nu_after d n i : (i < n)%nat -> get_nu d (Z.of_nat i + 1) n = Some (nu_of d (after n i)).
Proof.
  intros H. unfold get_nu, after, nu_of. destruct (Z.leb_spec (-1) (Z.of_nat i + 1)), (Z.leb_spec (Z.of_nat i + 1) (Z.of_nat n)); try lia. cbn [andb negb]. destruct (Z.ltb_spec (Z.of_nat i + 1) 0); [lia|].
  destruct (Nat.eqb_spec i (n - 1)) as [E|N]; destruct (Z.eqb_spec (Z.of_nat i + 1) (Z.of_nat n)); try lia; [reflexivity|]. replace (Z.to_nat (Z.of_nat i + 1)) with (i + 1)%nat by lia. reflexivity.
Qed.
(** the parabola through the values at the left end, the center and the right end *)
Lemma parabola inv c m b0 b1 b2 : inverts inv -> x_left c < x_right c -> inv 3%nat (build_a_on_interfaces c) = Some m ->
  let h := (x_right c - x_left c) / 2 in let k i := m i 0%nat * b0 + m i 1%nat * b1 + m i 2%nat * b2 in
  k 0%nat = b0 /\ k 1%nat = (b2 - b1) / (2 * h) /\ k 2%nat = ((b1 + b2) / 2 - b0) / (h * h).
Proof.
  intros I X E h k. assert (H : 0 < h) by (unfold h; lra).
  assert (S : forall i, (i < 3)%nat -> build_a_on_interfaces c i 0 * k 0%nat + build_a_on_interfaces c i 1 * k 1%nat + build_a_on_interfaces c i 2 * k 2%nat = match i with O => b0 | 1%nat => b1 | _ => b2 end).
  { intros i Hi. pose proof (proj1 (I _ _ _ E i 0%nat Hi ltac:(lia))) as S0. pose proof (proj1 (I _ _ _ E i 1%nat Hi ltac:(lia))) as S1. pose proof (proj1 (I _ _ _ E i 2%nat Hi ltac:(lia))) as S2. cbn [rsum] in S0, S1, S2.
    set (a0 := build_a_on_interfaces c i 0) in *. set (a1 := build_a_on_interfaces c i 1) in *. set (a2 := build_a_on_interfaces c i 2) in *.
    transitivity ((0 + a0 * m 0%nat 0%nat + a1 * m 1%nat 0%nat + a2 * m 2%nat 0%nat) * b0 + (0 + a0 * m 0%nat 1%nat + a1 * m 1%nat 1%nat + a2 * m 2%nat 1%nat) * b1 + (0 + a0 * m 0%nat 2%nat + a1 * m 1%nat 2%nat + a2 * m 2%nat 2%nat) * b2); [unfold k; ring|].
    rewrite S0, S1, S2. destruct i as [|[|[|i]]]; [| | |lia]; cbn [Nat.eqb]; ring. }
  pose proof (S 0%nat ltac:(lia)) as S0. pose proof (S 1%nat ltac:(lia)) as S1. pose proof (S 2%nat ltac:(lia)) as S2. unfold build_a_on_interfaces in S0, S1, S2. rewrite length_is in *. fold h in S0, S1, S2.
  assert (K0 : k 0%nat = b0) by lra. split; [exact K0|]. split.
  - apply (Rmult_eq_reg_r (2 * h)); [|lra]. replace ((b2 - b1) / (2 * h) * (2 * h)) with (b2 - b1) by (field; lra). lra.
  - apply (Rmult_eq_reg_r (h * h)); [|nra]. replace (((b1 + b2) / 2 - b0) / (h * h) * (h * h)) with ((b1 + b2) / 2 - b0) by (field; lra). lra.
Qed.
Theorem py_quadratic_viscosity inv d n i left right c nu : inverts inv -> x_left c < x_right c -> (i < n)%nat -> (inv 3%nat (build_a_on_interfaces c) <> None) ->
  (forall j v, d j = Some v -> 0 <= v) -> d i = Some nu ->
  let at_left := if left : bool then (nu + nu_of d (before n i)) / 2 else nu in
  let at_right := if right : bool then (nu + nu_of d (after n i)) / 2 else nu in
  exists coeff, (forall x, quadratic_coeff inv d n i left right c x = Some (coeff x)) /\
    coeff (x_left c) = at_left /\ coeff (x_right c) = at_right /\
    (nu = Rmax (Rmax nu at_left) at_right -> coeff ((x_left c + x_right c) / 2) = nu) /\
    (forall x, x_left c <= x <= x_right c -> Rmin at_left at_right <= coeff x <= 17 / 16 * Rmax (Rmax nu at_left) at_right /\ 0 <= coeff x).
Proof.
  intros I X Hi In P Di. cbv zeta. assert (Pn : forall j, 0 <= nu_of d j) by (intros j; unfold nu_of; destruct (d j) eqn:E; [apply (P j _ E)|lra]). pose proof (P i nu Di) as N0.
  set (b1 := if left then _ else nu). set (b2 := if right then _ else nu).
  assert (B1 : nu / 2 <= b1) by (unfold b1; destruct left; [pose proof (Pn (before n i))|]; lra). assert (B2 : nu / 2 <= b2) by (unfold b2; destruct right; [pose proof (Pn (after n i))|]; lra).
  assert (Q : quadratic_b d n i left right = Some (nu, b1, b2)).
  { unfold quadratic_b. rewrite Di. cbn [bind]. rewrite nu_before, nu_after by exact Hi. unfold b1, b2. destruct left, right; reflexivity. }
  assert (Qc : forall x, quadratic_coeff inv d n i left right c x = quadratic_value inv c (nu, b1, b2) x) by (intros x; unfold quadratic_coeff; rewrite Q; reflexivity).
  destruct (inv 3%nat (build_a_on_interfaces c)) as [m|] eqn:E; [|contradiction]. set (h := (x_right c - x_left c) / 2). assert (H : 0 < h) by (unfold h; lra).
  destruct (Req_EM_T nu (Rmax (Rmax nu b1) b2)) as [M|M].
  - destruct (parabola inv c m nu b1 b2 I X E) as (K0 & K1 & K2). fold h in K1, K2.
    assert (C1 : b1 <= nu) by (rewrite M; apply Rle_trans with (Rmax nu b1); [apply Rmax_r|apply Rmax_l]). assert (C2 : b2 <= nu) by (rewrite M; apply Rmax_r).
    set (par := fun x => nu + (b2 - b1) / (2 * h) * (x - x_center c) + ((b1 + b2) / 2 - nu) / (h * h) * (x - x_center c) * (x - x_center c)).
    exists (fun x => Rmax 0 (par x)). split.
    + intros x. rewrite Qc. unfold quadratic_value. destruct (Req_EM_T nu (Rmax (Rmax nu b1) b2)) as [_|]; [|contradiction]. rewrite E. cbn [bind]. rewrite K0, K1, K2. reflexivity.
    + assert (Pt : forall t, par (x_center c + t * h) = nu + (b2 - b1) / 2 * t + ((b1 + b2) / 2 - nu) * (t * t)) by (intros t; unfold par; field; lra).
      assert (Xl : x_left c = x_center c + -1 * h) by (rewrite center_is; unfold h; field). assert (Xr : x_right c = x_center c + 1 * h) by (rewrite center_is; unfold h; field).
      assert (Ml : par (x_left c) = b1) by (rewrite Xl at 1; rewrite Pt; field). assert (Mr : par (x_right c) = b2) by (rewrite Xr at 1; rewrite Pt; field).
      split; [rewrite Ml; apply Rmax_right; lra|]. split; [rewrite Mr; apply Rmax_right; lra|]. split.
      * intros _. rewrite <- center_is. replace (x_center c) with (x_center c + 0 * h) by ring. rewrite Pt. replace (nu + (b2 - b1) / 2 * 0 + ((b1 + b2) / 2 - nu) * (0 * 0)) with nu by ring. apply Rmax_right. exact N0.
      * intros x Hx. set (t := (x - x_center c) / h). assert (Et : x = x_center c + t * h) by (unfold t; field; lra).
        assert (Ht : -1 <= t <= 1). { rewrite Et, Xl in Hx at 1. rewrite Et, Xr in Hx at 1. split; nra. }
        assert (V : par x = nu + (b2 - b1) / 2 * t + ((b1 + b2) / 2 - nu) * (t * t)) by (rewrite Et at 1; apply Pt).
        assert (Lo : Rmin b1 b2 <= par x).
        { rewrite V. pose proof (Rmin_l b1 b2). pose proof (Rmin_r b1 b2). set (mn := Rmin b1 b2) in *.
          assert (0 <= (nu - (b1 + b2) / 2) * (1 - t * t)) by (apply Rmult_le_pos; [lra|nra]).
          assert (0 <= (b1 - mn) * (1 - t)) by (apply Rmult_le_pos; lra). assert (0 <= (b2 - mn) * (1 + t)) by (apply Rmult_le_pos; lra). nra. }
        assert (Up : par x <= 17 / 16 * nu).
        { rewrite V.
          (* linear in b1 and b2: worst at [nu / 2] or [nu] *)
          set (p := (t * t - t) / 2). set (q := (t * t + t) / 2). assert (Vp : nu + (b2 - b1) / 2 * t + ((b1 + b2) / 2 - nu) * (t * t) = nu * (1 - t * t) + b1 * p + b2 * q) by (unfold p, q; field). rewrite Vp.
          destruct (Rle_dec 0 t) as [T0|T0].
          - assert (p <= 0) by (unfold p; nra). assert (0 <= q) by (unfold q; nra). assert (b1 * p <= nu / 2 * p) by nra. assert (b2 * q <= nu * q) by nra. unfold p, q in *. assert (0 <= nu * (t - 1 / 2) ^ 2) by (apply Rmult_le_pos; [exact N0|apply pow2_ge_0]). nra.
          - assert (0 <= p) by (unfold p; nra). assert (q <= 0) by (unfold q; nra). assert (b1 * p <= nu * p) by nra. assert (b2 * q <= nu / 2 * q) by nra. unfold p, q in *. assert (0 <= nu * (t + 1 / 2) ^ 2) by (apply Rmult_le_pos; [exact N0|apply pow2_ge_0]). nra. }
        assert (0 <= Rmin b1 b2) by (apply Rmin_glb; lra). rewrite Rmax_right by lra. rewrite <- M. lra.
  - exists (fun x => b1 + (b2 - b1) * (x - x_left c) / (x_right c - x_left c)). split; [|split; [|split; [|split]]].
    + intros x. rewrite Qc. unfold quadratic_value. destruct (Req_EM_T nu (Rmax (Rmax nu b1) b2)); [contradiction|]. rewrite length_is. unfold div. destruct (Req_EM_T (x_right c - x_left c) 0); [lra|]. reflexivity.
    + field. lra.
    + field. lra.
    + intros K. contradiction.
    + intros x Hx. set (r := (x - x_left c) / (x_right c - x_left c)). assert (R01 : 0 <= r <= 1).
      { unfold r. split; [apply Rmult_le_pos; [lra|left; apply Rinv_0_lt_compat; lra]|]. apply (Rmult_le_reg_r (x_right c - x_left c)); [lra|]. replace ((x - x_left c) / (x_right c - x_left c) * (x_right c - x_left c)) with (x - x_left c) by (field; lra). lra. }
      replace (b1 + (b2 - b1) * (x - x_left c) / (x_right c - x_left c)) with (b1 * (1 - r) + b2 * r) by (unfold r; field; lra).
      pose proof (Rmin_l b1 b2). pose proof (Rmin_r b1 b2). set (mn := Rmin b1 b2) in *. assert (Mn : 0 <= mn) by (unfold mn; apply Rmin_glb; lra).
      pose proof (Rmax_r nu b1). pose proof (Rmax_l (Rmax nu b1) b2). pose proof (Rmax_r (Rmax nu b1) b2). set (mx := Rmax (Rmax nu b1) b2) in *.
      assert (b1 <= mx) by lra. assert (mn <= b1 * (1 - r) + b2 * r) by nra. assert (b1 * (1 - r) + b2 * r <= mx) by nra. lra.
Qed.
Print Assumptions py_quadratic_viscosity.
(** common faces: two troubled cells agree on the viscosity there *)
Theorem py_quadratic_continuous inv d n i c c' nu nu' : inverts inv -> x_left c < x_right c -> x_left c' < x_right c' -> (i < n)%nat -> (2 <= n)%nat ->
  inv 3%nat (build_a_on_interfaces c) <> None -> inv 3%nat (build_a_on_interfaces c') <> None -> (forall j v, d j = Some v -> 0 <= v) -> d i = Some nu -> d (after n i) = Some nu' ->
  forall l r, quadratic_coeff inv d n i l true c (x_right c) = quadratic_coeff inv d n (after n i) true r c' (x_left c').
Proof.
  intros I X X' Hi N2 In In' P Di Dj l r. assert (Hj : (after n i < n)%nat) by (unfold after; destruct (Nat.eqb_spec i (n - 1)); lia).
  destruct (py_quadratic_viscosity inv d n i l true c nu I X Hi In P Di) as (f & F & _ & Fr & _).
  destruct (py_quadratic_viscosity inv d n (after n i) true r c' nu' I X' Hj In' P Dj) as (f' & F' & Fl & _). rewrite F, F', Fr, Fl. f_equal.
  assert (Ba : before n (after n i) = i). { unfold before, after. destruct (Nat.eqb_spec i (n - 1)) as [->|E]; [reflexivity|]. destruct (Nat.eqb_spec (i + 1) 0); lia. }
  rewrite Ba. unfold nu_of. rewrite Di, Dj. field.
Qed.
Print Assumptions py_quadratic_continuous.
(** the inverse by cofactors *)
Definition cramer (n : nat) (a : nat -> nat -> R) : option (nat -> nat -> R) :=
  if negb (n =? 3)%nat then None else
  let x i j := a (i mod 3)%nat (j mod 3)%nat in
  let det := a 0%nat 0%nat * (a 1%nat 1%nat * a 2%nat 2%nat - a 1%nat 2%nat * a 2%nat 1%nat) - a 0%nat 1%nat * (a 1%nat 0%nat * a 2%nat 2%nat - a 1%nat 2%nat * a 2%nat 0%nat) + a 0%nat 2%nat * (a 1%nat 0%nat * a 2%nat 1%nat - a 1%nat 1%nat * a 2%nat 0%nat) in
  if Req_EM_T det 0 then None else
  Some (fun i j => (x (j + 1)%nat (i + 1)%nat * x (j + 2)%nat (i + 2)%nat - x (j + 1)%nat (i + 2)%nat * x (j + 2)%nat (i + 1)%nat) / det).
Lemma cramer_inverts : inverts cramer.
Proof.
  intros n a m E i j Hi Hj. unfold cramer in E. destruct (Nat.eqb_spec n 3) as [->|]; [|discriminate]. cbn [negb] in E. destruct (Req_EM_T _ 0) as [|D]; [discriminate|]. injection E as <-.
  cbn [rsum]. destruct i as [|[|[|i]]]; [| | |lia]; (destruct j as [|[|[|j]]]; [| | |lia]); cbn [Nat.eqb Nat.add Nat.modulo Nat.divmod snd Nat.sub]; split; field; exact D.
Qed.
Lemma cramer_interfaces a b : a < b -> cramer 3 (build_a_on_interfaces (Linear a b)) <> None.
Proof.
  intros L. unfold cramer. cbn [Nat.eqb negb]. destruct (Req_EM_T _ 0) as [Z|]; [exfalso|discriminate]. unfold build_a_on_interfaces in Z. rewrite length_is in Z. cbn [x_left x_right] in Z.
  set (h := (b - a) / 2) in Z. assert (H : 0 < h) by (unfold h; lra). assert (h * h * h = 0) by lra. pose proof (Rmult_lt_0_compat _ _ H H). pose proof (Rmult_lt_0_compat _ _ H1 H). lra.
Qed.
(** ... but between the center and a face the parabola exceeds the values of the cell and of its neighbors *)
Theorem py_quadratic_viscosity_refuted : exists (d : nat -> option R) c x v, inverts cramer /\ x_left c < x < x_right c /\ (forall j, 0 <= nu_of d j <= 1) /\
  quadratic_coeff cramer d 3 1 true true c x = Some v /\ 1 < v.
Proof.
  set (d := fun i : nat => match i with O => Some 1 | 1%nat => Some 1 | _ => None end). exists d, (Linear 2 4), (5 / 2), (17 / 16).
  split; [exact cramer_inverts|]. split; [cbn; lra|]. split; [intros [|[|j]]; cbn; lra|]. split; [|lra].
  unfold quadratic_coeff, quadratic_b. cbn [d bind]. rewrite nu_before, nu_after by lia. cbn [bind before after Nat.eqb Nat.sub Nat.add nu_of]. unfold nu_of. cbn [d]. unfold quadratic_value.
  replace ((1 + 1) / 2) with 1 by field. replace ((1 + 0) / 2) with (1 / 2) by field.
  destruct (Req_EM_T 1 (Rmax (Rmax 1 1) (1 / 2))) as [_|Ne]; [|exfalso; apply Ne; rewrite (Rmax_left 1 1) by lra; rewrite Rmax_left; lra].
  destruct (cramer 3 (build_a_on_interfaces (Linear 2 4))) as [m|] eqn:E; [|exfalso; apply (cramer_interfaces 2 4); [lra|exact E]]. cbn [bind].
  destruct (parabola cramer (Linear 2 4) m 1 1 (1 / 2) cramer_inverts ltac:(cbn; lra) E) as (K0 & K1 & K2). rewrite K0, K1, K2, center_is. cbn [x_left x_right]. f_equal.
  rewrite Rmax_right; field_simplify; lra.
Qed.
Print Assumptions py_quadratic_viscosity_refuted.
Example py_quadratic_viscosity_example : exists coeff, (forall x, quadratic_coeff cramer (fun i => match i with O => Some 3 | 1%nat => Some 1 | _ => None end) 3 1 true true (Linear 2 4) x = Some (coeff x)) /\ coeff 2 = 2 /\ coeff 4 = 1 / 2.
Proof.
  set (d := fun i : nat => match i with O => Some 3 | 1%nat => Some 1 | _ => None end).
  destruct (py_quadratic_viscosity cramer d 3 1 true true (Linear 2 4) 1 cramer_inverts ltac:(cbn; lra) ltac:(lia) (cramer_interfaces 2 4 ltac:(lra))) as (f & F & Fl & Fr & _).
  - intros [|[|j]] v E; cbn in E; try discriminate; injection E as <-; lra.
  - reflexivity.
  - exists f. split; [exact F|]. cbn in Fl, Fr. split; [rewrite Fl|rewrite Fr]; field.
Qed.

(** ** C168 *)
Theorem py_linear_viscosity d n i left right left_speed right_speed c nu : x_left c < x_right c -> (i < n)%nat -> (forall j v, d j = Some v -> 0 <= v) -> d i = Some nu ->
  let nu_left := if left : bool then nu_of d (before n i) else 0 in let nu_right := if right : bool then nu_of d (after n i) else 0 in
  exists coeff, (forall x, linear_coeff d n i left right left_speed right_speed c x = Some (coeff x)) /\
    (forall x y t, coeff ((1 - t) * x + t * y) = (1 - t) * coeff x + t * coeff y) /\
    (0 < left_speed -> coeff (x_left c) = nu_left) /\ (left_speed < 0 -> coeff (x_left c) = nu) /\ (left_speed = 0 -> coeff (x_left c) = (nu_left + nu) / 2) /\
    (0 < right_speed -> coeff (x_right c) = nu) /\ (right_speed < 0 -> coeff (x_right c) = nu_right) /\ (right_speed = 0 -> coeff (x_right c) = (nu + nu_right) / 2) /\
    (forall x, x_left c <= x <= x_right c -> 0 <= coeff x <= Rmax (Rmax nu_left nu) nu_right).
Proof.
  intros X Hi P Di. cbv zeta. assert (Pn : forall j, 0 <= nu_of d j) by (intros j; unfold nu_of; destruct (d j) eqn:E; [apply (P j _ E)|lra]). pose proof (P i nu Di) as N0.
  set (nl := if left then _ else 0). set (nr := if right then _ else 0). assert (Nl : 0 <= nl) by (unfold nl; destruct left; [apply Pn|lra]). assert (Nr : 0 <= nr) by (unfold nr; destruct right; [apply Pn|lra]).
  set (a := upwind_scalar left_speed nl nu). set (b := upwind_scalar right_speed nu nr). set (r := fun x => (x - x_left c) / (x_right c - x_left c)).
  exists (fun x => a * (1 - r x) + b * r x). split.
  { intros x. unfold linear_coeff. rewrite Di. cbn [bind]. rewrite nu_before, nu_after by exact Hi. cbn [bind]. rewrite length_is. unfold div. destruct (Req_EM_T (x_right c - x_left c) 0); [lra|]. cbn [bind]. fold (r x).
    assert (La : upwind_scalar left_speed (if left then nu_of d (before n i) else nu_of d (before n i) * 0) nu = a) by (unfold a, nl; destruct left; [reflexivity|rewrite Rmult_0_r; reflexivity]).
    assert (Lb : upwind_scalar right_speed nu (if right then nu_of d (after n i) else nu_of d (after n i) * 0) = b) by (unfold b, nr; destruct right; [reflexivity|rewrite Rmult_0_r; reflexivity]).
    rewrite La, Lb. reflexivity. }
  assert (Rl : r (x_left c) = 0) by (unfold r; field; lra). assert (Rr : r (x_right c) = 1) by (unfold r; field; lra).
  assert (Va : a * (1 - r (x_left c)) + b * r (x_left c) = a) by (rewrite Rl; ring). assert (Vb : a * (1 - r (x_right c)) + b * r (x_right c) = b) by (rewrite Rr; ring).
  rewrite Va, Vb. unfold a, b, upwind_scalar in *.
  split; [intros x y t; unfold r; field; lra|]. repeat split; try (intros H; destruct (Rlt_dec 0 left_speed), (Rlt_dec left_speed 0); lra); try (intros H; destruct (Rlt_dec 0 right_speed), (Rlt_dec right_speed 0); lra);
    (assert (R01 : 0 <= r x <= 1);
      [unfold r; split; [apply Rmult_le_pos; [lra|left; apply Rinv_0_lt_compat; lra]|apply (Rmult_le_reg_r (x_right c - x_left c)); [lra|]; replace ((x - x_left c) / (x_right c - x_left c) * (x_right c - x_left c)) with (x - x_left c) by (field; lra); lra]|]);
    pose proof (Rmax_l nl nu); pose proof (Rmax_r nl nu); pose proof (Rmax_l (Rmax nl nu) nr); pose proof (Rmax_r (Rmax nl nu) nr); set (mx := Rmax (Rmax nl nu) nr) in *; set (m1 := Rmax nl nu) in *;
    clearbody mx m1; generalize dependent (r x); intros t R01; destruct (Rlt_dec 0 left_speed), (Rlt_dec left_speed 0), (Rlt_dec 0 right_speed), (Rlt_dec right_speed 0); nra.
Qed.
Print Assumptions py_linear_viscosity.
Theorem py_linear_continuous d n i c c' nu nu' speed : x_left c < x_right c -> x_left c' < x_right c' -> (i < n)%nat -> (2 <= n)%nat -> (forall j v, d j = Some v -> 0 <= v) -> d i = Some nu -> d (after n i) = Some nu' ->
  forall l r s s', linear_coeff d n i l true s speed c (x_right c) = linear_coeff d n (after n i) true r speed s' c' (x_left c').
Proof.
  intros X X' Hi N2 P Di Dj l r s s'. assert (Hj : (after n i < n)%nat) by (unfold after; destruct (Nat.eqb_spec i (n - 1)); lia).
  assert (Ba : before n (after n i) = i). { unfold before, after. destruct (Nat.eqb_spec i (n - 1)) as [->|E]; [reflexivity|]. destruct (Nat.eqb_spec (i + 1) 0); lia. }
  destruct (py_linear_viscosity d n i l true s speed c nu X Hi P Di) as (f & F & _ & _ & _ & _ & A1 & A2 & A3 & _). destruct (py_linear_viscosity d n (after n i) true r speed s' c' nu' X' Hj P Dj) as (f' & F' & _ & B1 & B2 & B3 & _).
  cbv zeta in *. rewrite F, F'. f_equal. rewrite Ba in *. unfold nu_of in *. rewrite Di, Dj in *. destruct (Rtotal_order speed 0) as [H|[H|H]]; [rewrite A2, B2 by exact H|rewrite A3, B3 by exact H|rewrite A1, B1 by exact H]; reflexivity.
Qed.
Print Assumptions py_linear_continuous.
Example py_linear_viscosity_example : linear_coeff (fun i => match i with O => Some 3 | 1%nat => Some 1 | _ => None end) 3 1 true true 2 (-1) (Linear 2 4) 3 = Some (3 / 2).
Proof.
  unfold linear_coeff. cbn [bind]. rewrite nu_before, nu_after by lia. unfold nu_of. cbn [bind before after Nat.eqb Nat.sub Nat.add]. unfold div. rewrite length_is. cbn [x_left x_right]. destruct (Req_EM_T (4 - 2) 0); [lra|]. cbn [bind].
  unfold upwind_scalar. destruct (Rlt_dec 0 2); [|lra]. destruct (Rlt_dec 0 (-1)); [lra|]. destruct (Rlt_dec (-1) 0); [|lra]. f_equal. field.
Qed.
