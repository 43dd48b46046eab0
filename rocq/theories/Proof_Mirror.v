(** Proofs that fluxes do not depend on the side from which they are computed. *)
From Coq Require Import Reals List Lra Lia Psatz.
From Verif Require Import Model_Euler Spec_Euler Proof_Euler Proof_Rotated Model_Simple Spec_Simple Proof_Simple Spec_Mirror.
Import ListNotations.
Open Scope R_scope.

(** ** Scalar equations *)
Lemma Single_opposite a l r : Single_GetFluxUpwind (- a) r l = - Single_GetFluxUpwind a l r.
Proof.
  unfold Single_GetFluxUpwind. destruct (Rlt_dec 0 (- a)), (Rlt_dec 0 a); try ring; try lra.
  assert (a = 0) as -> by lra. ring.
Qed.

Lemma Burgers_opposite k l r : Burgers_GetFluxUpwind (- k) r l = - Burgers_GetFluxUpwind k l r.
Proof.
  unfold Burgers_GetFluxUpwind, Burgers_GetFlux.
  destruct (Req_EM_T (- k) 0), (Req_EM_T k 0); try (exfalso; lra); [ring|].
  replace (- k * r) with (- (k * r)) by ring. replace (- k * l) with (- (k * l)) by ring.
  destruct (Rge_dec (- (k * r)) (- (k * l))), (Rge_dec (k * l) (k * r)); try (exfalso; lra).
  - replace ((- (k * r) + - (k * l)) / 2) with (- ((k * l + k * r) / 2)) by field.
    set (a := (k * l + k * r) / 2) in *.
    destruct (Rle_dec 0 (- a)), (Rle_dec 0 a); try (exfalso; lra).
    + assert (k * (l + r) = 0) as Z by (unfold a in *; nra).
      apply Rmult_integral in Z. destruct Z as [Z|Z]; [contradiction|].
      replace r with (- l) by lra. field.
    + destruct (Rge_dec 0 a); [|exfalso; lra]. field.
    + destruct (Rge_dec 0 (- a)); [|exfalso; lra]. field.
  - destruct (Rle_dec 0 (- (k * r))), (Rle_dec 0 (k * l)); try (exfalso; lra).
    + destruct (Rge_dec 0 (k * r)); [|exfalso; lra]. field.
    + destruct (Rge_dec 0 (- (k * l))); [|exfalso; lra]. field.
    + destruct (Rge_dec 0 (- (k * l))); [exfalso; lra|]. destruct (Rge_dec 0 (k * r)); [exfalso; lra|]. field. assumption.
Qed.

Lemma opp_normal c nu : normal_coefficient c (opp3 nu) = - normal_coefficient c nu.
Proof. destruct c as [[? ?] ?], nu as [[? ?] ?]. cbn. ring. Qed.
Lemma opp_normal2 c nu : normal_mat2 c (opp3 nu) = opp2 (normal_mat2 c nu).
Proof. destruct c as [[? ?] ?]. unfold normal_mat2, opp2. cbn [m00 m01 m10 m11]. rewrite !opp_normal. reflexivity. Qed.
Lemma opp_normalK c nu i j : normal_mat c (opp3 nu) i j = oppK (normal_mat c nu) i j.
Proof. destruct c as [[? ?] ?]. unfold normal_mat, oppK. apply opp_normal. Qed.

(** ** Systems of linear equations *)
Lemma opp_eigenvalues a l0 l1 : eigenvalues2 a l0 l1 -> eigenvalues2 (opp2 a) (- l1) (- l0).
Proof. intros (H & S & P). repeat split; cbn; nra. Qed.

Lemma positive_opp x : positive (- x) = - negative x.
Proof. unfold positive, negative, Rmax, Rmin. destruct (Rle_dec (- x) 0), (Rle_dec x 0); lra. Qed.
Lemma negative_opp x : negative (- x) = - positive x.
Proof. unfold positive, negative, Rmax, Rmin. destruct (Rle_dec (- x) 0), (Rle_dec x 0); lra. Qed.

Lemma spectral_opp f g a l0 l1 : l0 < l1 -> f (- l0) = - g l0 -> f (- l1) = - g l1 ->
  spectral f (opp2 a) (- l1) (- l0) = opp2 (spectral g a l0 l1).
Proof.
  intros L E0 E1. unfold spectral, opp2. cbn [m00 m01 m10 m11]. rewrite E0, E1.
  f_equal; field; lra.
Qed.

Lemma Double_opposite a l0 l1 l r : eigenvalues2 a l0 l1 ->
  Double_GetFluxUpwind (opp2 a) r l = oppC (Double_GetFluxUpwind a l r).
Proof.
  intros E. rewrite (Double_upwind _ _ _ E), (Double_upwind _ _ _ (opp_eigenvalues _ _ _ E)).
  destruct E as [L _].
  rewrite (spectral_opp positive negative), (spectral_opp negative positive) by
    (try exact L; try apply positive_opp; apply negative_opp).
  unfold add2, mul2, oppC, opp2. cbn [m00 m01 m10 m11 fst snd]. f_equal; ring.
Qed.

(** two decompositions of opposite matrices *)
Section Multiple.
  Variable K : nat.
  Variables (a b : Mat) (d d' : Col) (V W V' W' : Mat).
  Variable c : R.
  Hypothesis Hb : forall i j, (i < K)%nat -> (j < K)%nat -> b i j = c * a i j.
  Hypothesis HA : eigen_contract K a d V W.
  Hypothesis HB : eigen_contract K b d' V' W'.

  (** W V' *)
  Definition mix (i j : nat) : R := sum K (fun m => W i m * V' m j).

  Lemma W_left i m : (i < K)%nat -> (m < K)%nat -> sum K (fun j => W i j * a j m) = d i * W i m.
  Proof.
    destruct HA as (AV & VW & WV). intros Hi Hm.
    (* W a = W a V W = W V d W = d W *)
    transitivity (sum K (fun k => sum K (fun j => W i j * sum K (fun p => a j p * V p k)) * W k m)).
    - transitivity (sum K (fun k => sum K (fun j => sum K (fun p => W i j * a j p * (V p k * W k m))))).
      + rewrite sum_swap. apply sum_ext. intros j Hj. rewrite sum_swap.
        transitivity (sum K (fun p => if Nat.eq_dec m p then W i j * a j p else 0)).
        * rewrite sum_single by exact Hm. reflexivity.
        * apply sum_ext. intros p Hp. rewrite (sum_mul_l K (W i j * a j p) (fun k => V p k * W k m)), VW by assumption.
          destruct (Nat.eq_dec m p), (Nat.eq_dec p m); try congruence; ring.
      + apply sum_ext. intros k Hk. rewrite <- sum_mul_r. apply sum_ext. intros j Hj.
        rewrite <- sum_mul_l, <- sum_mul_r. apply sum_ext. intros. ring.
    - transitivity (sum K (fun k => if Nat.eq_dec i k then d k * W k m else 0)).
      + apply sum_ext. intros k Hk.
        rewrite (sum_ext K (fun j => W i j * sum K (fun p => a j p * V p k)) (fun j => (W i j * V j k) * d k))
          by (intros; rewrite AV by assumption; ring).
        rewrite sum_mul_r, WV by assumption. destruct (Nat.eq_dec i k); [subst|]; ring.
      + rewrite sum_single by exact Hi. reflexivity.
  Qed.

  Lemma mix_zero i j : (i < K)%nat -> (j < K)%nat -> (c * d i - d' j) * mix i j = 0.
  Proof.
    intros Hi Hj. destruct HB as (AV & _).
    assert (E : c * (d i * mix i j) = mix i j * d' j).
    { unfold mix. rewrite <- sum_mul_l, <- sum_mul_l, <- sum_mul_r.
      transitivity (sum K (fun m => c * (sum K (fun p => W i p * a p m)) * V' m j)).
      - apply sum_ext. intros m Hm. rewrite W_left by assumption. ring.
      - transitivity (sum K (fun m => sum K (fun p => W i p * (b p m * V' m j)))).
        + apply sum_ext. intros m Hm. rewrite <- sum_mul_l, <- sum_mul_r. apply sum_ext. intros p Hp.
          rewrite Hb by assumption. ring.
        + rewrite sum_swap. apply sum_ext. intros p Hp. rewrite sum_mul_l, AV by assumption. ring. }
    lra.
  Qed.

  (** a function of the eigenvalues gives the same matrix *)
  Lemma mix_functions (f g : R -> R) : (forall x, f x = g (c * x)) ->
    forall i j, (i < K)%nat -> (j < K)%nat -> spectralK f K d V W i j = spectralK g K d' V' W' i j.
  Proof.
    intros E i j Hi Hj. pose proof HA as HA'. pose proof HB as HB'.
    destruct HA' as (_ & VW & WV), HB' as (_ & VW' & WV').
    assert (M : forall k m, (k < K)%nat -> (m < K)%nat -> f (d k) * mix k m = mix k m * g (d' m)).
    { intros k m Hk Hm. pose proof (mix_zero k m Hk Hm) as Z. apply Rmult_integral in Z. destruct Z as [Z|Z].
      - rewrite E. replace (d' m) with (c * d k) by lra. ring.
      - rewrite Z. ring. }
    (* f(A) = V f W = V f (W V') W' = V (W V') g W' = V' g W' *)
    unfold spectralK.
    transitivity (sum K (fun k => sum K (fun m => V i k * (f (d k) * mix k m) * W' m j))).
    - apply sum_ext. intros k Hk.
      transitivity (V i k * f (d k) * sum K (fun m => mix k m * W' m j)).
      + f_equal. unfold mix.
        transitivity (sum K (fun p => if Nat.eq_dec j p then W k p else 0)); [rewrite sum_single by exact Hj; reflexivity|].
        transitivity (sum K (fun m => sum K (fun p => W k p * (V' p m * W' m j)))).
        * rewrite sum_swap. apply sum_ext. intros p Hp. rewrite sum_mul_l, VW' by assumption.
          destruct (Nat.eq_dec j p), (Nat.eq_dec p j); try congruence; ring.
        * apply sum_ext. intros m Hm. rewrite <- sum_mul_r. apply sum_ext. intros. ring.
      + rewrite <- sum_mul_l. apply sum_ext. intros. ring.
    - transitivity (sum K (fun k => sum K (fun m => V i k * mix k m * (g (d' m) * W' m j)))).
      + apply sum_ext. intros k Hk. apply sum_ext. intros m Hm. rewrite M by assumption. ring.
      + rewrite sum_swap. apply sum_ext. intros m Hm. rewrite sum_mul_r.
        transitivity (V' i m * (g (d' m) * W' m j)); [|ring]. f_equal.
        unfold mix.
        transitivity (sum K (fun p => sum K (fun k => V i k * W k p) * V' p m)).
        * transitivity (sum K (fun k => sum K (fun p => V i k * (W k p * V' p m)))).
          { apply sum_ext. intros k Hk. rewrite sum_mul_l. reflexivity. }
          rewrite sum_swap. apply sum_ext. intros p Hp. rewrite <- sum_mul_r. apply sum_ext. intros. ring.
        * transitivity (sum K (fun p => if Nat.eq_dec i p then V' p m else 0)); [|apply (sum_single K i (fun p => V' p m) Hi)].
          apply sum_ext. intros p Hp. rewrite VW by assumption. destruct (Nat.eq_dec i p); ring.
  Qed.
End Multiple.

Lemma Multiple_opposite K a d d' V W V' W' l r i : (i < K)%nat ->
  eigen_contract K a d V W -> eigen_contract K (oppK a) d' V' W' ->
  Multiple_GetFluxUpwind K d' V' W' r l i = - Multiple_GetFluxUpwind K d V W l r i.
Proof.
  intros Hi HA HB. rewrite !Multiple_upwind. unfold mulMV.
  assert (P : forall j, (j < K)%nat -> spectralK positive K d' V' W' i j = - spectralK negative K d V W i j).
  { intros j Hj. transitivity (spectralK (fun x => - negative x) K d V W i j).
    - symmetry. apply (mix_functions K a (oppK a) d d' V W V' W' (-1) ltac:(intros; unfold oppK; ring) HA HB); try assumption.
      intros x. replace (-1 * x) with (- x) by ring. rewrite positive_opp. reflexivity.
    - unfold spectralK. transitivity (sum K (fun k => -1 * (V i k * negative (d k) * W k j))); [apply sum_ext; intros; ring|].
      rewrite sum_mul_l. ring. }
  assert (N : forall j, (j < K)%nat -> spectralK negative K d' V' W' i j = - spectralK positive K d V W i j).
  { intros j Hj. transitivity (spectralK (fun x => - positive x) K d V W i j).
    - symmetry. apply (mix_functions K a (oppK a) d d' V W V' W' (-1) ltac:(intros; unfold oppK; ring) HA HB); try assumption.
      intros x. replace (-1 * x) with (- x) by ring. rewrite negative_opp. reflexivity.
    - unfold spectralK. transitivity (sum K (fun k => -1 * (V i k * positive (d k) * W k j))); [apply sum_ext; intros; ring|].
      rewrite sum_mul_l. ring. }
  rewrite (sum_ext K _ (fun j => -1 * (spectralK negative K d V W i j * r j))) by (intros; rewrite P by assumption; ring).
  rewrite (sum_ext K (fun j => spectralK negative K d' V' W' i j * l j) (fun j => -1 * (spectralK positive K d V W i j * l j)))
    by (intros; rewrite N by assumption; ring).
  rewrite !sum_mul_l. ring.
Qed.

Lemma Multiple_same K a d d' V W V' W' l r i : (i < K)%nat ->
  eigen_contract K a d V W -> eigen_contract K a d' V' W' ->
  Multiple_GetFluxUpwind K d' V' W' l r i = Multiple_GetFluxUpwind K d V W l r i.
Proof.
  intros Hi HA HB. rewrite !Multiple_upwind. unfold mulMV.
  assert (P : forall g j, (j < K)%nat -> spectralK g K d V W i j = spectralK g K d' V' W' i j).
  { intros g j Hj. apply (mix_functions K a a d d' V W V' W' 1 ltac:(intros; ring) HA HB); try assumption.
    intros x. f_equal. ring. }
  f_equal; apply sum_ext; intros j Hj; rewrite P by assumption; reflexivity.
Qed.

(** ** AUSM and HLLC do not prefer a direction *)
Lemma addL_length a b : length a = length b -> length (addL a b) = length a.
Proof. revert b. induction a; intros [|y b] H; cbn in *; try reflexivity; try discriminate. f_equal. apply IHa. lia. Qed.

Section Isotropic.
  Variable n : nat.
  Variable T : list R -> list R.
  Hypothesis HT : isometry n T.

  Lemma turn_sound gamma w : GetSpeedOfSound gamma (turn T w) = GetSpeedOfSound gamma w.
  Proof. reflexivity. Qed.
  Lemma turn_h gamma w : length (mT w) = n -> ausm_h gamma (turn T w) = ausm_h gamma w.
  Proof. intros L. unfold ausm_h. rewrite turn_sound. cbn [mX mT turn]. rewrite !halfsq_sumsq, (iso_norm n T HT) by exact L. reflexivity. Qed.
  Lemma turn_positive gamma w : length (mT w) = n ->
    length (mT (GetPositiveFlux gamma w)) = n /\ GetPositiveFlux gamma (turn T w) = turn T (GetPositiveFlux gamma w).
  Proof.
    intros L. unfold GetPositiveFlux. rewrite turn_h, turn_sound by exact L. cbn [mX mass energy mT turn].
    destruct (Rge_dec _ (-1)); [destruct (Rle_dec _ 1)|]; cbn; rewrite map_length;
      (split; [exact L|]); unfold turn; cbn; rewrite (iso_scale n T HT) by exact L; reflexivity.
  Qed.
  Lemma turn_negative gamma w : length (mT w) = n ->
    length (mT (GetNegativeFlux gamma w)) = n /\ GetNegativeFlux gamma (turn T w) = turn T (GetNegativeFlux gamma w).
  Proof.
    intros L. unfold GetNegativeFlux. rewrite turn_h, turn_sound by exact L. cbn [mX mass energy mT turn].
    destruct (Rle_dec _ 1); [destruct (Rge_dec _ (-1))|]; cbn; rewrite map_length;
      (split; [exact L|]); unfold turn; cbn; rewrite (iso_scale n T HT) by exact L; reflexivity.
  Qed.

  Lemma turn_P2C gamma w : length (mT w) = n ->
    length (mT (PrimitiveToConservative gamma w)) = n /\
    PrimitiveToConservative gamma (turn T w) = turn T (PrimitiveToConservative gamma w).
  Proof.
    intros L. unfold PrimitiveToConservative, GetDynamicPressure, VelocityToMomentum, set_energy, turn.
    cbn [mass mX mT energy]. rewrite map_length. split; [exact L|].
    rewrite (iso_scale n T HT), (iso_norm n T HT) by exact L. reflexivity.
  Qed.
  Lemma turn_P2F gamma w : length (mT w) = n ->
    length (mT (PrimitiveToFlux gamma w)) = n /\ PrimitiveToFlux gamma (turn T w) = turn T (PrimitiveToFlux gamma w).
  Proof.
    intros L. unfold PrimitiveToFlux. destruct (turn_P2C gamma w L) as [L' E]. rewrite E. clear E.
    unfold scaleT, turn. cbn [mass mX mT energy]. rewrite map_length. split; [exact L'|].
    rewrite (iso_scale n T HT) by exact L'. reflexivity.
  Qed.
  Lemma turn_star gamma s w k : length (mT w) = n ->
    length (mT (GetStarFlux gamma s w k)) = n /\ GetStarFlux gamma s (turn T w) k = turn T (GetStarFlux gamma s w k).
  Proof.
    intros L. unfold GetStarFlux.
    destruct (turn_P2F gamma w L) as [LF EF]. destruct (turn_P2C gamma w L) as [LC EC].
    rewrite EF, EC. clear EF EC.
    set (F := PrimitiveToFlux gamma w) in *. set (C := PrimitiveToConservative gamma w) in *.
    unfold addT, scaleT, turn. cbn [mass mX mT energy]. rewrite (iso_norm n T HT) by exact L.
    assert (L1 : length (map (fun x => x * (mass w * (k - mX w) / (k - s))) (mT w)) = n) by (rewrite map_length; exact L).
    assert (L2 : length (map (fun x => x * -1) (mT C)) = n) by (rewrite map_length; exact LC).
    assert (L3 : length (addL (map (fun x => x * (mass w * (k - mX w) / (k - s))) (mT w)) (map (fun x => x * -1) (mT C))) = n)
      by (rewrite addL_length; congruence).
    split.
    - rewrite addL_length; [exact LF|]. rewrite map_length. congruence.
    - rewrite (iso_add n T HT), (iso_scale n T HT), (iso_add n T HT), !(iso_scale n T HT); try assumption;
        try reflexivity. rewrite map_length. exact L3.
  Qed.

  Lemma ausm_turn gamma l r : length (mT l) = n -> length (mT r) = n ->
    length (mT (Ausm_GetFluxUpwind gamma l r)) = n /\
    Ausm_GetFluxUpwind gamma (turn T l) (turn T r) = turn T (Ausm_GetFluxUpwind gamma l r).
  Proof.
    intros Ll Lr. unfold Ausm_GetFluxUpwind.
    destruct (turn_positive gamma l Ll) as [LP EP]. destruct (turn_negative gamma r Lr) as [LN EN]. rewrite EP, EN.
    unfold addT, turn. cbn [mass mX mT energy]. split.
    - rewrite addL_length; congruence.
    - rewrite (iso_add n T HT) by assumption. reflexivity.
  Qed.
  Lemma hllc_turn gamma l r : length (mT l) = n -> length (mT r) = n ->
    length (mT (Hllc_GetFluxUpwind gamma l r)) = n /\
    Hllc_GetFluxUpwind gamma (turn T l) (turn T r) = turn T (Hllc_GetFluxUpwind gamma l r).
  Proof.
    intros Ll Lr. unfold Hllc_GetFluxUpwind.
    change (Hllc_Initialize gamma (turn T l) (turn T r)) with (Hllc_Initialize gamma l r).
    destruct (Hllc_Initialize gamma l r) as [[sl ss] sr].
    destruct (Rle_dec 0 sl); [apply turn_P2F; exact Ll|]. destruct (Rle_dec sr 0); [apply turn_P2F; exact Lr|].
    destruct (Rle_dec 0 ss); apply turn_star; assumption.
  Qed.
End Isotropic.

(** ** HLLC does not prefer a side *)
Lemma hllc_mirror_waves gamma l r sl ss sr : 1 < gamma -> physical l -> physical r ->
  Hllc_Initialize gamma l r = (sl, ss, sr) -> Hllc_Initialize gamma (mirror r) (mirror l) = (- sr, - ss, - sl).
Proof.
  intros G Hl Hr E. destruct (hllc_waves gamma l r sl ss sr G Hl Hr E) as (W1 & W2 & _). revert E.
  unfold Hllc_Initialize. rewrite !mirror_sound. cbn [mass mX energy mirror].
  set (al := GetSpeedOfSound gamma l). set (ar := GetSpeedOfSound gamma r).
  replace ((energy r + energy l - (- mX l - - mX r) * ((mass r + mass l) / 2) * ((ar + al) / 2)) / 2)
    with ((energy l + energy r - (mX r - mX l) * ((mass l + mass r) / 2) * ((al + ar) / 2)) / 2) by field.
  set (pe := Rmax 0 _). intros E. injection E as E1 E2 E3. rewrite E1, E3 in E2.
  destruct Hl as [Ml _], Hr as [Mr _].
  replace (- mX r - ar * GetQ gamma pe (energy r)) with (- sr) by (rewrite <- E3; ring).
  replace (- mX l + al * GetQ gamma pe (energy l)) with (- sl) by (rewrite <- E1; ring).
  f_equal. f_equal. rewrite <- E2. field. nra.
Qed.

Lemma star_mirror gamma s w k : 1 < gamma -> mass w <> 0 -> k <> s -> k <> mX w ->
  GetStarFlux gamma (- s) (mirror w) (- k) = negT (mirror (GetStarFlux gamma s w k)).
Proof.
  intros G M S U. apply tuple_eq; cbn.
  - field. lra.
  - field. lra.
  - rewrite !map_map. induction (mT w); cbn; [reflexivity|]. f_equal; [field; lra|exact IHl].
  - unfold GetDynamicPressure. cbn. field. repeat split; lra.
Qed.

Lemma flux_mirror gamma w : PrimitiveToFlux gamma (mirror w) = negT (mirror (PrimitiveToFlux gamma w)).
Proof.
  apply tuple_eq; cbn.
  - ring.
  - ring.
  - rewrite !map_map. apply map_ext. intros. ring.
  - unfold GetDynamicPressure. cbn. ring.
Qed.

(** a star state at rest *)
Lemma star_at_rest gamma w k : mass w <> 0 -> k <> 0 -> k <> mX w -> 1 < gamma ->
  GetStarFlux gamma 0 w k = mkTuple 0 (energy w + mass w * (k - mX w) * (0 - mX w)) (map (fun _ => 0) (mT w)) 0.
Proof.
  intros M K U G. destruct (star_flux_jump gamma w k 0 G M U K) as (rho & E & -> & _).
  apply tuple_eq; cbn; try ring. apply map_ext. intros. ring.
Qed.

Lemma map_zero_eq (a b : list R) : length a = length b -> map (fun _ => 0) a = map (fun _ => 0) b.
Proof. revert b. induction a; intros [|y b] H; cbn in *; try reflexivity; try discriminate. f_equal. apply IHa. lia. Qed.

Lemma hllc_mirror gamma l r : 1 < gamma -> physical l -> physical r -> length (mT l) = length (mT r) ->
  ~ inverted gamma l r -> mirrored (Hllc_GetFluxUpwind gamma) l r.
Proof.
  intros G Hl Hr Len NI. unfold mirrored, inverted, Hllc_GetFluxUpwind in *.
  destruct (Hllc_Initialize gamma l r) as [[sl ss] sr] eqn:E.
  rewrite (hllc_mirror_waves gamma l r sl ss sr G Hl Hr E).
  destruct (hllc_waves gamma l r sl ss sr G Hl Hr E) as (W1 & W2 & W3).
  destruct Hl as [Ml _], Hr as [Mr _].
  destruct (Rle_dec 0 (- sr)), (Rle_dec (- sl) 0), (Rle_dec 0 sl), (Rle_dec sr 0); try (exfalso; lra); try apply flux_mirror.
  destruct (Rle_dec 0 (- ss)), (Rle_dec 0 ss); try (exfalso; lra).
  - assert (ss = 0) as -> by lra. rewrite star_mirror by lra. f_equal. f_equal.
    rewrite !star_at_rest by lra. f_equal; [lra|]. apply map_zero_eq. congruence.
  - apply star_mirror; lra.
  - apply star_mirror; lra.
Qed.

Lemma GetQ_ge gamma p pk : 1 < gamma -> 0 < pk -> 1 <= GetQ gamma p pk.
Proof.
  intros G P. unfold GetQ. destruct (Rle_dec p pk); [lra|]. rewrite <- sqrt_1 at 1. apply sqrt_le_1_alt.
  assert (1 < p / pk). { apply Rmult_lt_reg_r with pk; [auto|]. unfold Rdiv.
    rewrite Rmult_assoc, Rinv_l, Rmult_1_r by lra. lra. }
  assert (0 < (gamma + 1) / 2 * (p / pk - 1)) by (apply Rmult_lt_0_compat; lra).
  assert (0 < (gamma + 1) / 2 * (p / pk - 1) / gamma).
  { apply Rmult_lt_0_compat; [auto|]. apply Rinv_0_lt_compat. lra. }
  lra.
Qed.

(** waves are not inverted unless the states run into each other faster than both sound speeds *)
Lemma not_inverted gamma l r : 1 < gamma -> physical l -> physical r ->
  mX l - mX r < GetSpeedOfSound gamma l + GetSpeedOfSound gamma r -> ~ inverted gamma l r.
Proof.
  intros G Hl Hr S. unfold inverted, Hllc_Initialize. set (pe := Rmax 0 _).
  pose proof (sound_pos gamma l ltac:(lra) Hl) as Al. pose proof (sound_pos gamma r ltac:(lra) Hr) as Ar.
  destruct Hl as [_ Pl], Hr as [_ Pr].
  pose proof (GetQ_ge gamma pe _ G Pl). pose proof (GetQ_ge gamma pe _ G Pr). intros [L1 L2]. nra.
Qed.

(** ** Frames *)
Lemma in_plane a1 a2 a3 b1 b2 b3 c1 c2 c3 q1 q2 q3 : rows3 a1 a2 a3 b1 b2 b3 c1 c2 c3 ->
  q1 * a1 + q2 * a2 + q3 * a3 = 0 ->
  let qb := q1 * b1 + q2 * b2 + q3 * b3 in let qc := q1 * c1 + q2 * c2 + q3 * c3 in
  q1 = qb * b1 + qc * c1 /\ q2 = qb * b2 + qc * c2 /\ q3 = qb * b3 + qc * c3.
Proof.
  intros F Z. apply rows3_cols in F. destruct F as ((F1 & F2 & F3) & F4 & F5 & F6). cbv zeta.
  assert (E1 : b1 * b1 + c1 * c1 = 1 - a1 * a1) by lra. assert (E2 : b2 * b2 + c2 * c2 = 1 - a2 * a2) by lra.
  assert (E3 : b3 * b3 + c3 * c3 = 1 - a3 * a3) by lra. assert (E4 : b1 * b2 + c1 * c2 = - (a1 * a2)) by lra.
  assert (E5 : b1 * b3 + c1 * c3 = - (a1 * a3)) by lra. assert (E6 : b2 * b3 + c2 * c3 = - (a2 * a3)) by lra.
  split; [|split].
  - transitivity (q1 * (b1 * b1 + c1 * c1) + q2 * (b1 * b2 + c1 * c2) + q3 * (b1 * b3 + c1 * c3)); [|ring].
    rewrite E1, E4, E5. transitivity (q1 - a1 * (q1 * a1 + q2 * a2 + q3 * a3)); [rewrite Z|]; ring.
  - transitivity (q1 * (b1 * b2 + c1 * c2) + q2 * (b2 * b2 + c2 * c2) + q3 * (b2 * b3 + c2 * c3)); [|ring].
    rewrite E2, E4, E6. transitivity (q2 - a2 * (q1 * a1 + q2 * a2 + q3 * a3)); [rewrite Z|]; ring.
  - transitivity (q1 * (b1 * b3 + c1 * c3) + q2 * (b2 * b3 + c2 * c3) + q3 * (b3 * b3 + c3 * c3)); [|ring].
    rewrite E3, E5, E6. transitivity (q3 - a3 * (q1 * a1 + q2 * a2 + q3 * a3)); [rewrite Z|]; ring.
Qed.

(** two frames with the same or opposite normals differ by a map of the tangential components *)
Lemma frame_change D f g sign : dims D -> sign * sign = 1 -> orthonormal D f -> orthonormal D g ->
  normal g = map (fun x => x * sign) (normal f) ->
  exists T, isometry (D - 1) T /\
    forall t, length (momentum t) = D ->
      GlobalToNormal g t = let s := turn T (GlobalToNormal f t) in mkTuple (mass s) (mX s * sign) (mT s) (energy s).
Proof.
  intros [->| ->] S F H E.
  - apply orthonormal2 in F. destruct F as (a1 & a2 & b1 & b2 & -> & F).
    apply orthonormal2 in H. destruct H as (c1 & c2 & d1 & d2 & -> & H).
    cbn in E. injection E as -> ->.
    pose proof (rows2_cols _ _ _ _ F) as (G1 & G2 & G3). destruct F as (F1 & F2 & F3), H as (H1 & H2 & H3).
    assert (Z : d1 * a1 + d2 * a2 = 0).
    { assert (Z : sign * (d1 * a1 + d2 * a2) = 0) by lra. transitivity (sign * sign * (d1 * a1 + d2 * a2)); [rewrite S; ring|].
      transitivity (sign * (sign * (d1 * a1 + d2 * a2))); [ring|]. rewrite Z. ring. }
    set (db := d1 * b1 + d2 * b2).
    assert (D1 : d1 = db * b1).
    { transitivity (d1 * (b1 * b1) + d2 * (b1 * b2)); [|unfold db; ring].
      replace (b1 * b1) with (1 - a1 * a1) by lra. replace (b1 * b2) with (- (a1 * a2)) by lra.
      transitivity (d1 - a1 * (d1 * a1 + d2 * a2)); [rewrite Z|]; ring. }
    assert (D2 : d2 = db * b2).
    { transitivity (d1 * (b1 * b2) + d2 * (b2 * b2)); [|unfold db; ring].
      replace (b2 * b2) with (1 - a2 * a2) by lra. replace (b1 * b2) with (- (a1 * a2)) by lra.
      transitivity (d2 - a2 * (d1 * a1 + d2 * a2)); [rewrite Z|]; ring. }
    assert (B : db * db = 1).
    { transitivity (db * db * (b1 * b1 + b2 * b2)); [rewrite F2; ring|]. rewrite <- H2. transitivity ((db * b1) * (db * b1) + (db * b2) * (db * b2)); [ring|]. rewrite <- D1, <- D2. reflexivity. }
    clearbody db.
    exists (fun l => [hd 0 l * db]). split.
    + split.
      * reflexivity.
      * intros [|x []] [|y []] L1 L2; try discriminate. cbn. f_equal. ring.
      * intros c [|x []] L1; try discriminate. cbn. f_equal. ring.
      * intros [|x []] L1; try discriminate. cbn. transitivity (x * x * (db * db) + 0); [ring|]. rewrite B. ring.
    + intros t L. tuple2 t L. unfold GlobalToNormal, set_momentum, turn, momentum. cbn.
      f_equal; [ring|]. f_equal. rewrite D1, D2. ring.
  - apply orthonormal3 in F. destruct F as (a1 & a2 & a3 & b1 & b2 & b3 & c1 & c2 & c3 & -> & F).
    apply orthonormal3 in H. destruct H as (p1 & p2 & p3 & q1 & q2 & q3 & r1 & r2 & r3 & -> & H).
    cbn in E. injection E as -> -> ->.
    destruct H as ((_ & Hq & Hr) & Hpq & Hpr & Hqr).
    assert (Cancel : forall x, sign * x = 0 -> x = 0).
    { intros x Z. transitivity (sign * sign * x); [rewrite S; ring|]. transitivity (sign * (sign * x)); [ring|]. rewrite Z. ring. }
    assert (Zq : q1 * a1 + q2 * a2 + q3 * a3 = 0) by (apply Cancel; lra).
    assert (Zr : r1 * a1 + r2 * a2 + r3 * a3 = 0) by (apply Cancel; lra).
    destruct (in_plane _ _ _ _ _ _ _ _ _ q1 q2 q3 F Zq) as (Q1 & Q2 & Q3).
    destruct (in_plane _ _ _ _ _ _ _ _ _ r1 r2 r3 F Zr) as (R1 & R2 & R3).
    destruct F as ((_ & Fb & Fc) & _ & _ & Fbc).
    set (qb := q1 * b1 + q2 * b2 + q3 * b3) in *. set (qc := q1 * c1 + q2 * c2 + q3 * c3) in *.
    set (rb := r1 * b1 + r2 * b2 + r3 * b3) in *. set (rc := r1 * c1 + r2 * c2 + r3 * c3) in *.
    clearbody qb qc rb rc. subst q1 q2 q3 r1 r2 r3.
    assert (O : rows2 qb qc rb rc).
    { split; [|split].
      - rewrite <- Hq. transitivity (qb * qb * (b1*b1+b2*b2+b3*b3) + 2 * qb * qc * (b1*c1+b2*c2+b3*c3) + qc * qc * (c1*c1+c2*c2+c3*c3)); [rewrite Fb, Fc, Fbc|]; ring.
      - rewrite <- Hr. transitivity (rb * rb * (b1*b1+b2*b2+b3*b3) + 2 * rb * rc * (b1*c1+b2*c2+b3*c3) + rc * rc * (c1*c1+c2*c2+c3*c3)); [rewrite Fb, Fc, Fbc|]; ring.
      - rewrite <- Hqr. transitivity (qb * rb * (b1*b1+b2*b2+b3*b3) + (qb * rc + qc * rb) * (b1*c1+b2*c2+b3*c3) + qc * rc * (c1*c1+c2*c2+c3*c3)); [rewrite Fb, Fc, Fbc|]; ring. }
    apply rows2_cols in O. destruct O as (O1 & O2 & O3).
    exists (fun l => [hd 0 l * qb + hd 0 (tl l) * qc; hd 0 l * rb + hd 0 (tl l) * rc]). split.
    + split.
      * reflexivity.
      * intros [|x [|y []]] [|x' [|y' []]] L1 L2; try discriminate. cbn. f_equal; [ring|f_equal; ring].
      * intros c [|x [|y []]] L1; try discriminate. cbn. f_equal; [ring|f_equal; ring].
      * intros [|x [|y []]] L1; try discriminate. cbn.
        transitivity (x * x * (qb * qb + rb * rb) + 2 * x * y * (qb * qc + rb * rc) + y * y * (qc * qc + rc * rc) + 0); [ring|].
        rewrite O1, O2, O3. ring.
    + intros t L. tuple3 t L. unfold GlobalToNormal, set_momentum, turn, momentum. cbn.
      f_equal; [ring|]. f_equal; [ring|f_equal; ring].
Qed.

Lemma frame_length D f t : orthonormal D f -> dims D -> length (momentum t) = D ->
  length (momentum (GlobalToNormal f t)) = D /\ length (momentum (NormalToGlobal f t)) = D.
Proof.
  intros (L & _) HD Lt. unfold GlobalToNormal, NormalToGlobal, set_momentum, momentum. cbn [mX mT].
  destruct HD as [-> | ->].
  - destruct f as [|a [|b []]]; try discriminate L. split; reflexivity.
  - destruct f as [|a [|b [|c []]]]; try discriminate L. split; reflexivity.
Qed.

Lemma NormalToGlobal_neg f t : NormalToGlobal f (negT t) = negT (NormalToGlobal f t).
Proof.
  assert (D : forall a b, dotL (map Ropp a) b = - dotL a b).
  { induction a; intros [|y b]; cbn; try ring. rewrite IHa. ring. }
  unfold NormalToGlobal, set_momentum, negT, momentum. cbn [mass mX mT energy].
  set (col := fun i => map (fun v => List.nth i v 0) f).
  destruct (length f) as [|n]; cbn [seq map hd tl]; [cbn; f_equal; ring|].
  f_equal.
  - change (- mX t :: map Ropp (mT t)) with (map Ropp (mX t :: mT t)). apply D.
  - rewrite map_map. apply map_ext. intros i. change (- mX t :: map Ropp (mT t)) with (map Ropp (mX t :: mT t)). apply D.
Qed.

Lemma tangents D : dims D -> forall t, length (momentum t) = D <-> length (mT t) = (D - 1)%nat.
Proof. intros HD t. unfold momentum. cbn [length]. destruct HD; subst; lia. Qed.

Section Rotated.
  Variable gamma : R.
  Variable solver : Tuple -> Tuple -> Tuple.
  Variable D : nat.
  Hypothesis HD : dims D.
  Hypothesis Iso : isotropic (D - 1) solver.

  (** the tangents do not matter *)
  Lemma rotated_same f g Ul Ur : orthonormal D f -> orthonormal D g -> normal g = normal f ->
    length (momentum Ul) = D -> length (momentum Ur) = D ->
    Rotated_GetFluxUpwind gamma solver g Ul Ur = Rotated_GetFluxUpwind gamma solver f Ul Ur.
  Proof.
    intros F G E Ll Lr.
    destruct (frame_change D f g 1 HD ltac:(ring) F G) as (T & HT & C).
    { rewrite E. symmetry. apply map_id'. intros; ring. }
    assert (C' : forall t, length (momentum t) = D -> GlobalToNormal g t = turn T (GlobalToNormal f t)).
    { intros t L. rewrite C by exact L. unfold turn. cbn. f_equal. ring. }
    unfold Rotated_GetFluxUpwind. set (l := ConservativeToPrimitive gamma Ul). set (r := ConservativeToPrimitive gamma Ur).
    assert (Hl : length (momentum l) = D) by (apply (tangents D HD); unfold l; rewrite C2P_mT; apply (tangents D HD); exact Ll).
    assert (Hr : length (momentum r) = D) by (apply (tangents D HD); unfold r; rewrite C2P_mT; apply (tangents D HD); exact Lr).
    rewrite !C' by assumption.
    destruct (Iso T (GlobalToNormal f l) (GlobalToNormal f r) HT) as (Ls & ->).
    { apply (tangents D HD). apply frame_length; assumption. }
    { apply (tangents D HD). apply frame_length; assumption. }
    set (s := solver _ _) in *. apply (tangents D HD) in Ls.
    rewrite <- (proj1 (round_trip D g (NormalToGlobal f s) HD G ltac:(apply frame_length; assumption))).
    rewrite C' by (apply frame_length; assumption).
    rewrite (proj2 (round_trip D f s HD F Ls)). reflexivity.
  Qed.

  (** from the other side *)
  Lemma rotated_opposite f g Ul Ur : orthonormal D f -> orthonormal D g -> normal g = map Ropp (normal f) ->
    length (momentum Ul) = D -> length (momentum Ur) = D ->
    mirrored solver (GlobalToNormal f (ConservativeToPrimitive gamma Ul)) (GlobalToNormal f (ConservativeToPrimitive gamma Ur)) ->
    Rotated_GetFluxUpwind gamma solver g Ur Ul = negT (Rotated_GetFluxUpwind gamma solver f Ul Ur).
  Proof.
    intros F G E Ll Lr M.
    destruct (frame_change D f g (-1) HD ltac:(ring) F G) as (T & HT & C).
    { rewrite E. apply map_ext. intros; ring. }
    assert (C' : forall t, length (momentum t) = D -> GlobalToNormal g t = turn T (mirror (GlobalToNormal f t))).
    { intros t L. rewrite C by exact L. unfold turn, mirror. cbn. f_equal. ring. }
    unfold Rotated_GetFluxUpwind. set (l := ConservativeToPrimitive gamma Ul) in *. set (r := ConservativeToPrimitive gamma Ur) in *.
    assert (Hl : length (momentum l) = D) by (apply (tangents D HD); unfold l; rewrite C2P_mT; apply (tangents D HD); exact Ll).
    assert (Hr : length (momentum r) = D) by (apply (tangents D HD); unfold r; rewrite C2P_mT; apply (tangents D HD); exact Lr).
    rewrite !C' by assumption.
    assert (Fl : length (mT (GlobalToNormal f l)) = (D - 1)%nat) by (apply (tangents D HD); apply frame_length; assumption).
    assert (Fr : length (mT (GlobalToNormal f r)) = (D - 1)%nat) by (apply (tangents D HD); apply frame_length; assumption).
    destruct (Iso T (mirror (GlobalToNormal f r)) (mirror (GlobalToNormal f l)) HT Fr Fl) as (_ & ->).
    rewrite M.
    destruct (Iso T (GlobalToNormal f l) (GlobalToNormal f r) HT Fl Fr) as (Ls & _).
    set (s := solver _ _) in *.
    assert (Ls' : length (momentum s) = D) by (apply (tangents D HD); exact Ls).
    assert (Tn : turn T (negT (mirror s)) = negT (turn T (mirror s))).
    { unfold turn, negT, mirror. cbn. f_equal.
      transitivity (T (map (fun x => x * -1) (mT s))); [f_equal; apply map_ext; intros; ring|].
      rewrite (iso_scale _ _ HT) by exact Ls. apply map_ext. intros; ring. }
    rewrite Tn, NormalToGlobal_neg. f_equal.
    rewrite <- (proj1 (round_trip D g (NormalToGlobal f s) HD G ltac:(apply frame_length; assumption))).
    rewrite C' by (apply frame_length; assumption).
    rewrite (proj2 (round_trip D f s HD F Ls')). reflexivity.
  Qed.
End Rotated.
