(** Proofs about the gas model, AUSM, HLLC. *)
From Coq Require Import Reals List Lra Psatz Lia.
From Verif Require Import Model_Euler Spec_Euler.
Import ListNotations.
Open Scope R_scope.

Lemma tuple_eq s t : mass s = mass t -> mX s = mX t -> mT s = mT t -> energy s = energy t -> s = t.
Proof. destruct s, t; cbn; intros; subst; reflexivity. Qed.

Lemma dotL_self l : dotL l l = sumsq l.
Proof. induction l; cbn; [reflexivity|]. rewrite IHl. reflexivity. Qed.

Lemma sumsq_nonneg l : 0 <= sumsq l.
Proof. induction l; cbn; [lra|]. pose proof (Rle_0_sqr a). unfold Rsqr in *. lra. Qed.

Lemma sumsq_scale c l : sumsq (map (fun x => x * c) l) = c * c * sumsq l.
Proof. induction l; cbn; [ring|]. rewrite IHl. ring. Qed.

Lemma halfsq_sumsq l : halfsq l = sumsq l / 2.
Proof. induction l; cbn; [field|]. rewrite IHl. field. Qed.

Lemma map_id' (f : R -> R) l : (forall x, f x = x) -> map f l = l.
Proof. intros H. induction l; cbn; [reflexivity|]. rewrite H, IHl. reflexivity. Qed.

Lemma P2C_conservative gamma w : gamma <> 1 -> conservative_of gamma w (PrimitiveToConservative gamma w).
Proof.
  intros G. unfold conservative_of, PrimitiveToConservative, momentum. cbn.
  split; [reflexivity|]. split.
  - f_equal; [ring|]. apply map_ext. intros; ring.
  - unfold GetDynamicPressure. rewrite dotL_self. field. lra.
Qed.

Lemma SetZero_pos w : 0 <= mass w -> 0 <= energy w -> SetZeroIfNegative w = w.
Proof.
  intros H1 H2. unfold SetZeroIfNegative. destruct (Rlt_dec (mass w) 0); [lra|].
  destruct (Rlt_dec (energy w) 0); [lra|]. reflexivity.
Qed.

Lemma sumsq_div c l : c <> 0 -> sumsq (map (fun x => x / c) l) = sumsq l / (c * c).
Proof. intros. induction l; cbn; [field; auto|]. rewrite IHl. field; auto. Qed.

(** [ConservativeToPrimitive] on states with positive density and non-negative pressure *)
Lemma C2P_physical gamma U : 1 < gamma -> 0 < mass U ->
  0 <= energy U - dotL (momentum U) (momentum U) / (2 * mass U) ->
  ConservativeToPrimitive gamma U =
  mkTuple (mass U) (mX U / mass U) (map (fun x => x / mass U) (mT U)) (pressure gamma U).
Proof.
  intros G M P. unfold ConservativeToPrimitive.
  assert (0 <= energy U) as E.
  { pose proof (sumsq_nonneg (momentum U)) as Q. rewrite dotL_self in P.
    assert (0 <= sumsq (momentum U) / (2 * mass U)).
    { apply Rmult_le_pos; [exact Q|]. apply Rlt_le, Rinv_0_lt_compat. lra. }
    lra. }
  rewrite (SetZero_pos U) by lra.
  destruct (Req_EM_T (mass U) 0); [lra|].
  rewrite SetZero_pos; cbn; try lra.
  - apply tuple_eq; cbn; try reflexivity. unfold GetDynamicPressure, pressure. cbn.
    rewrite dotL_self, sumsq_div by lra. field. lra.
  - unfold GetDynamicPressure. cbn. rewrite dotL_self in P. cbn in P.
    rewrite sumsq_div by lra.
    replace (mX U / mass U * (mX U / mass U) + sumsq (mT U) / (mass U * mass U)) with
      ((mX U * mX U + sumsq (mT U)) / (mass U * mass U)) by (field; lra).
    replace (mass U * ((mX U * mX U + sumsq (mT U)) / (mass U * mass U) * (1 / 2))) with
      ((mX U * mX U + sumsq (mT U)) / (2 * mass U)) by (field; lra).
    apply Rmult_le_pos; lra.
Qed.

Lemma conservative_pressure gamma w U : gamma <> 1 -> mass w <> 0 -> conservative_of gamma w U ->
  pressure gamma U = energy w.
Proof.
  intros G M [H1 [H2 H3]]. unfold pressure. rewrite H1, H2, H3, !dotL_self.
  rewrite (map_ext _ (fun v => v * mass w)) by (intros; ring). rewrite sumsq_scale. field. lra.
Qed.

Theorem P2C_then_C2P gamma w : 1 < gamma -> 0 < mass w -> 0 <= energy w ->
  ConservativeToPrimitive gamma (PrimitiveToConservative gamma w) = w.
Proof.
  intros G M P. pose proof (P2C_conservative gamma w ltac:(lra)) as C.
  assert (pressure gamma (PrimitiveToConservative gamma w) = energy w) as E
    by (apply conservative_pressure; [lra|lra|exact C]).
  destruct C as [C1 [C2 C3]].
  rewrite C2P_physical; [|lra|rewrite C1; lra|].
  - apply tuple_eq; cbn; [reflexivity| | |].
    + field. lra.
    + rewrite map_map. apply map_id'. intros. field. lra.
    + exact E.
  - unfold pressure in E. rewrite <- E in P.
    destruct (Rle_dec 0 (energy (PrimitiveToConservative gamma w) -
      dotL (momentum (PrimitiveToConservative gamma w)) (momentum (PrimitiveToConservative gamma w)) /
      (2 * mass (PrimitiveToConservative gamma w)))); [auto|]. exfalso. nra.
Qed.

Theorem C2P_then_P2C gamma U : 1 < gamma -> 0 < mass U ->
  0 <= energy U - dotL (momentum U) (momentum U) / (2 * mass U) ->
  PrimitiveToConservative gamma (ConservativeToPrimitive gamma U) = U.
Proof.
  intros G M P. rewrite C2P_physical by auto. apply tuple_eq; cbn; [reflexivity| | |].
  - field. lra.
  - rewrite map_map. apply map_id'. intros. field. lra.
  - unfold GetDynamicPressure, pressure. cbn. rewrite dotL_self, sumsq_div by lra. field. lra.
Qed.

(** ** Never negative *)

Lemma SetZero_nonneg w : 0 <= mass (SetZeroIfNegative w) /\ 0 <= energy (SetZeroIfNegative w).
Proof.
  unfold SetZeroIfNegative.
  destruct (Rlt_dec (mass w) 0); cbn; destruct (Rlt_dec _ 0); cbn in *; lra.
Qed.

Lemma C2P_nonneg gamma U :
  0 <= mass (ConservativeToPrimitive gamma U) /\ 0 <= energy (ConservativeToPrimitive gamma U).
Proof.
  unfold ConservativeToPrimitive. destruct (Req_EM_T _ 0); apply SetZero_nonneg.
Qed.

Lemma setZero_idem w : setZero (setZero w) = setZero w.
Proof. unfold setZero. cbn. rewrite map_map. reflexivity. Qed.

Lemma SetZero_zero w : SetZeroIfNegative (setZero w) = setZero w.
Proof. apply SetZero_pos; cbn; lra. Qed.

Lemma C2P_zero gamma U : mass U < 0 \/ energy U < 0 -> ConservativeToPrimitive gamma U = setZero U.
Proof.
  intros H. unfold ConservativeToPrimitive.
  assert (SetZeroIfNegative U = setZero U) as ->.
  { unfold SetZeroIfNegative. destruct (Rlt_dec (mass U) 0).
    - destruct (Rlt_dec _ 0); [apply setZero_idem|reflexivity].
    - destruct (Rlt_dec (energy U) 0); [reflexivity|lra]. }
  cbn. destruct (Req_EM_T 0 0); [reflexivity|lra].
Qed.

Lemma C2P_negative_pressure gamma U : 0 < mass U -> pressure gamma U < 0 ->
  ConservativeToPrimitive gamma U = setZero U.
Proof.
  intros M P. destruct (Rlt_dec (energy U) 0); [apply C2P_zero; auto|].
  unfold ConservativeToPrimitive. rewrite (SetZero_pos U) by lra.
  destruct (Req_EM_T (mass U) 0); [lra|].
  unfold SetZeroIfNegative at 1. cbn.
  destruct (Rlt_dec (mass U) 0); [lra|]. cbn.
  destruct (Rlt_dec _ 0) as [L|L].
  - unfold setZero. cbn. rewrite map_map. reflexivity.
  - exfalso. apply L. clear L. revert P. unfold pressure, GetDynamicPressure. cbn.
    rewrite dotL_self, sumsq_div by lra. intros P.
    match goal with |- ?x < 0 => replace x with ((gamma - 1) * (energy U - (mX U * mX U + sumsq (mT U)) / (2 * mass U)))
      by (field; lra) end. exact P.
Qed.

Lemma sound_nonneg gamma w : 0 <= GetSpeedOfSound gamma w.
Proof.
  unfold GetSpeedOfSound. destruct (Rle_dec (mass w) 0); [lra|].
  destruct (Rle_dec (energy w) 0); [lra|]. apply sqrt_pos.
Qed.

Lemma sound_sq gamma w : 0 <= gamma -> physical w ->
  GetSpeedOfSound gamma w * GetSpeedOfSound gamma w = gamma * energy w / mass w.
Proof.
  intros G [M P]. unfold GetSpeedOfSound. destruct (Rle_dec (mass w) 0); [lra|].
  destruct (Rle_dec (energy w) 0); [lra|]. apply sqrt_sqrt.
  apply Rmult_le_pos; [nra|]. apply Rlt_le, Rinv_0_lt_compat; auto.
Qed.

Lemma sound_pos gamma w : 0 < gamma -> physical w -> 0 < GetSpeedOfSound gamma w.
Proof.
  intros G [M P]. unfold GetSpeedOfSound. destruct (Rle_dec (mass w) 0); [lra|].
  destruct (Rle_dec (energy w) 0); [lra|]. apply sqrt_lt_R0.
  apply Rmult_lt_0_compat; [nra|]. apply Rinv_0_lt_compat; auto.
Qed.

Lemma sound_zero gamma w : ~ physical w -> GetSpeedOfSound gamma w = 0.
Proof.
  intros H. unfold GetSpeedOfSound, physical in *. destruct (Rle_dec (mass w) 0); [reflexivity|].
  destruct (Rle_dec (energy w) 0); [reflexivity|]. exfalso. apply H. lra.
Qed.

(** ** The flux along the axis *)

Lemma dotL_repeat0 l d : dotL l (repeat 0 d) = 0.
Proof. revert d. induction l; intros [|d]; cbn; try reflexivity. rewrite IHl. ring. Qed.

Lemma dotL_axis t d : dotL (momentum t) (axis d) = mX t.
Proof. cbn. rewrite dotL_repeat0. ring. Qed.

Lemma addL_repeat0 l d c : length l = d -> addL l (scaleL c (repeat 0 d)) = l.
Proof.
  revert d. induction l; intros [|d] H; cbn in *; try reflexivity; try discriminate.
  f_equal; [ring|]. apply IHl. lia.
Qed.

Lemma P2F_axis gamma w : gamma <> 1 -> mass w <> 0 -> axis_flux gamma w (PrimitiveToFlux gamma w).
Proof.
  intros G M. exists (PrimitiveToConservative gamma w).
  pose proof (P2C_conservative gamma w G) as C. split; [exact C|].
  unfold normal_flux. rewrite dotL_axis, (conservative_pressure gamma w _ G M C).
  split; [|split].
  - cbn. field. auto.
  - unfold momentum. cbn. f_equal; [field; auto|].
    fold (scaleL (energy w) (repeat 0 (length (mT w)))).
    rewrite addL_repeat0 by (rewrite !map_length; reflexivity).
    rewrite !map_map. apply map_ext. intros. field. auto.
  - cbn. field. split; lra.
Qed.

Lemma normal_flux_unique gamma U n F G : normal_flux gamma U n F -> normal_flux gamma U n G -> F = G.
Proof.
  unfold normal_flux, momentum. intros [A1 [A2 A3]] [B1 [B2 B3]].
  rewrite <- B2 in A2. injection A2 as A4 A5. apply tuple_eq; congruence.
Qed.

Lemma conservative_unique gamma w U V : conservative_of gamma w U -> conservative_of gamma w V -> U = V.
Proof.
  unfold conservative_of, momentum. intros [A1 [A2 A3]] [B1 [B2 B3]].
  rewrite <- B2 in A2. injection A2 as A4 A5. apply tuple_eq; congruence.
Qed.

Lemma axis_flux_unique gamma w F G : axis_flux gamma w F -> axis_flux gamma w G -> F = G.
Proof.
  intros [U [A B]] [V [C D]]. rewrite (conservative_unique _ _ _ _ C A) in D.
  eapply normal_flux_unique; eauto.
Qed.

(** ** AUSM *)

Section Ausm.
  Variables (gamma : R) (w : Tuple).
  Hypothesis G : 1 < gamma.
  Hypothesis H : physical w.
  Let a := GetSpeedOfSound gamma w.

  Lemma ausm_enthalpy : mass w * ausm_h gamma w =
    energy (PrimitiveToConservative gamma w) + energy w.
  Proof.
    unfold ausm_h. rewrite (sound_sq gamma w) by (auto; lra). rewrite halfsq_sumsq.
    unfold PrimitiveToConservative, GetDynamicPressure. cbn. destruct H. field. lra.
  Qed.

  Lemma pos_supersonic : mX w >= a -> GetPositiveFlux gamma w = PrimitiveToFlux gamma w.
  Proof.
    intros S. pose proof (sound_pos gamma w ltac:(lra) H) as A. fold a in A.
    assert (mX w / a >= 1) as Q. { apply Rle_ge. apply Rmult_le_reg_r with a; [auto|]. unfold Rdiv.
      rewrite Rmult_assoc, Rinv_l, Rmult_1_r by lra. lra. }
    unfold GetPositiveFlux. fold a. 
    assert ((if Rge_dec (mX w / a) (-1)
      then if Rle_dec (mX w / a) 1
           then ((mX w / a + 1) * (mX w / a + 1) * (1 / 4), energy w * (mX w / a + 1) * (1 / 2))
           else (mX w / a, energy w)
      else (0, 0)) = (mX w / a, energy w)) as ->.
    { destruct (Rge_dec (mX w / a) (-1)); [|exfalso; lra]. destruct (Rle_dec (mX w / a) 1); [|reflexivity].
      assert (mX w / a = 1) as -> by lra. f_equal; field. }
    pose proof ausm_enthalpy as E.
    apply tuple_eq; cbn.
    - unfold PrimitiveToConservative. cbn. field. lra.
    - field. lra.
    - rewrite map_map. apply map_ext. intros. field. lra.
    - transitivity (mX w * (mass w * ausm_h gamma w)); [field; lra|]. rewrite E. cbn. ring.
  Qed.

  Lemma neg_supersonic : mX w <= - a -> GetNegativeFlux gamma w = PrimitiveToFlux gamma w.
  Proof.
    intros S. pose proof (sound_pos gamma w ltac:(lra) H) as A. fold a in A.
    assert (mX w / a <= -1) as Q. { apply Rmult_le_reg_r with a; [auto|]. unfold Rdiv.
      rewrite Rmult_assoc, Rinv_l, Rmult_1_r by lra. lra. }
    unfold GetNegativeFlux. fold a.
    assert ((if Rle_dec (mX w / a) 1
      then if Rge_dec (mX w / a) (-1)
           then (- (mX w / a - 1) * (mX w / a - 1) * (1 / 4), - energy w * (mX w / a - 1) * (1 / 2))
           else (mX w / a, energy w)
      else (0, 0)) = (mX w / a, energy w)) as ->.
    { destruct (Rle_dec (mX w / a) 1); [|exfalso; lra]. destruct (Rge_dec (mX w / a) (-1)); [|reflexivity].
      assert (mX w / a = -1) as -> by lra. f_equal; field. }
    pose proof ausm_enthalpy as E.
    apply tuple_eq; cbn.
    - unfold PrimitiveToConservative. cbn. field. lra.
    - field. lra.
    - rewrite map_map. apply map_ext. intros. field. lra.
    - transitivity (mX w * (mass w * ausm_h gamma w)); [field; lra|]. rewrite E. cbn. ring.
  Qed.

  Lemma pos_zero : mX w <= - a -> GetPositiveFlux gamma w = setZero w.
  Proof.
    intros S. pose proof (sound_pos gamma w ltac:(lra) H) as A. fold a in A.
    assert (mX w / a <= -1) as Q. { apply Rmult_le_reg_r with a; [auto|]. unfold Rdiv.
      rewrite Rmult_assoc, Rinv_l, Rmult_1_r by lra. lra. }
    unfold GetPositiveFlux. fold a. 
    assert ((if Rge_dec (mX w / a) (-1)
      then if Rle_dec (mX w / a) 1
           then ((mX w / a + 1) * (mX w / a + 1) * (1 / 4), energy w * (mX w / a + 1) * (1 / 2))
           else (mX w / a, energy w)
      else (0, 0)) = (0, 0)) as ->.
    { destruct (Rge_dec (mX w / a) (-1)); [|reflexivity]. destruct (Rle_dec (mX w / a) 1); [|exfalso; lra].
      assert (mX w / a = -1) as -> by lra. f_equal; field. }
    apply tuple_eq; cbn; try ring. apply map_ext. intros. ring.
  Qed.

  Lemma neg_zero : mX w >= a -> GetNegativeFlux gamma w = setZero w.
  Proof.
    intros S. pose proof (sound_pos gamma w ltac:(lra) H) as A. fold a in A.
    assert (mX w / a >= 1) as Q. { apply Rle_ge. apply Rmult_le_reg_r with a; [auto|]. unfold Rdiv.
      rewrite Rmult_assoc, Rinv_l, Rmult_1_r by lra. lra. }
    unfold GetNegativeFlux. fold a.
    assert ((if Rle_dec (mX w / a) 1
      then if Rge_dec (mX w / a) (-1)
           then (- (mX w / a - 1) * (mX w / a - 1) * (1 / 4), - energy w * (mX w / a - 1) * (1 / 2))
           else (mX w / a, energy w)
      else (0, 0)) = (0, 0)) as ->.
    { destruct (Rle_dec (mX w / a) 1); [|reflexivity]. destruct (Rge_dec (mX w / a) (-1)); [|exfalso; lra].
      assert (mX w / a = 1) as -> by lra. f_equal; field. }
    apply tuple_eq; cbn; try ring. apply map_ext. intros. ring.
  Qed.

  (** the two split fluxes add up to the whole *)
  Lemma ausm_consistent : Ausm_GetFluxUpwind gamma w w = PrimitiveToFlux gamma w.
  Proof.
    pose proof (sound_pos gamma w ltac:(lra) H) as A. fold a in A.
    assert (forall l : list R, addL l (map (fun _ => 0) l) = l) as Z.
    { induction l; cbn; [reflexivity|]. rewrite IHl. f_equal. ring. }
    assert (forall l : list R, addL (map (fun _ => 0) l) l = l) as Z'.
    { induction l; cbn; [reflexivity|]. rewrite IHl. f_equal. ring. }
    unfold Ausm_GetFluxUpwind.
    destruct (Rge_dec (mX w) a) as [S|S]; [|destruct (Rle_dec (mX w) (- a)) as [S'|S']].
    - rewrite pos_supersonic, neg_zero by auto. apply tuple_eq; cbn; try ring.
      rewrite <- (Z (map _ (map _ _))) at 2. rewrite !map_map. reflexivity.
    - rewrite pos_zero, neg_supersonic by auto. apply tuple_eq; cbn; try ring.
      rewrite <- (Z' (map _ (map _ _))) at 2. rewrite !map_map. reflexivity.
    - assert (-1 < mX w / a) as Q1. { apply Rmult_lt_reg_r with a; [auto|]. unfold Rdiv.
        rewrite Rmult_assoc, Rinv_l, Rmult_1_r by lra. lra. }
      assert (mX w / a < 1) as Q2. { apply Rmult_lt_reg_r with a; [auto|]. unfold Rdiv.
        rewrite Rmult_assoc, Rinv_l, Rmult_1_r by lra. lra. }
      unfold GetPositiveFlux, GetNegativeFlux. fold a.
      destruct (Rge_dec (mX w / a) (-1)); [|exfalso; lra]. destruct (Rle_dec (mX w / a) 1); [|exfalso; lra].
      pose proof ausm_enthalpy as E.
      apply tuple_eq; cbn.
      + field. lra.
      + field. lra.
      + rewrite map_map. induction (mT w); cbn; [reflexivity|]. f_equal; [field; lra|assumption].
      + transitivity (mX w * (mass w * ausm_h gamma w)); [field; lra|]. rewrite E. cbn. ring.
  Qed.
End Ausm.

Lemma mirror_sound gamma w : GetSpeedOfSound gamma (mirror w) = GetSpeedOfSound gamma w.
Proof. reflexivity. Qed.

Lemma mirror_h gamma w : ausm_h gamma (mirror w) = ausm_h gamma w.
Proof. unfold ausm_h. rewrite mirror_sound. cbn. f_equal. f_equal. ring. Qed.

(** mirroring exchanges the two split fluxes *)
Lemma pos_mirror gamma w : 1 < gamma -> physical w ->
  GetPositiveFlux gamma (mirror w) = negT (mirror (GetNegativeFlux gamma w)).
Proof.
  intros G H. pose proof (sound_pos gamma w ltac:(lra) H) as A.
  unfold GetPositiveFlux, GetNegativeFlux. rewrite mirror_sound, mirror_h. cbn [mX mirror].
  set (a := GetSpeedOfSound gamma w) in *.
  replace (- mX w / a) with (- (mX w / a)) by (field; lra). set (m := mX w / a).
  cbn [energy mirror mass mT].
  destruct (Rge_dec (- m) (-1)), (Rle_dec m 1); try (exfalso; lra).
  - destruct (Rle_dec (- m) 1), (Rge_dec m (-1)); try (exfalso; lra).
    + apply tuple_eq; cbn; [field|field| |field]. rewrite map_map. apply map_ext. intros; field.
    + apply tuple_eq; cbn; [field|field| |field]. rewrite map_map. apply map_ext. intros; field.
  - apply tuple_eq; cbn; [field|field| |field]. rewrite map_map. apply map_ext. intros; field.
Qed.

Lemma mirror_mirror w : mirror (mirror w) = w.
Proof. destruct w; unfold mirror; cbn. f_equal. ring. Qed.
Lemma negT_negT w : negT (negT w) = w.
Proof. destruct w; unfold negT; cbn. f_equal; try ring. rewrite map_map. apply map_id'. intros; ring. Qed.

Lemma neg_mirror gamma w : 1 < gamma -> physical w ->
  GetNegativeFlux gamma (mirror w) = negT (mirror (GetPositiveFlux gamma w)).
Proof.
  intros G H. rewrite <- (mirror_mirror w) at 2. rewrite pos_mirror by (auto; destruct H; split; auto).
  destruct (GetNegativeFlux gamma (mirror w)). unfold mirror, negT. cbn. f_equal; try ring.
  rewrite map_map. symmetry. apply map_id'. intros; ring.
Qed.

Lemma addL_comm a b : addL a b = addL b a.
Proof. revert b. induction a; intros [|y b]; cbn; try reflexivity. f_equal; [ring|apply IHa]. Qed.

Lemma addL_opp a b : addL (map Ropp a) (map Ropp b) = map Ropp (addL a b).
Proof. revert b. induction a; intros [|y b]; cbn; try reflexivity. f_equal; [ring|apply IHa]. Qed.

Theorem ausm_mirror gamma l r : 1 < gamma -> physical l -> physical r ->
  Ausm_GetFluxUpwind gamma (mirror r) (mirror l) = negT (mirror (Ausm_GetFluxUpwind gamma l r)).
Proof.
  intros G Hl Hr. unfold Ausm_GetFluxUpwind. rewrite pos_mirror, neg_mirror by auto.
  apply tuple_eq; cbn; try ring. rewrite addL_opp, addL_comm. reflexivity.
Qed.

Lemma addL_zero_r a (b : list R) : length a = length b -> addL a (map (fun _ => 0) b) = a.
Proof.
  revert b. induction a; intros [|y b] H; cbn in *; try reflexivity; try discriminate.
  f_equal; [ring|apply IHa; lia].
Qed.

Theorem ausm_supersonic gamma l r : 1 < gamma -> physical l -> physical r -> length (mT l) = length (mT r) ->
  (GetSpeedOfSound gamma l <= mX l -> GetSpeedOfSound gamma r <= mX r ->
   Ausm_GetFluxUpwind gamma l r = PrimitiveToFlux gamma l) /\
  (mX l <= - GetSpeedOfSound gamma l -> mX r <= - GetSpeedOfSound gamma r ->
   Ausm_GetFluxUpwind gamma l r = PrimitiveToFlux gamma r).
Proof.
  intros G Hl Hr L. split; intros Sl Sr; unfold Ausm_GetFluxUpwind.
  - rewrite pos_supersonic, neg_zero by (auto; lra).
    apply tuple_eq; cbn; try ring. apply addL_zero_r. rewrite !map_length. exact L.
  - rewrite neg_supersonic, pos_zero by (auto; lra).
    apply tuple_eq; cbn; try ring. rewrite addL_comm. apply addL_zero_r. rewrite !map_length. auto.
Qed.

(** ** HLLC *)

Lemma Hllc_equal_pressure gamma l r : 1 < gamma -> physical l -> physical r ->
  energy l = energy r -> mX l = mX r ->
  Hllc_Initialize gamma l r = (mX l - GetSpeedOfSound gamma l, mX l, mX r + GetSpeedOfSound gamma r).
Proof.
  intros G Hl Hr E U. unfold Hllc_Initialize. rewrite <- E, <- U.
  pose proof (sound_pos gamma l ltac:(lra) Hl) as Al. pose proof (sound_pos gamma r ltac:(lra) Hr) as Ar.
  set (al := GetSpeedOfSound gamma l) in *. set (ar := GetSpeedOfSound gamma r) in *.
  replace ((energy l + energy l - (mX l - mX l) * ((mass l + mass r) / 2) * ((al + ar) / 2)) / 2)
    with (energy l) by field.
  rewrite Rmax_right by (destruct Hl; lra).
  unfold GetQ. destruct (Rle_dec (energy l) (energy l)); [|lra].
  destruct Hl as [Ml Pl], Hr as [Mr Pr].
  f_equal; [f_equal|]; try ring. field. 
  assert (0 < mass l * al) by nra. assert (0 < mass r * ar) by nra. nra.
Qed.

(** the star flux is the flux itself when the star speed is the speed of the state *)
Lemma star_flux_same gamma w k : 1 < gamma -> mass w <> 0 -> k <> mX w ->
  GetStarFlux gamma (mX w) w k = PrimitiveToFlux gamma w.
Proof.
  intros G M K. apply tuple_eq; cbn.
  - field. lra.
  - field. lra.
  - rewrite !map_map. induction (mT w); cbn; [reflexivity|]. f_equal; [field; lra|exact IHl].
  - unfold GetDynamicPressure. field. lra.
Qed.

Theorem hllc_consistent gamma w : 1 < gamma -> physical w ->
  Hllc_GetFluxUpwind gamma w w = PrimitiveToFlux gamma w.
Proof.
  intros G H. unfold Hllc_GetFluxUpwind. rewrite Hllc_equal_pressure by auto.
  pose proof (sound_pos gamma w ltac:(lra) H). destruct H.
  destruct (Rle_dec 0 _); [reflexivity|]. destruct (Rle_dec _ 0); [reflexivity|].
  destruct (Rle_dec 0 _); apply star_flux_same; lra.
Qed.

Theorem hllc_contact gamma l r : 1 < gamma -> physical l -> physical r ->
  energy l = energy r -> mX l = 0 -> mX r = 0 ->
  Hllc_GetFluxUpwind gamma l r = mkTuple 0 (energy l) (map (fun _ => 0) (mT l)) 0.
Proof.
  intros G Hl Hr E U V. unfold Hllc_GetFluxUpwind. rewrite Hllc_equal_pressure by (auto; lra).
  pose proof (sound_pos gamma l ltac:(lra) Hl). pose proof (sound_pos gamma r ltac:(lra) Hr).
  destruct Hl.
  destruct (Rle_dec 0 _); [lra|]. destruct (Rle_dec _ 0); [lra|].
  destruct (Rle_dec 0 _); [|lra]. rewrite star_flux_same by lra.
  apply tuple_eq; cbn; rewrite U; try ring. rewrite map_map. apply map_ext. intros; ring.
Qed.

(** a moving contact is kept as well *)
Theorem hllc_moving_contact gamma l r : 1 < gamma -> physical l -> physical r ->
  energy l = energy r -> mX l = mX r ->
  Hllc_GetFluxUpwind gamma l r = PrimitiveToFlux gamma (if Rle_dec 0 (mX l) then l else r).
Proof.
  intros G Hl Hr E U. unfold Hllc_GetFluxUpwind. rewrite Hllc_equal_pressure by auto.
  pose proof (sound_pos gamma l ltac:(lra) Hl). pose proof (sound_pos gamma r ltac:(lra) Hr).
  destruct Hl, Hr. rewrite <- U.
  destruct (Rle_dec 0 (mX l)) as [L|L].
  - destruct (Rle_dec 0 _); [reflexivity|]. destruct (Rle_dec _ 0); [lra|].
    apply star_flux_same; lra.
  - destruct (Rle_dec 0 _); [lra|]. destruct (Rle_dec _ 0); [reflexivity|].
    rewrite U. apply star_flux_same; lra.
Qed.

Theorem hllc_upwind gamma l r : let '(sl, _, sr) := Hllc_Initialize gamma l r in
  (0 <= sl -> Hllc_GetFluxUpwind gamma l r = PrimitiveToFlux gamma l) /\
  (sl < 0 -> sr <= 0 -> Hllc_GetFluxUpwind gamma l r = PrimitiveToFlux gamma r).
Proof.
  unfold Hllc_GetFluxUpwind. destruct (Hllc_Initialize gamma l r) as [[sl ss] sr].
  split; intros; destruct (Rle_dec 0 sl); try lra; try reflexivity.
  destruct (Rle_dec sr 0); [reflexivity|lra].
Qed.

(** ** The star states of HLLC satisfy the jump conditions *)

Lemma GetQ_pos gamma p pk : 1 < gamma -> 0 < pk -> 0 < GetQ gamma p pk.
Proof.
  intros G P. unfold GetQ. destruct (Rle_dec p pk); [lra|]. apply sqrt_lt_R0.
  assert (1 < p / pk). { apply Rmult_lt_reg_r with pk; [auto|]. unfold Rdiv.
    rewrite Rmult_assoc, Rinv_l, Rmult_1_r by lra. lra. }
  assert (0 < (gamma + 1) / 2 * (p / pk - 1)) by (apply Rmult_lt_0_compat; lra).
  assert (0 < (gamma + 1) / 2 * (p / pk - 1) / gamma).
  { apply Rmult_lt_0_compat; [auto|]. apply Rinv_0_lt_compat. lra. }
  lra.
Qed.

Lemma hllc_waves gamma l r sl ss sr : 1 < gamma -> physical l -> physical r ->
  Hllc_Initialize gamma l r = (sl, ss, sr) ->
  sl < mX l /\ mX r < sr /\
  energy l + mass l * (sl - mX l) * (ss - mX l) = energy r + mass r * (sr - mX r) * (ss - mX r).
Proof.
  intros G Hl Hr. unfold Hllc_Initialize.
  set (pe := Rmax 0 _). intros E. injection E as E1 E2 E3.
  pose proof (sound_pos gamma l ltac:(lra) Hl) as Al. pose proof (sound_pos gamma r ltac:(lra) Hr) as Ar.
  destruct Hl as [Ml Pl], Hr as [Mr Pr].
  pose proof (GetQ_pos gamma pe _ G Pl) as Ql. pose proof (GetQ_pos gamma pe _ G Pr) as Qr.
  assert (0 < GetSpeedOfSound gamma l * GetQ gamma pe (energy l)) by nra.
  assert (0 < GetSpeedOfSound gamma r * GetQ gamma pe (energy r)) by nra.
  assert (sl < mX l) as L1 by lra. assert (mX r < sr) as L2 by lra.
  split; [auto|]. split; [auto|].
  rewrite E1, E3 in E2.
  assert (mass l * (sl - mX l) - mass r * (sr - mX r) < 0) as D by nra.
  assert (ss * (mass l * (sl - mX l) - mass r * (sr - mX r)) =
    energy r - energy l + mass l * mX l * (sl - mX l) - mass r * mX r * (sr - mX r)) as K.
  { rewrite <- E2. field. lra. }
  nra.
Qed.

(** the star flux is the flux of a state with velocity [ss] and pressure [p*], joined to the outer
    state by the jump condition at speed [k] *)
Definition star_flux_of (gamma : R) (w : Tuple) (k ss ps : R) (F : Tuple) : Prop :=
  exists rho E,
  F = mkTuple (rho * ss) (rho * ss * ss + ps) (map (fun v => rho * ss * v) (mT w)) ((E + ps) * ss) /\
  let U := PrimitiveToConservative gamma w in
  let FU := PrimitiveToFlux gamma w in
  mass F - mass FU = k * (rho - mass U) /\
  mX F - mX FU = k * (rho * ss - mX U) /\
  addL (mT F) (map Ropp (mT FU)) = scaleL k (addL (map (fun v => rho * v) (mT w)) (map Ropp (mT U))) /\
  energy F - energy FU = k * (E - energy U).

Lemma star_flux_jump gamma w k ss : 1 < gamma -> mass w <> 0 -> k <> mX w -> k <> ss ->
  star_flux_of gamma w k ss (energy w + mass w * (k - mX w) * (ss - mX w)) (GetStarFlux gamma ss w k).
Proof.
  intros G M K S. exists (mass w * (k - mX w) / (k - ss)).
  exists (((energy w / (gamma - 1) + mass w * (mX w * mX w + sumsq (mT w)) * (1 / 2)) / mass w
           + (ss - mX w) * (ss + energy w / (mass w * (k - mX w)))) * (mass w * (k - mX w) / (k - ss))).
  split; [|repeat split].
  - apply tuple_eq; cbn.
    + field. lra.
    + field. lra.
    + rewrite !map_map. induction (mT w); cbn; [reflexivity|]. f_equal; [field; lra|exact IHl].
    + unfold GetDynamicPressure. field. repeat split; lra.
  - cbn. ring.
  - cbn. ring.
  - cbn. unfold scaleL. rewrite !map_map. induction (mT w); cbn; [reflexivity|]. f_equal; [field; lra|exact IHl].
  - cbn. ring.
Qed.

Theorem hllc_jump gamma l r sl ss sr : 1 < gamma -> physical l -> physical r ->
  Hllc_Initialize gamma l r = (sl, ss, sr) -> sl < 0 < sr ->
  exists ps, 
  (0 <= ss -> star_flux_of gamma l sl ss ps (Hllc_GetFluxUpwind gamma l r)) /\
  (ss < 0 -> star_flux_of gamma r sr ss ps (Hllc_GetFluxUpwind gamma l r)) /\
  ps = energy l + mass l * (sl - mX l) * (ss - mX l) /\
  ps = energy r + mass r * (sr - mX r) * (ss - mX r).
Proof.
  intros G Hl Hr E [L R].
  destruct (hllc_waves gamma l r sl ss sr G Hl Hr E) as [W1 [W2 W3]].
  exists (energy l + mass l * (sl - mX l) * (ss - mX l)).
  unfold Hllc_GetFluxUpwind. rewrite E.
  destruct (Rle_dec 0 sl); [lra|]. destruct (Rle_dec sr 0); [lra|].
  destruct Hl as [Ml _], Hr as [Mr _].
  split; [|split; [|split]]; auto; intros S.
  - destruct (Rle_dec 0 ss); [|lra]. apply star_flux_jump; lra.
  - destruct (Rle_dec 0 ss); [lra|]. rewrite W3. apply star_flux_jump; lra.
Qed.
