(** Two nearly equal states for which the iterations of the exact solver end at once, at the pressure of the state
    on the left: seen from the other side that is another pressure. *)
From Coq Require Import Reals List Lra Lia.
From Verif Require Import Arrays Model_Euler Spec_Euler Proof_Euler Proof_Rotated Model_Exact Spec_Mirror Proof_Mirror Proof_MirrorExact Sample_Mirror.
Import ListNotations.
Open Scope R_scope.

Definition mono : R := 5 / 3.
Definition tiny : R := / 10 ^ 9.
Definition p_left : R := (1 - tiny) ^ 5.
Definition w_left (u : R) : Tuple := mkTuple 15 u [0; 0] p_left.
Definition w_right (u : R) : Tuple := mkTuple (5 / 3) u [0; 0] 1.

Lemma tiny_eq : tiny = / 1000000000. Proof. unfold tiny. f_equal. lra. Qed.
Lemma p_left_bounds : 1 - 5 * tiny < p_left < 1 - 4 * tiny.
Proof. unfold p_left. rewrite tiny_eq. split; lra. Qed.
Lemma eps_eq : root_eps = 10 * tiny.
Proof. unfold root_eps, tiny. field. Qed.
Lemma tiny_pos : 0 < tiny < / 1000. Proof. rewrite tiny_eq. lra. Qed.

Lemma right_sound u : GetSpeedOfSound mono (w_right u) = 1.
Proof.
  unfold GetSpeedOfSound. cbn [mass energy w_right]. destruct (Rle_dec (5 / 3) 0); [lra|]. destruct (Rle_dec 1 0); [lra|].
  replace (mono * 1 / (5 / 3)) with 1 by (unfold mono; field). apply sqrt_1.
Qed.

Lemma right_at_left u : SpeedChange mono (w_right u) p_left = Some (- 3 * tiny).
Proof.
  pose proof p_left_bounds as B. pose proof tiny_pos as T. unfold SpeedChange. rewrite right_sound. cbn [mass energy w_right].
  destruct (Req_EM_T (5 / 3) 0); [lra|]. destruct (Rlt_dec p_left 0); [lra|]. destruct (Rge_dec p_left 1); [lra|]. f_equal.
  unfold powR. destruct (Req_EM_T (p_left / 1) 0); [lra|].
  replace (Rpower (p_left / 1) ((mono - 1) / 2 / mono)) with (1 - tiny); [unfold mono; field|].
  replace (p_left / 1) with (Rpower (1 - tiny) (INR 5)).
  - rewrite Rpower_mult. replace (INR 5 * ((mono - 1) / 2 / mono)) with 1 by (unfold mono; cbn; field).
    rewrite Rpower_1; lra.
  - rewrite Rpower_pow by lra. unfold p_left. field.
Qed.
Lemma left_at_left u : SpeedChange mono (w_left u) p_left = Some 0.
Proof.
  pose proof p_left_bounds as B. pose proof tiny_pos as T. unfold SpeedChange. cbn [mass energy w_left].
  destruct (Rlt_dec p_left 0); [lra|]. destruct (Rge_dec p_left p_left); [|lra].
  assert (0 < sqrt (15 * SpeedChange_P mono p_left p_left)) by (apply sqrt_lt_R0; unfold SpeedChange_P, mono; lra).
  destruct (Req_EM_T _ 0); [lra|]. f_equal. unfold Rdiv. ring.
Qed.
Lemma right_at_right u : SpeedChange mono (w_right u) 1 = Some 0.
Proof.
  unfold SpeedChange. cbn [mass energy w_right].
  destruct (Rlt_dec 1 0); [lra|]. destruct (Rge_dec 1 1); [|lra].
  assert (0 < sqrt (5 / 3 * SpeedChange_P mono 1 1)) by (apply sqrt_lt_R0; unfold SpeedChange_P, mono; lra).
  destruct (Req_EM_T _ 0); [lra|]. f_equal. unfold Rdiv. ring.
Qed.
Lemma left_at_right u : exists c, SpeedChange mono (w_left u) 1 = Some c /\ 0 < c < 4 * tiny.
Proof.
  pose proof p_left_bounds as B. pose proof tiny_pos as T. unfold SpeedChange. cbn [mass energy w_left].
  destruct (Rlt_dec 1 0); [lra|]. destruct (Rge_dec 1 p_left); [|lra].
  assert (S : 4 <= sqrt (15 * SpeedChange_P mono p_left 1)).
  { replace 4 with (sqrt (4 * 4)) by (apply sqrt_square; lra). apply sqrt_le_1_alt. unfold SpeedChange_P, mono. lra. }
  set (d := sqrt _) in *. destruct (Req_EM_T d 0); [lra|]. eexists. split; [reflexivity|]. split.
  - apply Rdiv_lt_0_compat; lra.
  - apply Rmult_lt_reg_r with d; [lra|]. replace ((1 - p_left) / d * d) with (1 - p_left) by (field; lra). nra.
Qed.

Lemma found_at_once f f' x v : f x = Some v -> - root_eps < v <= 0 -> FindRoot f f' root_eps 1 x = Some x.
Proof.
  intros E B. unfold FindRoot, FindRoot_halve, FindRoot_newton, bind. rewrite E. destruct (Rgt_dec v 0); [lra|].
  rewrite E. destruct (Rlt_dec v (- root_eps)); [lra|]. rewrite E.
  destruct (Rlt_dec (Rabs v) root_eps) as [|NR]; [reflexivity|]. exfalso. apply NR. apply Rabs_def1; lra.
Qed.

Lemma zero_change w : physical w -> SpeedChange mono w 0 = Some (- 3 * GetSpeedOfSound mono w).
Proof.
  intros [M E]. unfold SpeedChange. destruct (Rlt_dec 0 0); [lra|]. destruct (Rge_dec 0 (energy w)); [lra|].
  destruct (Req_EM_T (mass w) 0); [lra|]. f_equal. unfold powR. replace (0 / energy w) with 0 by (unfold Rdiv; ring).
  destruct (Req_EM_T 0 0); [|lra]. unfold mono. field.
Qed.
Lemma sound_nonneg w : 0 <= GetSpeedOfSound mono w.
Proof.
  unfold GetSpeedOfSound. destruct (Rle_dec (mass w) 0); [lra|]. destruct (Rle_dec (energy w) 0); [lra|]. apply sqrt_pos.
Qed.

Lemma left_physical u : physical (w_left u). Proof. pose proof p_left_bounds. pose proof tiny_pos. split; cbn [w_left mass energy]; lra. Qed.
Lemma right_physical u : physical (w_right u). Proof. split; cbn; lra. Qed.

(** from the left: the pressure of the left state *)
Lemma from_left : exists w u, GetPrimitiveUpwind_private 1 mono 0 (w_left (2 * tiny)) (w_right (- 2 * tiny)) = Some (w, u) /\
  mass w * mX w * mX w + energy w < 1.
Proof.
  pose proof p_left_bounds as B. pose proof tiny_pos as T. pose proof eps_eq as EE.
  set (l := w_left (2 * tiny)). set (r := w_right (- 2 * tiny)).
  assert (Z : pressure_function mono l r 0 = Some (- 3 * GetSpeedOfSound mono l + - 3 * GetSpeedOfSound mono r + (- 2 * tiny - 2 * tiny))).
  { unfold pressure_function. rewrite (zero_change l (left_physical _)), (zero_change r (right_physical _)). reflexivity. }
  assert (F : FindRoot (pressure_function mono l r) (pressure_prime mono l r) root_eps 1 (energy l) = Some p_left).
  { apply (found_at_once _ _ _ (- 7 * tiny)); [|lra]. unfold pressure_function. change (energy l) with p_left. unfold l, r.
    rewrite left_at_left, right_at_left. cbn [bind]. f_equal. cbn. ring. }
  pose proof (sound_nonneg l). pose proof (sound_nonneg r).
  pose proof (private_ordinary 1 mono 0 l r p_left _ _ _ (left_physical _) (right_physical _) Z ltac:(lra) F (left_at_left _) (right_at_left _)) as P.
  cbv zeta in P. rewrite P. clear P. change (mX l) with (2 * tiny). change (mX r) with (- 2 * tiny).
  replace (1 / 2 * (- 2 * tiny + - 3 * tiny + 2 * tiny - 0)) with (- (3 / 2) * tiny) by field.
  destruct (Rlt_dec 0 (- (3 / 2) * tiny)); [lra|]. unfold near. change (energy r) with 1. cbn [energy].
  destruct (Rge_dec p_left 1); [lra|]. unfold PrimitiveNearExpansion, r. rewrite right_sound. cbn [AddOrMinus mX mT mass energy w_right].
  replace (1 - (mono - 1) / 2 * (- 2 * tiny - - (3 / 2) * tiny)) with (1 + tiny / 6) by (unfold mono; field).
  destruct (Rgt_dec (- (3 / 2) * tiny + (1 + tiny / 6)) 0); [|lra]. destruct (Req_EM_T ((1 + tiny / 6) * (1 + tiny / 6)) 0); [nra|].
  eexists _, _. split; [reflexivity|]. cbn [mass mX energy].
  assert (Q : mono * p_left / ((1 + tiny / 6) * (1 + tiny / 6)) <= 2).
  { apply Rmult_le_reg_r with ((1 + tiny / 6) * (1 + tiny / 6)); [nra|].
    replace (mono * p_left / ((1 + tiny / 6) * (1 + tiny / 6)) * ((1 + tiny / 6) * (1 + tiny / 6))) with (mono * p_left) by (field; lra).
    unfold mono. nra. }
  set (q := mono * p_left / _) in *. nra.
Qed.

(** from the right: the right state itself *)
Lemma from_right : exists u, GetPrimitiveUpwind_private 1 mono 0 (w_right (2 * tiny)) (w_left (- 2 * tiny)) = Some (w_right (2 * tiny), u).
Proof.
  pose proof p_left_bounds as B. pose proof tiny_pos as T. pose proof eps_eq as EE.
  set (l := w_right (2 * tiny)). set (r := w_left (- 2 * tiny)).
  assert (Z : pressure_function mono l r 0 = Some (- 3 * GetSpeedOfSound mono l + - 3 * GetSpeedOfSound mono r + (- 2 * tiny - 2 * tiny))).
  { unfold pressure_function. rewrite (zero_change l (right_physical _)), (zero_change r (left_physical _)). reflexivity. }
  destruct (left_at_right (- 2 * tiny)) as (c & C & Bc).
  assert (F : FindRoot (pressure_function mono l r) (pressure_prime mono l r) root_eps 1 (energy l) = Some 1).
  { apply (found_at_once _ _ _ (c - 4 * tiny)); [|lra]. unfold pressure_function. change (energy l) with 1. unfold l, r.
    rewrite right_at_right, C. cbn [bind]. f_equal. cbn. ring. }
  pose proof (sound_nonneg l). pose proof (sound_nonneg r).
  pose proof (private_ordinary 1 mono 0 l r 1 _ _ _ (right_physical _) (left_physical _) Z ltac:(lra) F (right_at_right _) C) as P.
  cbv zeta in P. rewrite P. clear P. change (mX l) with (2 * tiny). change (mX r) with (- 2 * tiny).
  destruct (Rlt_dec 0 (1 / 2 * (- 2 * tiny + c + 2 * tiny - 0))); [|lra]. unfold near. change (energy l) with 1. cbn [energy]. unfold l.
  destruct (Rge_dec 1 1); [|lra]. unfold PrimitiveNearShock.
  assert (S : ~ Shock_u (w_right (2 * tiny)) (mkTuple 0 (1 / 2 * (- 2 * tiny + c + 2 * tiny - 0)) [] 1) < 0).
  { unfold Shock_u. cbn [mX mass energy w_right]. destruct (Req_EM_T _ 0); [lra|].
    replace ((1 - 1) / _) with 0 by (unfold Rdiv; ring). lra. }
  unfold TimeAxisAfterShock. destruct (Rlt_dec _ 0); [contradiction|]. eexists. reflexivity.
Qed.
