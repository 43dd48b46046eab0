(** Properties of the exact Riemann solver of the Euler equations. *)
From Coq Require Import Reals List Lra Lia.
From Verif Require Import Arrays Model_Euler Spec_Euler Model_Exact Spec_Exact Proof_Euler Proof_Exact.
Import ListNotations.
Open Scope R_scope.

(** ** C34: the answer and the history of the solver *)

(** the same question gets two answers, depending on what was asked before *)
Theorem C34_exact_solver_has_no_memory_refuted :
  exists fuel gamma history1 history2 l r s1 s2 F1 F2,
    star_u_after fuel gamma 0 history1 = Some s1 /\ star_u_after fuel gamma 0 history2 = Some s2 /\
    option_map fst (Exact_GetFluxUpwind fuel gamma s1 l r) = Some F1 /\
    option_map fst (Exact_GetFluxUpwind fuel gamma s2 l r) = Some F2 /\ F1 <> F2.
Proof.
  pose (w := mkTuple (7 / 5) 1 [0] 1). assert (physical w) as P by (split; cbn; lra).
  pose (l := mkTuple (7 / 5) 2 [3] 1). pose (r := mkTuple 0 0 [0] 0).
  assert (GetSpeedOfSound (7 / 5) l = 1) as Sl.
  { unfold GetSpeedOfSound, l. cbn [mass energy].
    destruct (Rle_dec (7 / 5) 0); [lra|]. destruct (Rle_dec 1 0); [lra|].
    replace (7 / 5 * 1 / (7 / 5)) with 1 by field. apply sqrt_1. }
  assert (forall s, option_map fst (Exact_GetFluxUpwind 1 (7 / 5) s l r) =
    Some (PrimitiveToFlux (7 / 5) (mkTuple (7 / 5) 2 (if Rgt_dec s 0 then [3] else [0]) 1))) as E.
  { intros s. unfold Exact_GetFluxUpwind, GetPrimitiveUpwind, GetPrimitiveUpwind_private. rewrite Sl.
    unfold l, r. cbn [mass mX mT energy].
    destruct (Rgt_dec (7 / 5) 0); [|lra]. destruct (Rgt_dec 0 0); [lra|].
    destruct (Rge_dec 2 1); [|lra]. reflexivity. }
  exists 1%nat, (7 / 5), [], [(w, w)], l, r, 0, 1. eexists. eexists.
  split; [reflexivity|]. split.
  { cbn [star_u_after]. rewrite (exact_consistent (7 / 5) w 0 0 ltac:(lra) P). reflexivity. }
  split; [apply E|]. split; [apply E|].
  destruct (Rgt_dec 0 0); [lra|]. destruct (Rgt_dec 1 0); [|lra].
  intros Q. apply (f_equal mT) in Q. cbn in Q. injection Q as Q. lra.
Qed.
Print Assumptions C34_exact_solver_has_no_memory_refuted.

(** it has no memory if the transverse velocities are equal (in particular in one dimension) or no
    vacuum comes up *)
Theorem C34_no_memory_without_vacuum_partial : forall fuel gamma s1 s2 l r,
  mT l = mT r \/ (1 < gamma /\ physical l /\ physical r /\ ~ vacuum_between gamma l r) ->
  option_map fst (Exact_GetFluxUpwind fuel gamma s1 l r) =
  option_map fst (Exact_GetFluxUpwind fuel gamma s2 l r).
Proof.
  intros fuel gamma s1 s2 l r H. apply exact_no_memory. destruct H as [H|[G [Pl [Pr N]]]]; [auto|right].
  split; [exact G|]. split; [exact Pl|]. split; [exact Pr|]. unfold pf0, vacuum_between in *. lra.
Qed.
Print Assumptions C34_no_memory_without_vacuum_partial.

(** equal states get the physical flux, after any history *)
Theorem C34_exact_consistent : forall fuel gamma s w F, 1 < gamma -> physical w -> axis_flux gamma w F ->
  option_map fst (Exact_GetFluxUpwind (S fuel) gamma s w w) = Some F.
Proof.
  intros fuel gamma s w F G P H. rewrite exact_consistent by assumption. cbn. f_equal.
  apply axis_flux_unique with gamma w; [apply P2F_axis; destruct P; lra|exact H].
Qed.
Print Assumptions C34_exact_consistent.

Example C34_example : ~ vacuum_between (7 / 5) (mkTuple 1 0 [1] 1) (mkTuple 1 0 [2] 1).
Proof.
  unfold vacuum_between. cbn [mX].
  pose proof (sound_pos (7 / 5) (mkTuple 1 0 [1] 1) ltac:(lra) ltac:(split; cbn; lra)).
  pose proof (sound_pos (7 / 5) (mkTuple 1 0 [2] 1) ltac:(lra) ltac:(split; cbn; lra)). lra.
Qed.

(** ** C35 *)

(** [F], [F'] are the possibly failing functions given to the iteration *)
Theorem C35_FindRoot_never_overshoots : forall F F' f f' eps,
  (forall x, 0 < x -> F x = Some (f x)) -> (forall x, 0 < x -> F' x = Some (f' x)) ->
  below_tangents f f' -> (forall x, 0 < x -> 0 < f' x) -> 0 < eps ->
  (* one step goes up and not beyond the root *)
  (forall x, 0 < x -> f x < - eps -> x < x - f x / f' x /\ f (x - f x / f' x) <= 0) /\
  (* an answer is within the tolerance, from below *)
  (forall fuel x r, 0 < x -> FindRoot F F' eps fuel x = Some r -> 0 < r /\ - eps < f r <= 0) /\
  (* there is an answer if the function changes sign, unless the residual is exactly the tolerance *)
  (forall x d z, 0 < x -> 0 < d -> (forall y, 0 < y < d -> f y <= 0) -> 0 < z -> 0 <= f z ->
     exists n r, 0 < r /\ - eps <= f r <= 0 /\ forall fuel, (n <= fuel)%nat ->
     FindRoot F F' eps fuel x = if Req_EM_T (f r) (- eps) then None else Some r).
Proof.
  intros F F' f f' eps HF HF' T P E. split; [|split].
  - intros x Hx L. destruct (newton_step f f' eps T P E x Hx L) as [A [B _]]. auto.
  - intros fuel x r. apply (FindRoot_result F F' f f' eps); assumption.
  - intros x d z. apply (FindRoot_terminates F F' f f' eps); assumption.
Qed.
Print Assumptions C35_FindRoot_never_overshoots.

(** the pressure function of two states between which there is no vacuum is such a function *)
Theorem C35_star_pressure_found : forall gamma l r, 1 < gamma -> physical l -> physical r ->
  ~ vacuum_between gamma l r ->
  exists n p residual, 0 < p /\ pressure_function gamma l r p = Some residual /\ - root_eps <= residual <= 0 /\
  forall fuel, (n <= fuel)%nat ->
    FindRoot (pressure_function gamma l r) (pressure_prime gamma l r) root_eps fuel (energy l) =
    if Req_EM_T residual (- root_eps) then None else Some p.
Proof.
  intros gamma l r G Pl Pr N.
  destruct (star_pressure_found gamma l r G Pl Pr) as [n [p [Hp [Hr H]]]].
  { unfold pf0, vacuum_between in *. lra. }
  exists n, p, (pf gamma l r p). split; [exact Hp|]. split; [apply pf_eq; assumption|]. auto.
Qed.
Print Assumptions C35_star_pressure_found.

(** the square root minus 2, from 9: halved twice, then up *)
Example C35_example :
  let f x := sqrt x - 2 in let f' x := / (2 * sqrt x) in
  below_tangents f f' /\ (forall x, 0 < x -> 0 < f' x) /\ 0 < f 9 /\ f (9 / 4) < 0.
Proof.
  cbn zeta. split; [|split; [|split]].
  - intros x y Hx Hy. pose proof (sqrt_lt_R0 x Hx) as Sx. pose proof (sqrt_lt_R0 y Hy) as Sy.
    pose proof (sqrt_sqrt x ltac:(lra)) as Ex. pose proof (sqrt_sqrt y ltac:(lra)) as Ey.
    rewrite <- Ex at 3. rewrite <- Ey at 2. set (s := sqrt x) in *. set (t := sqrt y) in *.
    assert (0 <= (t - s) * (t - s) * / (2 * s)) as L.
    { apply Rmult_le_pos; [apply Rle_0_sqr|left; apply Rinv_0_lt_compat; lra]. }
    replace (s - 2 + / (2 * s) * (t * t - s * s)) with (t - 2 + (t - s) * (t - s) * / (2 * s)) by (field; lra). lra.
  - intros x Hx. apply Rinv_0_lt_compat. pose proof (sqrt_lt_R0 x Hx). lra.
  - replace 9 with (3 * 3) by ring. rewrite sqrt_square; lra.
  - replace (9 / 4) with (3 / 2 * (3 / 2)) by field. rewrite sqrt_square; lra.
Qed.

(** ** C67 *)

(** when the iteration has found a root exactly, the star region is joined to both sides by waves,
    and the returned state is the one the time axis sees through the wave of its side *)
Theorem C67_exact_solution : forall gamma l r s fuel p, 1 < gamma -> physical l -> physical r ->
  ~ vacuum_between gamma l r -> 0 < p ->
  FindRoot (pressure_function gamma l r) (pressure_prime gamma l r) root_eps fuel (energy l) = Some p ->
  pressure_function gamma l r p = Some 0 ->
  exists u w, GetPrimitiveUpwind_private fuel gamma s l r = Some (w, u) /\
  joined gamma Wave1 l p u /\ joined gamma Wave3 r p u /\
  (0 < u -> seen_through gamma Wave1 l p u w) /\ (u <= 0 -> seen_through gamma Wave3 r p u w).
Proof.
  intros gamma l r s fuel p G Pl Pr N Hp F Z. rewrite pf_eq in Z by assumption. injection Z as Z.
  destruct (exact_solver_waves gamma l r s fuel p G Pl Pr) as [U [w [E [S1 S3]]]]; try assumption.
  { unfold pf0, vacuum_between in *. lra. }
  eexists. exists w. split; [exact E|]. split; [|split; [|split; [exact S1|exact S3]]].
  - apply joined_both; try assumption. cbn. ring.
  - apply joined_both; try assumption. rewrite U. cbn. ring.
Qed.
Print Assumptions C67_exact_solution.

Theorem C67_vacuum : forall gamma l r s fuel, 1 < gamma -> physical l -> physical r ->
  vacuum_between gamma l r ->
  exists w, GetPrimitiveUpwind_private fuel gamma s l r = Some (w, s) /\
  (w = l /\ 0 < characteristic gamma Wave1 l \/
   w = r /\ characteristic gamma Wave3 r < 0 \/
   physical w /\ same_entropy gamma l w /\ same_invariant gamma Wave1 l w /\ characteristic gamma Wave1 w = 0 \/
   physical w /\ same_entropy gamma r w /\ same_invariant gamma Wave3 r w /\ characteristic gamma Wave3 w = 0 \/
   w = zero_tuple /\ mX l + 2 / (gamma - 1) * GetSpeedOfSound gamma l <= 0 /\
                     0 <= mX r - 2 / (gamma - 1) * GetSpeedOfSound gamma r).
Proof.
  intros gamma l r s fuel G Pl Pr V. apply vacuum_states; try assumption.
  unfold pf0, vacuum_between in *. lra.
Qed.
Print Assumptions C67_vacuum.

(** a shock running from a gas at pressure 4 into one at pressure 1, seen from behind the shock *)
Example C67_example :
  let l := mkTuple 1 (-1) [] 4 in let r := mkTuple 1 (-2) [] 1 in
  ~ vacuum_between 3 l r /\
  FindRoot (pressure_function 3 l r) (pressure_prime 3 l r) root_eps 1 4 = Some 4 /\
  pressure_function 3 l r 4 = Some 0 /\
  GetPrimitiveUpwind_private 1 3 0 l r = Some (mkTuple (3 / 2) (-1) [] 4, -1).
Proof.
  intros l r. assert (physical l) as Pl by (split; cbn; lra). assert (physical r) as Pr by (split; cbn; lra).
  assert (~ vacuum_between 3 l r) as V.
  { unfold vacuum_between. pose proof (sound_pos 3 l ltac:(lra) Pl). pose proof (sound_pos 3 r ltac:(lra) Pr).
    cbn [mX l r]. lra. }
  assert (change 3 1 1 4 = 1) as C.
  { unfold change. destruct (Rge_dec 4 1); [|lra]. unfold shock, SpeedChange_P.
    replace (1 * ((3 + 1) / 2 * 4 + 1 * ((3 - 1) / 2))) with (3 * 3) by field. rewrite sqrt_square; lra. }
  assert (pf 3 l r 4 = 0) as Z.
  { unfold pf, l, r. cbn [mX mass energy]. rewrite change_b, C. ring. }
  assert (pressure_function 3 l r 4 = Some 0) as F0 by (rewrite pf_eq by (try assumption; lra); rewrite Z; reflexivity).
  assert (FindRoot (pressure_function 3 l r) (pressure_prime 3 l r) root_eps 1 4 = Some 4) as FR.
  { unfold FindRoot, FindRoot_halve, FindRoot_newton. rewrite F0. cbn [bind].
    destruct (Rgt_dec 0 0); [lra|]. cbn [bind]. rewrite F0. cbn [bind].
    pose proof root_eps_pos. destruct (Rlt_dec 0 (- root_eps)); [lra|]. cbn [bind]. rewrite F0. cbn [bind].
    rewrite Rabs_R0. destruct (Rlt_dec 0 root_eps); [reflexivity|lra]. }
  split; [exact V|]. split; [exact FR|]. split; [exact F0|].
  unfold GetPrimitiveUpwind_private.
  destruct (Rgt_dec (mass l) 0) as [|X]; [|exfalso; apply X; cbn; lra].
  destruct (Rgt_dec (mass r) 0) as [|X]; [|exfalso; apply X; cbn; lra].
  destruct (Rlt_dec (energy l) 0) as [X|_]; [cbn in X; lra|].
  destruct (Rlt_dec (energy r) 0) as [X|_]; [cbn in X; lra|].
  rewrite pf0_eq by (try assumption; lra). cbn [bind].
  destruct (Rlt_dec (pf0 3 l r) 0) as [_|X]; [|exfalso; unfold vacuum_between, pf0 in *; lra].
  change (energy l) with 4. rewrite FR. cbn [bind]. rewrite !SpeedChange_eq by (try assumption; lra). cbn [bind].
  unfold l, r. cbn [mX mass energy]. rewrite change_b, C.
  replace (1 / 2 * (-2 + 1 + -1 - 0)) with (-1) by field.
  destruct (Rlt_dec 0 (-1)); [lra|]. destruct (Rge_dec 4 1); [|lra].
  unfold PrimitiveNearShock, Shock_u. cbn [mX mass energy].
  destruct (Req_EM_T ((-1 - -2) * 1) 0); [lra|].
  replace (-2 + (4 - 1) / ((-1 - -2) * 1)) with 1 by field.
  unfold TimeAxisAfterShock. destruct (Rgt_dec 1 0); [|lra].
  destruct (Req_EM_T (-1 - 1) 0); [lra|]. cbn [bind mT].
  do 2 f_equal. apply tuple_eq; cbn; try reflexivity. field.
Qed.
