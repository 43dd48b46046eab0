(** Properties of the Euler equations: conversions, AUSM, HLLC, rotated fluxes, boundary fluxes and
    eigenvector matrices. *)
From Coq Require Import Reals List Lra Lia.
From Verif Require Import Model_Euler Spec_Euler Proof_Euler Proof_Rotated Proof_Eigen.
Import ListNotations.
Open Scope R_scope.

(** a gas with gamma = 7/5 and speed of sound 1, moving at speed [u] *)
Definition air (u v : R) : Tuple := mkTuple (7 / 5) u [v] 1.

Lemma air_physical u v : physical (air u v). Proof. split; cbn; lra. Qed.
Lemma air_sound u v : GetSpeedOfSound (7 / 5) (air u v) = 1.
Proof.
  unfold GetSpeedOfSound, air. cbn [mass energy].
  destruct (Rle_dec (7 / 5) 0); [lra|]. destruct (Rle_dec 1 0); [lra|].
  replace (7 / 5 * 1 / (7 / 5)) with 1 by field. apply sqrt_1.
Qed.

(** ** C29 *)

Theorem C29_primitive_conservative_inverse : forall gamma, 1 < gamma ->
  (forall w, conservative_of gamma w (PrimitiveToConservative gamma w)) /\
  (forall w, 0 < mass w -> 0 <= energy w ->
     ConservativeToPrimitive gamma (PrimitiveToConservative gamma w) = w) /\
  (forall U, 0 < mass U -> 0 <= energy U - dotL (momentum U) (momentum U) / (2 * mass U) ->
     PrimitiveToConservative gamma (ConservativeToPrimitive gamma U) = U).
Proof.
  intros gamma G. split; [|split].
  - intros w. apply P2C_conservative. lra.
  - intros w. apply P2C_then_C2P. exact G.
  - intros U. apply C2P_then_P2C. exact G.
Qed.
Print Assumptions C29_primitive_conservative_inverse.

Example C29_example : PrimitiveToConservative (7 / 5) (mkTuple 2 3 [4] 1) = mkTuple 2 6 [8] (55 / 2) /\
  ConservativeToPrimitive (7 / 5) (mkTuple 2 6 [8] (55 / 2)) = mkTuple 2 3 [4] 1.
Proof.
  assert (PrimitiveToConservative (7 / 5) (mkTuple 2 3 [4] 1) = mkTuple 2 6 [8] (55 / 2)) as E.
  { apply tuple_eq; cbn; try lra. - f_equal; lra. - unfold GetDynamicPressure. cbn. field. }
  split; [exact E|]. rewrite <- E. apply C29_primitive_conservative_inverse; cbn; lra.
Qed.

(** ** C30 *)

Theorem C30_primitive_never_negative : forall gamma U,
  (0 <= mass (ConservativeToPrimitive gamma U) /\ 0 <= energy (ConservativeToPrimitive gamma U)) /\
  (mass U < 0 \/ energy U < 0 -> ConservativeToPrimitive gamma U = setZero U) /\
  (0 < mass U -> pressure gamma U < 0 -> ConservativeToPrimitive gamma U = setZero U).
Proof.
  intros. split; [apply C2P_nonneg|]. split; [apply C2P_zero|apply C2P_negative_pressure].
Qed.
Print Assumptions C30_primitive_never_negative.

Theorem C30_speed_of_sound : forall gamma w, 0 < gamma ->
  0 <= GetSpeedOfSound gamma w /\
  (physical w -> GetSpeedOfSound gamma w * GetSpeedOfSound gamma w = gamma * energy w / mass w) /\
  (~ physical w -> GetSpeedOfSound gamma w = 0).
Proof.
  intros gamma w G. split; [apply sound_nonneg|]. split; [apply sound_sq; lra|apply sound_zero].
Qed.
Print Assumptions C30_speed_of_sound.

(** kinetic energy 25 but total energy 1 *)
Example C30_example : ConservativeToPrimitive (7 / 5) (mkTuple 1 5 [5] 1) = mkTuple 0 0 [0] 0 /\
  GetSpeedOfSound (7 / 5) (air 3 4) = 1.
Proof.
  split; [|apply air_sound].
  apply (proj2 (proj2 (C30_primitive_never_negative (7 / 5) (mkTuple 1 5 [5] 1)))); cbn; [lra|].
  unfold pressure. cbn. lra.
Qed.

(** ** C31 *)

Theorem C31_eigen_matrices_diagonalise : forall gamma w nu mu pi,
  1 < gamma -> physical w -> length (mT w) = 2%nat -> rows nu mu pi ->
  let Rm := fst (EigenMatrices gamma w nu mu pi) in
  let Lm := snd (EigenMatrices gamma w nu mu pi) in
  (forall k l, (k < 5)%nat -> (l < 5)%nat ->
     sum5 (fun j => entry Lm k j * entry Rm j l) = if Nat.eq_dec k l then 1 else 0) /\
  forall U, conservative_of gamma w U -> forall W i, (i < 5)%nat ->
    dat0 (fun t => flux5 gamma nu (line (five U) W t) i)
      (sum5 (fun k => entry Rm i k * speeds (dot3 (mX w, mY w, mZ w) nu) (GetSpeedOfSound gamma w) k *
         sum5 (fun j => entry Lm k j * W j))).
Proof.
  intros gamma w nu mu pi G P L F Rm Lm. split; [apply L_R_inverse; assumption|].
  intros U C. rewrite (conservative_unique gamma w U _ C (P2C_conservative gamma w ltac:(lra))).
  apply eigen_jacobian; assumption.
Qed.
Print Assumptions C31_eigen_matrices_diagonalise.

(** the frame turned by the 3-4-5 angle, a moving gas *)
Example C31_example : rows (3 / 5, 4 / 5, 0) (- 4 / 5, 3 / 5, 0) (0, 0, 1) /\
  physical (mkTuple (7 / 5) 2 [1; 3] 1) /\
  entry (fst (EigenMatrices (7 / 5) (mkTuple (7 / 5) 2 [1; 3] 1)
    (3 / 5, 4 / 5, 0) (- 4 / 5, 3 / 5, 0) (0, 0, 1))) 3 2 = 0 /\
  speeds (dot3 (2, 1, 3) (3 / 5, 4 / 5, 0)) 1 0 = 1.
Proof. split; [|split; [|split]]; unfold rows; cbn; repeat split; cbn; lra. Qed.

(** ** C32 *)

Theorem C32_ausm_consistent : forall gamma w F, 1 < gamma -> physical w ->
  axis_flux gamma w F -> Ausm_GetFluxUpwind gamma w w = F.
Proof.
  intros gamma w F G P H. rewrite ausm_consistent by assumption.
  apply axis_flux_unique with gamma w; [apply P2F_axis; destruct P; lra|exact H].
Qed.
Print Assumptions C32_ausm_consistent.

Theorem C32_ausm_supersonic : forall gamma l r F, 1 < gamma -> physical l -> physical r ->
  length (mT l) = length (mT r) ->
  (GetSpeedOfSound gamma l <= mX l -> GetSpeedOfSound gamma r <= mX r ->
   axis_flux gamma l F -> Ausm_GetFluxUpwind gamma l r = F) /\
  (mX l <= - GetSpeedOfSound gamma l -> mX r <= - GetSpeedOfSound gamma r ->
   axis_flux gamma r F -> Ausm_GetFluxUpwind gamma l r = F).
Proof.
  intros gamma l r F G Pl Pr L. destruct (ausm_supersonic gamma l r G Pl Pr L) as [A B]. split.
  - intros H1 H2 X. rewrite A by assumption.
    apply axis_flux_unique with gamma l; [apply P2F_axis; destruct Pl; lra|exact X].
  - intros H1 H2 X. rewrite B by assumption.
    apply axis_flux_unique with gamma r; [apply P2F_axis; destruct Pr; lra|exact X].
Qed.
Print Assumptions C32_ausm_supersonic.

Theorem C32_ausm_mirror : forall gamma l r, 1 < gamma -> physical l -> physical r ->
  Ausm_GetFluxUpwind gamma (mirror r) (mirror l) = negT (mirror (Ausm_GetFluxUpwind gamma l r)).
Proof. exact ausm_mirror. Qed.
Print Assumptions C32_ausm_mirror.

(** subsonic: the mass flux of a gas at rest on the left against one moving at half the speed of
    sound on the right *)
Example C32_example :
  mass (Ausm_GetFluxUpwind (7 / 5) (air 0 0) (air (1 / 2) 0)) = 21 / 80 /\
  axis_flux (7 / 5) (air 2 1) (mkTuple (14 / 5) (33 / 5) [14 / 5] (14)).
Proof.
  split.
  - unfold Ausm_GetFluxUpwind, GetPositiveFlux, GetNegativeFlux, ausm_h. rewrite !air_sound. cbn [mX air].
    destruct (Rge_dec (0 / 1) (-1)); [|lra]. destruct (Rle_dec (0 / 1) 1); [|lra].
    destruct (Rle_dec (1 / 2 / 1) 1); [|lra]. destruct (Rge_dec (1 / 2 / 1) (-1)); [|lra].
    cbn. field.
  - exists (PrimitiveToConservative (7 / 5) (air 2 1)). split; [apply P2C_conservative; lra|].
    unfold normal_flux, pressure, momentum. cbn. unfold GetDynamicPressure. cbn. split; [field|]. split; [|field].
    f_equal; [field|]. f_equal; field.
Qed.

(** ** C33 *)

Theorem C33_hllc_consistent : forall gamma w F, 1 < gamma -> physical w ->
  axis_flux gamma w F -> Hllc_GetFluxUpwind gamma w w = F.
Proof.
  intros gamma w F G P H. rewrite hllc_consistent by assumption.
  apply axis_flux_unique with gamma w; [apply P2F_axis; destruct P; lra|exact H].
Qed.
Print Assumptions C33_hllc_consistent.

Theorem C33_hllc_upwind : forall gamma l r F sl ss sr, 1 < gamma -> physical l -> physical r ->
  Hllc_Initialize gamma l r = (sl, ss, sr) ->
  sl < mX l /\ mX r < sr /\
  (0 <= sl -> axis_flux gamma l F -> Hllc_GetFluxUpwind gamma l r = F) /\
  (sl < 0 -> sr <= 0 -> axis_flux gamma r F -> Hllc_GetFluxUpwind gamma l r = F).
Proof.
  intros gamma l r F sl ss sr G Pl Pr E.
  destruct (hllc_waves gamma l r sl ss sr G Pl Pr E) as [W1 [W2 _]].
  pose proof (hllc_upwind gamma l r) as U. rewrite E in U. destruct U as [A B].
  split; [exact W1|]. split; [exact W2|]. split.
  - intros H X. rewrite A by assumption.
    apply axis_flux_unique with gamma l; [apply P2F_axis; destruct Pl; lra|exact X].
  - intros H1 H2 X. rewrite B by assumption.
    apply axis_flux_unique with gamma r; [apply P2F_axis; destruct Pr; lra|exact X].
Qed.
Print Assumptions C33_hllc_upwind.

Theorem C33_hllc_contact : forall gamma l r, 1 < gamma -> physical l -> physical r ->
  energy l = energy r -> mX l = 0 -> mX r = 0 ->
  Hllc_GetFluxUpwind gamma l r = mkTuple 0 (energy l) (map (fun _ => 0) (mT l)) 0.
Proof. exact hllc_contact. Qed.
Print Assumptions C33_hllc_contact.

(** a moving contact gets the flux of the side it comes from *)
Theorem C33_hllc_moving_contact : forall gamma l r F, 1 < gamma -> physical l -> physical r ->
  energy l = energy r -> mX l = mX r ->
  axis_flux gamma (if Rle_dec 0 (mX l) then l else r) F -> Hllc_GetFluxUpwind gamma l r = F.
Proof.
  intros gamma l r F G Pl Pr E M X. rewrite hllc_moving_contact by assumption.
  refine (axis_flux_unique gamma _ _ _ _ X). apply P2F_axis; [lra|].
  destruct (Rle_dec 0 (mX l)), Pl, Pr; lra.
Qed.
Print Assumptions C33_hllc_moving_contact.

(** in between, the flux is that of a state with the contact's speed and one common pressure, joined
    to the outer state by the jump conditions *)
Theorem C33_hllc_jump : forall gamma l r sl ss sr, 1 < gamma -> physical l -> physical r ->
  Hllc_Initialize gamma l r = (sl, ss, sr) -> sl < 0 < sr ->
  exists ps,
  (0 <= ss -> star_flux_of gamma l sl ss ps (Hllc_GetFluxUpwind gamma l r)) /\
  (ss < 0 -> star_flux_of gamma r sr ss ps (Hllc_GetFluxUpwind gamma l r)) /\
  ps = energy l + mass l * (sl - mX l) * (ss - mX l) /\
  ps = energy r + mass r * (sr - mX r) * (ss - mX r).
Proof. exact hllc_jump. Qed.
Print Assumptions C33_hllc_jump.

(** densities 7/5 and 10, equal pressure, sliding along each other *)
Example C33_example :
  Hllc_GetFluxUpwind (7 / 5) (air 0 3) (mkTuple 10 0 [-2] 1) = mkTuple 0 1 [0] 0.
Proof. apply C33_hllc_contact; try apply air_physical; try (split; cbn; lra); cbn; lra. Qed.

(** ** C36 *)

Theorem C36_rotation_round_trip : forall D f t, dims D -> orthonormal D f -> length (momentum t) = D ->
  NormalToGlobal f (GlobalToNormal f t) = t /\ GlobalToNormal f (NormalToGlobal f t) = t /\
  mass (GlobalToNormal f t) = mass t /\ energy (GlobalToNormal f t) = energy t.
Proof.
  intros D f t HD O L. destruct (round_trip D f t HD O L) as [A B].
  split; [exact A|]. split; [exact B|]. split; reflexivity.
Qed.
Print Assumptions C36_rotation_round_trip.

Theorem C36_rotated_flux_is_normal_flux : forall D gamma f U, dims D -> orthonormal D f ->
  length (momentum U) = D -> 1 < gamma -> physicalU gamma U ->
  normal_flux gamma U (normal f) (Rotated_GetFluxUpwind gamma (Ausm_GetFluxUpwind gamma) f U U) /\
  normal_flux gamma U (normal f) (Rotated_GetFluxUpwind gamma (Hllc_GetFluxUpwind gamma) f U U).
Proof.
  intros D gamma f U HD O L G P. split; apply rotated_upwind with D; try assumption; intros w W.
  - apply ausm_consistent; assumption.
  - apply hllc_consistent; assumption.
Qed.
Print Assumptions C36_rotated_flux_is_normal_flux.

Theorem C36_rotated_flux_is_matrix_times_normal : forall gamma f U, orthonormal 3 f ->
  length (momentum U) = 3%nat -> 1 < gamma -> physicalU gamma U ->
  Rotated_GetFluxUpwind gamma (Ausm_GetFluxUpwind gamma) f U U = times_normal (GetFluxMatrix gamma U) (normal f) /\
  Rotated_GetFluxUpwind gamma (Hllc_GetFluxUpwind gamma) f U U = times_normal (GetFluxMatrix gamma U) (normal f).
Proof.
  intros gamma f U O L G P. split; apply matrix_times_normal; try assumption; intros w W.
  - apply ausm_consistent; assumption.
  - apply hllc_consistent; assumption.
Qed.
Print Assumptions C36_rotated_flux_is_matrix_times_normal.

Definition turned : Frame := [[3 / 5; 4 / 5]; [- 4 / 5; 3 / 5]].

Lemma turned_orthonormal : orthonormal 2 turned.
Proof.
  split; [reflexivity|]. split.
  - intros v [<-|[<-|[]]]; reflexivity.
  - intros [|[|i]] [|[|j]] Hi Hj; try lia; cbn; lra.
Qed.

Example C36_example : orthonormal 2 turned /\
  GlobalToNormal turned (mkTuple 1 10 [5] 7) = mkTuple 1 10 [-5] 7 /\
  NormalToGlobal turned (mkTuple 1 10 [-5] 7) = mkTuple 1 10 [5] 7.
Proof.
  split; [apply turned_orthonormal|]. split; apply tuple_eq; cbn; try lra; f_equal; lra.
Qed.

(** ** C37 *)

Theorem C37_wall_transmits_only_pressure : forall D gamma f U, dims D -> orthonormal D f ->
  length (momentum U) = D -> 1 < gamma -> physicalU gamma U ->
  let F := GetFluxOnSolidWall gamma f U in
  (mass F = 0 /\ momentum F = scaleL (pressure gamma U) (normal f) /\ energy F = 0) /\
  forall V, length (momentum V) = D -> mass V <> 0 -> pressure gamma V = pressure gamma U ->
    dotL (momentum V) (normal f) = 0 -> normal_flux gamma V (normal f) F.
Proof.
  intros D gamma f U HD O L G P F. split.
  - unfold F. rewrite (wall_flux D) by assumption.
    rewrite (C2P_physical gamma U G (proj1 P) (physicalU_internal gamma U G P)).
    pose proof (normal_length D f HD O) as N.
    destruct (normal f) as [|x n]; [destruct HD as [-> | ->]; discriminate N|]. cbn. auto.
  - intros V LV M E Z. apply wall_is_physical with D; assumption.
Qed.
Print Assumptions C37_wall_transmits_only_pressure.

Example C37_example : physicalU (7 / 5) (mkTuple 2 6 [8] (55 / 2)) /\
  pressure (7 / 5) (mkTuple 2 6 [8] (55 / 2)) = 1 /\
  momentum (GetFluxOnSolidWall (7 / 5) turned (mkTuple 2 6 [8] (55 / 2))) = [3 / 5; 4 / 5].
Proof.
  assert (pressure (7 / 5) (mkTuple 2 6 [8] (55 / 2)) = 1) as E by (unfold pressure; cbn; field).
  assert (physicalU (7 / 5) (mkTuple 2 6 [8] (55 / 2))) as P by (split; [cbn|rewrite E]; lra).
  split; [exact P|]. split; [exact E|].
  destruct (C37_wall_transmits_only_pressure 2 (7 / 5) turned (mkTuple 2 6 [8] (55 / 2))
    (or_introl eq_refl) turned_orthonormal eq_refl ltac:(lra) P) as [[_ [M _]] _].
  rewrite M, E. cbn. f_equal; [lra|]. f_equal. lra.
Qed.

(** ** C38 *)

Theorem C38_boundary_fluxes_consistent : forall D gamma f U, dims D -> orthonormal D f ->
  length (momentum U) = D -> 1 < gamma -> physicalU gamma U ->
  normal_flux gamma U (normal f) (GetFluxOnSupersonicInlet gamma f U) /\
  normal_flux gamma U (normal f) (GetFluxOnSupersonicOutlet gamma f U) /\
  normal_flux gamma U (normal f) (GetFluxOnSubsonicInlet gamma f U U) /\
  normal_flux gamma U (normal f) (GetFluxOnSubsonicOutlet gamma f U U) /\
  normal_flux gamma U (normal f) (GetFluxOnSmartBoundary gamma f U U).
Proof. exact boundaries_consistent. Qed.
Print Assumptions C38_boundary_fluxes_consistent.

(** the smart boundary looks at the velocity and the sound speed of the interior state: it takes the
    exterior state if the gas flows in faster than sound, the interior state if it flows out faster
    than sound, and the inlet and outlet conditions in between *)
Theorem C38_smart_boundary_choice : forall D gamma f Ui Uo, dims D -> orthonormal D f ->
  length (momentum Ui) = D -> length (momentum Uo) = D -> 1 < gamma ->
  physicalU gamma Ui -> physicalU gamma Uo ->
  let wi := ConservativeToPrimitive gamma Ui in
  let un := dotL (momentum wi) (normal f) in
  let a := sqrt (gamma * energy wi / mass wi) in
  (un < - a -> normal_flux gamma Uo (normal f) (GetFluxOnSmartBoundary gamma f Ui Uo)) /\
  (a < un -> normal_flux gamma Ui (normal f) (GetFluxOnSmartBoundary gamma f Ui Uo)) /\
  (- a <= un < 0 -> GetFluxOnSmartBoundary gamma f Ui Uo = GetFluxOnSubsonicInlet gamma f Ui Uo) /\
  (0 <= un <= a -> GetFluxOnSmartBoundary gamma f Ui Uo = GetFluxOnSubsonicOutlet gamma f Ui Uo).
Proof.
  intros D gamma f Ui Uo HD HO Hi Ho Hg Pi Po wi un a.
  assert (0 <= a) by apply sqrt_pos.
  assert (GetSpeedOfSound gamma wi = a) as EA by
    (destruct (C30_speed_of_sound gamma wi ltac:(lra)) as [S0 [S1 _]]; unfold a;
     rewrite <- S1 by (apply physicalU_C2P; assumption); symmetry; apply sqrt_square; exact S0).
  destruct (boundaries_consistent D gamma f Ui HD HO Hi Hg Pi) as [_ [Bi _]].
  destruct (boundaries_consistent D gamma f Uo HD HO Ho Hg Po) as [Bo _].
  unfold GetFluxOnSmartBoundary. fold wi. fold un. rewrite EA. clearbody un a.
  destruct (Rlt_dec un 0), (Rlt_dec (un + a) 0), (Rgt_dec (un - a) 0);
    (split; [|split; [|split]]); intros; try assumption; try reflexivity; exfalso; lra.
Qed.
Print Assumptions C38_smart_boundary_choice.

(** hypotheses satisfied by a gas in motion across a turned face *)
Example C38_example : dims 2 /\ orthonormal 2 turned /\ physicalU (7 / 5) (mkTuple 2 6 [8] (55 / 2)) /\
  dotL (momentum (mkTuple 2 6 [8] (55 / 2))) (normal turned) = 10.
Proof.
  split; [left; reflexivity|]. split; [apply turned_orthonormal|]. split; [apply C37_example|]. cbn. field.
Qed.

(** ** C39 *)

(** the relations along the outgoing characteristic and along the path of the gas *)
Definition outlet_state_correct (gamma : R) (n : list R) (wi wo b : Tuple) : Prop :=
  let a := GetSpeedOfSound gamma wi in
  energy b = energy wo /\
  energy b - a * a * mass b = energy wi - a * a * mass wi /\
  energy b + mass wi * a * dotL (momentum b) n = energy wi + mass wi * a * dotL (momentum wi) n /\
  exists c, momentum b = addL (momentum wi) (map (fun x => c * x) n).

Definition inlet_state_correct (gamma : R) (n : list R) (wi wo b : Tuple) : Prop :=
  let a := GetSpeedOfSound gamma wi in
  energy b - a * a * mass b = energy wo - a * a * mass wo /\
  energy b - mass wi * a * dotL (momentum b) n = energy wo - mass wi * a * dotL (momentum wo) n /\
  energy b + mass wi * a * dotL (momentum b) n = energy wi + mass wi * a * dotL (momentum wi) n /\
  exists c, momentum b = addL (momentum wo) (map (fun x => c * x) n).

Theorem C39_subsonic_outlet_partial : forall gamma n wi wo, 1 < gamma -> physical wi ->
  length (momentum wi) = length n -> dotL n n = 1 -> 0 < dotL (momentum wi) n ->
  outlet_state_correct gamma n wi wo (SubsonicOutlet_state gamma n wi wo).
Proof. intros. apply outlet_relations; assumption. Qed.
Print Assumptions C39_subsonic_outlet_partial.

Theorem C39_subsonic_inlet_partial : forall gamma n wi wo, 1 < gamma -> physical wi ->
  length (momentum wo) = length n -> dotL n n = 1 -> dotL (momentum wo) n <= 0 ->
  inlet_state_correct gamma n wi wo (SubsonicInlet_state gamma n wi wo).
Proof. intros. apply inlet_relations; assumption. Qed.
Print Assumptions C39_subsonic_inlet_partial.

(** with zero normal velocity the outlet takes the wrong characteristic *)
Theorem C39_outlet_at_rest_refuted : exists gamma n wi wo,
  1 < gamma /\ physical wi /\ physical wo /\ length (momentum wi) = length n /\ dotL n n = 1 /\
  dotL (momentum wi) n = 0 /\
  ~ outlet_state_correct gamma n wi wo (SubsonicOutlet_state gamma n wi wo).
Proof.
  exists (7 / 5), [1; 0], (air 0 0), (mkTuple 2 0 [0] 2).
  split; [lra|]. split; [apply air_physical|]. split; [split; cbn; lra|]. split; [reflexivity|].
  split; [cbn; lra|]. split; [cbn; lra|].
  intros [_ [_ [H _]]]. revert H. unfold SubsonicOutlet_state. rewrite air_sound. cbn -[Rgt_dec].
  destruct (Rgt_dec _ 0); [lra|]. intros H. 
  replace (0 + (1 - 2) / (7 / 5 * - (1)) * 1) with (5 / 7) in H by field. lra.
Qed.
Print Assumptions C39_outlet_at_rest_refuted.

(** and so does the inlet if the given exterior state flows out while the interior flows in; the
    smart boundary takes this branch *)
Theorem C39_inlet_outflow_refuted : exists gamma n wi wo,
  1 < gamma /\ physical wi /\ physical wo /\ length (momentum wo) = length n /\ dotL n n = 1 /\
  - GetSpeedOfSound gamma wi < dotL (momentum wi) n < 0 /\
  ~ inlet_state_correct gamma n wi wo (SubsonicInlet_state gamma n wi wo).
Proof.
  exists (7 / 5), [1; 0], (air (- 1 / 2) 0), (air (1 / 2) 0).
  split; [lra|]. split; [apply air_physical|]. split; [apply air_physical|]. split; [reflexivity|].
  split; [cbn; lra|]. split; [rewrite air_sound; cbn; lra|].
  intros [_ [H _]]. revert H. unfold SubsonicInlet_state. rewrite air_sound. cbn -[Rgt_dec].
  destruct (Rgt_dec _ 0); [|lra]. intros H.
  match type of H with context [?x / (7 / 5 * 1) * 1] => set (k := x) in * end.
  assert (k = - 7 / 10) as K by (unfold k; field). rewrite K in H. lra.
Qed.
Print Assumptions C39_inlet_outflow_refuted.

Example C39_example : 0 < dotL (momentum (air (1 / 2) 3)) [1; 0] /\
  energy (SubsonicOutlet_state (7 / 5) [1; 0] (air (1 / 2) 3) (air 0 0)) = 1 /\
  mX (SubsonicOutlet_state (7 / 5) [1; 0] (air (1 / 2) 3) (mkTuple 1 0 [0] (1 / 2))) = 6 / 7.
Proof.
  split; [cbn; lra|]. split; [reflexivity|]. unfold SubsonicOutlet_state. rewrite air_sound. cbn -[Rgt_dec].
  destruct (Rgt_dec _ 0); [|lra]. field.
Qed.
