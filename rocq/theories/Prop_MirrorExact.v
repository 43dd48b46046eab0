(** C104 for the exact solver of the Euler equations. *)
From Coq Require Import Reals List Lra Lia.
From Verif Require Import Arrays Model_Euler Spec_Euler Proof_Euler Proof_Rotated Model_Exact Spec_Exact Proof_Exact Prop_Exact
  Spec_Mirror Proof_Mirror Proof_MirrorExact Sample_Mirror Sample_MirrorExact.
Import ListNotations.
Open Scope R_scope.

(** the flux that the exact solver returns; nothing is said about failed assertions *)
Definition exact_flux (fuel : nat) (gamma star_u : R) (l r : Tuple) : Tuple :=
  match Exact_GetFluxUpwind fuel gamma star_u l r with Some (F, _) => F | None => setZero l end.

Definition strip (t : Tuple) : Tuple := mkTuple (mass t) (mX t) [] (energy t).

Lemma near_turn gamma k T w star : option_map strip (near gamma k (turn T w) star) = option_map strip (near gamma k w star).
Proof.
  unfold near. change (energy (turn T w)) with (energy w). destruct (Rge_dec (energy star) (energy w)).
  - unfold PrimitiveNearShock. change (Shock_u (turn T w) star) with (Shock_u w star).
    destruct (TimeAxisAfterShock k (Shock_u w star)); [|reflexivity]. destruct (Req_EM_T (mX star - Shock_u w star) 0); reflexivity.
  - unfold PrimitiveNearExpansion. change (GetSpeedOfSound gamma (turn T w)) with (GetSpeedOfSound gamma w).
    cbn [turn mass mX energy]. set (c := AddOrMinus k (GetSpeedOfSound gamma w) _).
    destruct (match k with Wave1 => _ | Wave3 => _ end); [destruct (Req_EM_T (c * c) 0); reflexivity|].
    destruct (match k with Wave1 => _ | Wave3 => _ end); reflexivity.
Qed.

Lemma private_turn fuel gamma s T l r :
  option_map (fun x => (strip (fst x), snd x)) (GetPrimitiveUpwind_private fuel gamma s (turn T l) (turn T r))
  = option_map (fun x => (strip (fst x), snd x)) (GetPrimitiveUpwind_private fuel gamma s l r).
Proof.
  unfold GetPrimitiveUpwind_private.
  change (pressure_function gamma (turn T l) (turn T r)) with (pressure_function gamma l r).
  change (pressure_prime gamma (turn T l) (turn T r)) with (pressure_prime gamma l r).
  change (SpeedChange gamma (turn T l)) with (SpeedChange gamma l). change (SpeedChange gamma (turn T r)) with (SpeedChange gamma r).
  change (GetSpeedOfSound gamma (turn T l)) with (GetSpeedOfSound gamma l). change (GetSpeedOfSound gamma (turn T r)) with (GetSpeedOfSound gamma r).
  cbn [turn mass mX energy].
  destruct (Rgt_dec (mass l) 0).
  - destruct (Rgt_dec (mass r) 0).
    + destruct (Rlt_dec (energy l) 0); [reflexivity|]. destruct (Rlt_dec (energy r) 0); [reflexivity|].
      unfold bind at 1 6. destruct (pressure_function gamma l r 0) as [f0|]; [|reflexivity].
      destruct (Rlt_dec f0 0).
      * unfold bind at 1 5. destruct (FindRoot _ _ root_eps fuel (energy l)) as [p|]; [|reflexivity].
        unfold bind at 1 4. destruct (SpeedChange gamma r p) as [cr|]; [|reflexivity].
        unfold bind at 1 3. destruct (SpeedChange gamma l p) as [cl|]; [|reflexivity].
        set (u := 1 / 2 * (mX r + cr + mX l - cl)). set (star := mkTuple 0 u [] p).
        pose proof (near_turn gamma Wave1 T l star) as A. pose proof (near_turn gamma Wave3 T r star) as B.
        unfold near in A, B. cbn [energy star turn] in A, B. unfold bind.
        destruct (Rlt_dec 0 u).
        -- destruct (Rge_dec p (energy l)); [destruct (PrimitiveNearShock Wave1 (turn T l) star), (PrimitiveNearShock Wave1 l star)
             |destruct (PrimitiveNearExpansion gamma Wave1 (turn T l) star), (PrimitiveNearExpansion gamma Wave1 l star)];
             cbn [option_map fst snd] in *; congruence.
        -- destruct (Rge_dec p (energy r)); [destruct (PrimitiveNearShock Wave3 (turn T r) star), (PrimitiveNearShock Wave3 r star)
             |destruct (PrimitiveNearExpansion gamma Wave3 (turn T r) star), (PrimitiveNearExpansion gamma Wave3 r star)];
             cbn [option_map fst snd] in *; congruence.
      * cbn [option_map fst snd]. f_equal. f_equal. unfold PrimitiveNearVacuum.
        change (GetSpeedOfSound gamma (turn T l)) with (GetSpeedOfSound gamma l). change (GetSpeedOfSound gamma (turn T r)) with (GetSpeedOfSound gamma r).
        cbn [turn mass mX energy]. repeat match goal with |- context [if ?b then _ else _] => destruct b; try reflexivity end.
    + repeat match goal with |- context [if ?b then _ else _] => destruct b; try reflexivity end.
  - destruct (Rgt_dec (mass r) 0); [|reflexivity].
    repeat match goal with |- context [if ?b then _ else _] => destruct b; try reflexivity end.
Qed.

Lemma exact_turn fuel gamma s n : isotropic n (exact_flux fuel gamma s).
Proof.
  intros T l r HT Ll Lr. unfold exact_flux, Exact_GetFluxUpwind, GetPrimitiveUpwind.
  pose proof (private_turn fuel gamma s T l r) as E.
  destruct (GetPrimitiveUpwind_private fuel gamma s l r) as [[w u]|], (GetPrimitiveUpwind_private fuel gamma s (turn T l) (turn T r)) as [[w' u']|];
    cbn [option_map fst snd] in E; try discriminate E; unfold bind.
  - injection E as E1 E2 E3 E4. subst u'.
    replace (PassiveScalars_Set w' u (turn T l) (turn T r)) with (turn T (PassiveScalars_Set w u l r)).
    2:{ unfold PassiveScalars_Set, turn. cbn [mass mX mT energy]. rewrite E1, E2, E3. destruct (Rgt_dec u 0); reflexivity. }
    apply (turn_P2F n T HT). unfold PassiveScalars_Set. cbn [mT]. destruct (Rgt_dec u 0); assumption.
  - cbn. rewrite map_length. split; [exact Ll|]. unfold turn, setZero. cbn [mass mX mT energy]. f_equal.
    transitivity (map (fun x => x * 0) (T (mT l))); [apply map_ext; intros; ring|].
    rewrite <- (iso_scale n T HT) by exact Ll. f_equal. apply map_ext. intros; ring.
Qed.

(** The exact solver gives opposite fluxes if both sides end their iterations with the same pressure, unless the
    velocity between the waves is zero and that pressure is not exactly the root. *)
Theorem C104_exact_partial : forall D gamma f g Ul Ur fuel s s' p, dims D -> 1 < gamma -> orthonormal D f -> orthonormal D g ->
  length (momentum Ul) = D -> length (momentum Ur) = D -> physicalU gamma Ul -> physicalU gamma Ur ->
  let l := GlobalToNormal f (ConservativeToPrimitive gamma Ul) in
  let r := GlobalToNormal f (ConservativeToPrimitive gamma Ur) in
  (normal g = map Ropp (normal f) -> ~ vacuum_between gamma l r ->
   FindRoot (pressure_function gamma l r) (pressure_prime gamma l r) root_eps fuel (energy l) = Some p ->
   FindRoot (pressure_function gamma l r) (pressure_prime gamma l r) root_eps fuel (energy r) = Some p ->
   (exists F u, Exact_GetFluxUpwind fuel gamma s l r = Some (F, u) /\ u <> 0) \/ (0 < p /\ pressure_function gamma l r p = Some 0) ->
   Rotated_GetFluxUpwind gamma (exact_flux fuel gamma s') g Ur Ul
   = negT (Rotated_GetFluxUpwind gamma (exact_flux fuel gamma s) f Ul Ur)) /\
  (normal g = normal f ->
   Rotated_GetFluxUpwind gamma (exact_flux fuel gamma s) g Ul Ur
   = Rotated_GetFluxUpwind gamma (exact_flux fuel gamma s) f Ul Ur).
Proof.
  intros D gamma f g Ul Ur fuel s s' p HD G F F' Ll Lr Pl Pr l r.
  split; [|intros E; apply (rotated_same gamma _ D HD (exact_turn fuel gamma s (D - 1))); assumption].
  intros E NV FL FR H.
  apply physicalU_C2P in Pl; [|exact G]. apply physicalU_C2P in Pr; [|exact G]. destruct Pl as [Pl _], Pr as [Pr _].
  assert (Hl : length (momentum (ConservativeToPrimitive gamma Ul)) = D) by (apply (tangents D HD); rewrite C2P_mT; apply (tangents D HD); exact Ll).
  assert (Hr : length (momentum (ConservativeToPrimitive gamma Ur)) = D) by (apply (tangents D HD); rewrite C2P_mT; apply (tangents D HD); exact Lr).
  assert (Ql : physical l) by exact Pl. assert (Qr : physical r) by exact Pr.
  assert (Len : length (mT l) = length (mT r)).
  { transitivity (D - 1)%nat; [|symmetry]; apply (tangents D HD); apply frame_length; assumption. }
  assert (N0 : pf0 gamma l r < 0) by (unfold pf0, vacuum_between in *; lra).
  assert (M : forall t, option_map fst (Exact_GetFluxUpwind fuel gamma t (mirror r) (mirror l))
    = option_map (fun Fu => negT (mirror (fst Fu))) (Exact_GetFluxUpwind fuel gamma s l r)).
  { intros t. apply (exact_mirror fuel fuel gamma s t l r p (pf0 gamma l r)); try assumption. apply pf0_eq; assumption. }
  assert (D1 : exists x, Exact_GetFluxUpwind fuel gamma s l r = Some x).
  { destruct H as [(x & u & H & _)|[P0 Z]]; [exists (x, u); exact H|].
    destruct (C67_exact_solution gamma l r s fuel p G Ql Qr NV P0 FL Z) as (u & w & W & _).
    unfold Exact_GetFluxUpwind, GetPrimitiveUpwind. rewrite W. cbn [bind]. eexists. reflexivity. }
  destruct D1 as [[Fx ux] D1].
  transitivity (Rotated_GetFluxUpwind gamma (exact_flux fuel gamma s) g Ur Ul).
  - destruct (frame_change D f g (-1) HD ltac:(ring) F F') as (T & HT & C).
    { rewrite E. apply map_ext. intros; ring. }
    assert (C' : forall t, length (momentum t) = D -> GlobalToNormal g t = turn T (mirror (GlobalToNormal f t))).
    { intros t L. rewrite C by exact L. unfold turn, mirror. cbn. f_equal. ring. }
    unfold Rotated_GetFluxUpwind. rewrite !C' by assumption. fold l r. f_equal.
    assert (L1 : length (mT (mirror r)) = (D - 1)%nat) by (cbn [mirror mT]; apply (tangents D HD); apply frame_length; assumption).
    assert (L2 : length (mT (mirror l)) = (D - 1)%nat) by (cbn [mirror mT]; apply (tangents D HD); apply frame_length; assumption).
    rewrite (proj2 (exact_turn fuel gamma s' (D - 1)%nat T (mirror r) (mirror l) HT L1 L2)).
    rewrite (proj2 (exact_turn fuel gamma s (D - 1)%nat T (mirror r) (mirror l) HT L1 L2)). f_equal.
    pose proof (M s) as Ms. pose proof (M s') as Ms'. rewrite D1 in Ms, Ms'. unfold exact_flux.
    destruct (Exact_GetFluxUpwind fuel gamma s (mirror r) (mirror l)) as [[a b]|]; [|discriminate].
    destruct (Exact_GetFluxUpwind fuel gamma s' (mirror r) (mirror l)) as [[a' b']|]; [|discriminate].
    cbn [option_map fst] in Ms, Ms'. congruence.
  - apply (rotated_opposite gamma _ D HD (exact_turn fuel gamma s (D - 1))); try assumption. fold l r.
    unfold mirrored, exact_flux. pose proof (M s) as Ms. rewrite D1 in *. cbn [option_map fst] in Ms.
    destruct (Exact_GetFluxUpwind fuel gamma s (mirror r) (mirror l)) as [[a b]|]; [|discriminate]. cbn [option_map fst] in Ms. congruence.
Qed.
Print Assumptions C104_exact_partial.

(** In general each side starts the iteration at the pressure of its own left state and ends it within the tolerance,
    so that the two fluxes of momentum through a face do not cancel. *)
Theorem C104_exact_refuted : exists gamma f g Ul Ur fuel, 1 < gamma /\ orthonormal 3 f /\ orthonormal 3 g /\
  normal g = map Ropp (normal f) /\ length (momentum Ul) = 3%nat /\ length (momentum Ur) = 3%nat /\
  physicalU gamma Ul /\ physicalU gamma Ur /\
  (forall h U V, (h, U, V) = (f, Ul, Ur) \/ (h, U, V) = (g, Ur, Ul) ->
     Exact_GetFluxUpwind fuel gamma 0 (GlobalToNormal h (ConservativeToPrimitive gamma U))
       (GlobalToNormal h (ConservativeToPrimitive gamma V)) <> None) /\
  mX (Rotated_GetFluxUpwind gamma (exact_flux fuel gamma 0) f Ul Ur)
  + mX (Rotated_GetFluxUpwind gamma (exact_flux fuel gamma 0) g Ur Ul) < 0.
Proof.
  assert (G : 1 < mono) by (unfold mono; lra). pose proof tiny_pos as T. pose proof p_left_bounds as B.
  set (wl := w_left (2 * tiny)). set (wr := w_right (- 2 * tiny)).
  assert (Bl : ConservativeToPrimitive mono (PrimitiveToConservative mono wl) = wl)
    by (apply P2C_then_C2P; [exact G|cbn [mass wl w_left]; lra|cbn [energy wl w_left]; lra]).
  assert (Br : ConservativeToPrimitive mono (PrimitiveToConservative mono wr) = wr)
    by (apply P2C_then_C2P; [exact G|cbn [mass wr w_right]; lra|cbn [energy wr w_right]; lra]).
  assert (Fx : forall m u e, GlobalToNormal frame_x (mkTuple m u [0; 0] e) = mkTuple m u [0; 0] e).
  { intros. unfold GlobalToNormal, set_momentum, momentum. cbn. f_equal; [ring|]. f_equal; [ring|f_equal; ring]. }
  assert (Fm : forall m u e, GlobalToNormal frame_mx (mkTuple m u [0; 0] e) = mkTuple m (- u) [0; 0] e).
  { intros. unfold GlobalToNormal, set_momentum, momentum. cbn. f_equal; [ring|]. f_equal; [ring|f_equal; ring]. }
  assert (X1 : GlobalToNormal frame_x wl = wl) by apply Fx. assert (X2 : GlobalToNormal frame_x wr = wr) by apply Fx.
  assert (M1 : GlobalToNormal frame_mx wl = w_left (- 2 * tiny)).
  { transitivity (w_left (- (2 * tiny))); [apply Fm|]. f_equal. ring. }
  assert (M2 : GlobalToNormal frame_mx wr = w_right (2 * tiny)).
  { transitivity (w_right (- (- 2 * tiny))); [apply Fm|]. f_equal. ring. }
  destruct from_left as (w & u & E & L). destruct from_right as (u' & E').
  fold wl wr in E.
  exists mono, frame_x, frame_mx, (PrimitiveToConservative mono wl), (PrimitiveToConservative mono wr), 1%nat.
  split; [exact G|]. split; [exact frame_x_ok|]. split; [exact frame_mx_ok|]. split; [cbn; rewrite Ropp_0; reflexivity|].
  split; [reflexivity|]. split; [reflexivity|].
  assert (PU : forall x, physical x -> physicalU mono (PrimitiveToConservative mono x)).
  { intros x [Mx Ex]. split; [exact Mx|]. rewrite (conservative_pressure mono x); [exact Ex|lra|lra|]. apply P2C_conservative. lra. }
  split; [apply PU, left_physical|]. split; [apply PU, right_physical|]. split.
  - intros h U W [H|H]; injection H as -> -> ->; rewrite Bl, Br; unfold Exact_GetFluxUpwind, GetPrimitiveUpwind.
    + rewrite X1, X2, E. discriminate.
    + rewrite M1, M2, E'. discriminate.
  - unfold Rotated_GetFluxUpwind. rewrite Bl, Br, X1, X2, M1, M2. unfold exact_flux, Exact_GetFluxUpwind, GetPrimitiveUpwind.
    rewrite E, E'. cbn [bind].
    assert (N1 : forall t, length (mT t) = 2%nat -> mX (NormalToGlobal frame_x t) = mX t).
    { intros t Lt. unfold NormalToGlobal, set_momentum, momentum. destruct (mT t) as [|a [|b [|]]]; try discriminate Lt. cbn. ring. }
    assert (N2 : forall t, length (mT t) = 2%nat -> mX (NormalToGlobal frame_mx t) = - mX t).
    { intros t Lt. unfold NormalToGlobal, set_momentum, momentum. destruct (mT t) as [|a [|b [|]]]; try discriminate Lt. cbn. ring. }
    assert (PF : forall t, mX (PrimitiveToFlux mono t) = mass t * mX t * mX t + energy t) by (intros t; cbn; ring).
    rewrite N1, N2, !PF; cbn [PassiveScalars_Set mass mX mT energy w_right]; [nra| |].
    + unfold PrimitiveToFlux, PrimitiveToConservative, VelocityToMomentum, scaleT, set_energy, set_momentum, momentum, PassiveScalars_Set.
      cbn [mass mX mT energy]. destruct (Rgt_dec u' 0); cbn; reflexivity.
    + unfold PrimitiveToFlux, PrimitiveToConservative, VelocityToMomentum, scaleT, set_energy, set_momentum, momentum, PassiveScalars_Set.
      cbn [mass mX mT energy]. destruct (Rgt_dec u 0); cbn; reflexivity.
Qed.
Print Assumptions C104_exact_refuted.

(** a contact that moves: both sides find its pressure at once *)
Example C104_exact_nonvacuous :
  let l := prim 1 (3 / 2) in let r := prim 4 (3 / 2) in
  ~ vacuum_between air l r /\
  FindRoot (pressure_function air l r) (pressure_prime air l r) root_eps 1 (energy l) = Some (5 / 7) /\
  FindRoot (pressure_function air l r) (pressure_prime air l r) root_eps 1 (energy r) = Some (5 / 7) /\
  (0 < 5 / 7 /\ pressure_function air l r (5 / 7) = Some 0) /\ physicalU air slow_l /\ physicalU air slow_r.
Proof.
  intros l r. assert (G : 1 < air) by (unfold air; lra).
  assert (C : forall rho u, 0 < rho -> SpeedChange air (prim rho u) (5 / 7) = Some 0).
  { intros rho u P. unfold SpeedChange. cbn [mass energy prim]. destruct (Rlt_dec (5 / 7) 0); [lra|]. destruct (Rge_dec (5 / 7) (5 / 7)); [|lra].
    assert (0 < sqrt (rho * SpeedChange_P air (5 / 7) (5 / 7))) by (apply sqrt_lt_R0; unfold SpeedChange_P, air; nra).
    destruct (Req_EM_T _ 0); [lra|]. f_equal. unfold Rdiv. ring. }
  assert (Z : pressure_function air l r (5 / 7) = Some 0).
  { unfold pressure_function, l, r. rewrite !C by lra. cbn [bind]. f_equal. cbn. ring. }
  assert (E : 0 < root_eps) by (unfold root_eps; apply Rinv_0_lt_compat; lra).
  split.
  { unfold vacuum_between. cbn [mX l r prim]. unfold l. rewrite prim_sound.
    assert (0 <= GetSpeedOfSound air r).
    { unfold GetSpeedOfSound. destruct (Rle_dec (mass r) 0); [lra|]. destruct (Rle_dec (energy r) 0); [lra|]. apply sqrt_pos. }
    unfold air in *. lra. }
  split; [apply (found_at_once _ _ _ 0); [exact Z|lra]|]. split; [apply (found_at_once _ _ _ 0); [exact Z|lra]|].
  split; [split; [lra|exact Z]|]. split; apply prim_physicalU; lra.
Qed.
