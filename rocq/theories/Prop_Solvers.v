(** C109: with the solvers of the code, simulations on distributed meshes conserve what they should. *)
From Coq Require Import Reals Lra Lia String List Arith Permutation.
From Verif Require Import Vec3 Arrays RSum Model_Dofs Model_DG Spec_DG Model_Temporal Model_Simulation Spec_Simulation
  Proof_Simulation Model_Euler Spec_Euler Proof_Euler Proof_Rotated Prop_Euler Model_Simple Spec_Simple Proof_Simple Prop_Simple Spec_Mirror Sample_Mirror
  Model_Solvers Spec_Solvers Proof_Solvers Sample_Solvers.
Import ListNotations.
Open Scope R_scope.

(** One equation, linear or Burgers: a step changes the content of the mesh by what leaves through its boundary.  Of the
    interfaces only the geometry is asked for: both copies have the same points and opposite normals. *)
Theorem C109_scalar : forall unset c N kDegrees FluxMatrix s parts limit, (0 < N)%nat -> mesh_ok N parts ->
  keeps_contents 1 N parts limit ->
  matched (single_riemann unset c) opposite_normals parts \/ matched (burgers_riemann unset c) opposite_normals parts ->
  let residual := the_residual 1 N kDegrees FluxMatrix s parts in
  forall order, (1 <= order <= 3)%nat -> forall sys t dt,
  contents 1 N parts (s_solution (L_RK_Update limit residual order sys t dt)) 0
  = contents 1 N parts (s_solution sys) 0
    - dt * averaged limit residual order (fun t U => outflow 1 N FluxMatrix s parts t U 0) (s_solution sys) t dt.
Proof.
  intros unset c N d FM s parts limit NP M Kp Mt residual order Ho sys t dt. apply step_at; try assumption; try lia.
  intros U _ t'. apply balance_at; [exact NP|exact M| |lia].
  destruct Mt as [Mt|Mt]; eapply (matched_cancel 1 N FM parts _ opposite_normals (fun _ _ _ _ => True)); try exact Mt; try (intros ? ? ? ? ? ? ?; exact I).
  - intros f q fr gr l r T _ _. apply single_opposite, T.
  - intros f q fr gr l r T _ _. apply burgers_opposite, T.
Qed.
Print Assumptions C109_scalar.

(** Several linear equations, whatever decomposition of a matrix Eigen returns. *)
Theorem C109_multiple : forall unset K eigen c N kDegrees FluxMatrix s parts limit, (0 < N)%nat -> mesh_ok N parts ->
  (forall nu, let '(d, rows, cols) := eigen (normal_mat c nu) in eigen_contract K (normal_mat c nu) d rows cols) ->
  keeps_contents K N parts limit -> matched (multiple_riemann unset K eigen c) opposite_normals parts ->
  let residual := the_residual K N kDegrees FluxMatrix s parts in
  forall k, (k < K)%nat -> forall order, (1 <= order <= 3)%nat -> forall sys t dt,
  contents K N parts (s_solution (L_RK_Update limit residual order sys t dt)) k
  = contents K N parts (s_solution sys) k
    - dt * averaged limit residual order (fun t U => outflow K N FluxMatrix s parts t U k) (s_solution sys) t dt.
Proof.
  intros unset K eigen c N d FM s parts limit NP M E Kp Mt residual k L order Ho sys t dt. apply step_at; try assumption.
  intros U _ t'. apply balance_at; [exact NP|exact M| |exact L].
  eapply (matched_cancel K N FM parts _ opposite_normals (fun _ _ _ _ => True)); try exact Mt; try (intros ? ? ? ? ? ? ?; exact I).
  intros f q fr gr l r T _ _. apply multiple_opposite; assumption.
Qed.
Print Assumptions C109_multiple.

(** The Euler equations in three dimensions with AUSM, as long as density and pressure are positive in the points of the
    interfaces at the stages of the step. *)
Theorem C109_ausm : forall gamma N kDegrees FluxMatrix s parts limit, 1 < gamma -> (0 < N)%nat -> mesh_ok N parts ->
  keeps_contents 5 N parts limit -> matched (euler_riemann gamma (Ausm_GetFluxUpwind gamma)) opposite_frames parts ->
  let residual := the_residual 5 N kDegrees FluxMatrix s parts in
  forall order, (1 <= order <= 3)%nat -> forall sys t dt,
  (forall U, In U (stages limit residual order (s_solution sys) t dt) -> across 5 N parts (both_physical gamma) U) ->
  forall k, (k < 5)%nat ->
  contents 5 N parts (s_solution (L_RK_Update limit residual order sys t dt)) k
  = contents 5 N parts (s_solution sys) k
    - dt * averaged limit residual order (fun t U => outflow 5 N FluxMatrix s parts t U k) (s_solution sys) t dt.
Proof.
  intros gamma N d FM s parts limit G NP M Kp Mt residual order Ho sys t dt Ph k L. apply step_at; try assumption.
  intros U I t'. apply balance_at; [exact NP|exact M| |exact L].
  eapply (matched_cancel 5 N FM parts _ opposite_frames (both_physical gamma)); [|exact Mt|exact (Ph U I)].
  intros f q fr gr l r T (Pl & Pr) _. apply ausm_opposite; assumption.
Qed.
Print Assumptions C109_ausm.

(** With HLLC also the normal velocities must not approach each other faster than the sum of the speeds of sound. *)
Theorem C109_hllc : forall gamma N kDegrees FluxMatrix s parts limit, 1 < gamma -> (0 < N)%nat -> mesh_ok N parts ->
  keeps_contents 5 N parts limit -> matched (euler_riemann gamma (Hllc_GetFluxUpwind gamma)) opposite_frames parts ->
  let residual := the_residual 5 N kDegrees FluxMatrix s parts in
  forall order, (1 <= order <= 3)%nat -> forall sys t dt,
  (forall U, In U (stages limit residual order (s_solution sys) t dt) -> across 5 N parts (both_physical gamma) U
     /\ across 5 N parts (no_collision gamma (Hllc_GetFluxUpwind gamma)) U) ->
  forall k, (k < 5)%nat ->
  contents 5 N parts (s_solution (L_RK_Update limit residual order sys t dt)) k
  = contents 5 N parts (s_solution sys) k
    - dt * averaged limit residual order (fun t U => outflow 5 N FluxMatrix s parts t U k) (s_solution sys) t dt.
Proof.
  intros gamma N d FM s parts limit G NP M Kp Mt residual order Ho sys t dt Ph k L. apply step_at; try assumption.
  intros U I t'. apply balance_at; [exact NP|exact M| |exact L]. destruct (Ph U I) as (P1 & P2).
  eapply (matched_cancel 5 N FM parts _ opposite_frames (fun f q l r => both_physical gamma f q l r
    /\ no_collision gamma (Hllc_GetFluxUpwind gamma) f q l r)); [|exact Mt|].
  - intros f q fr gr l r T ((Pl & Pr) & C) E. apply hllc_opposite; try assumption. exact (C fr E).
  - intros r p f q E J Lq. split; [exact (P1 r p f q E J Lq)|exact (P2 r p f q E J Lq)].
Qed.
Print Assumptions C109_hllc.

(** Between solid walls the mass and the energy of the gas do not change in any number of steps. *)
Theorem C109_walls : forall gamma N kDegrees FluxMatrix s parts limit, 1 < gamma -> (0 < N)%nat -> mesh_ok N parts ->
  keeps_contents 5 N parts limit -> matched (euler_riemann gamma (Ausm_GetFluxUpwind gamma)) opposite_frames parts ->
  only_walls s -> walls_made (euler_riemann gamma (Ausm_GetFluxUpwind gamma)) (orthonormal 3) parts ->
  let residual := the_residual 5 N kDegrees FluxMatrix s parts in
  forall order, (1 <= order <= 3)%nat -> forall steps sys,
  (forall U, In U (visited limit residual order steps sys) -> across 5 N parts (both_physical gamma) U) ->
  contents 5 N parts (s_solution (L_march limit residual order steps sys)) 0 = contents 5 N parts (s_solution sys) 0 /\
  contents 5 N parts (s_solution (L_march limit residual order steps sys)) 4 = contents 5 N parts (s_solution sys) 4.
Proof.
  intros gamma N d FM s parts limit G NP M Kp Mt Wl Wm residual order Ho steps sys Ph.
  assert (B : forall k, (k = 0 \/ k = 4)%nat -> forall U, In U (visited limit residual order steps sys) -> forall t,
    contents 5 N parts (residual t U) k = - outflow 5 N FM s parts t U k /\ outflow 5 N FM s parts t U k = 0).
  { intros k Hk U I t. split.
    - apply balance_at; [exact NP|exact M| |lia].
      eapply (matched_cancel 5 N FM parts _ opposite_frames (both_physical gamma)); [|exact Mt|exact (Ph U I)].
      intros f q fr gr l r T (Pl & Pr) _. apply ausm_opposite; assumption.
    - apply walls_only; [exact Wl|]. intros r p name f q u E J Lq. destruct (Wm r p name f q E J Lq) as (fr & O & ->).
      rewrite (euler_wall _ _ _ _ _ O). destruct Hk as [-> | ->]; reflexivity. }
  split; apply march_at; try assumption; try lia; apply B; tauto.
Qed.
Print Assumptions C109_walls.

(** What leaves through solid walls is only momentum: the pressure times the normal. *)
Theorem C109_force : forall gamma solver f u, orthonormal 3 f ->
  let flux := Model_DG.GetFluxOnSolidWall (euler_riemann gamma solver f) u in
  let p := energy (ConservativeToPrimitive gamma (toT u)) in
  flux 0%nat = 0 /\ flux 4%nat = 0 /\ forall i, (i < 3)%nat -> flux (S i) = p * nth i (normal f) 0.
Proof.
  intros gamma solver f u O flux p. unfold flux. rewrite !(euler_wall _ _ _ _ _ O). split; [reflexivity|]. split; [reflexivity|].
  intros i Li. rewrite (euler_wall _ _ _ _ _ O). fold p. cbv zeta.
  assert (L : List.length (normal f) = 3%nat) by (apply (normal_length 3); [right; reflexivity|exact O]).
  destruct (normal f) as [|a [|b [|c [|]]]]; try discriminate L.
  destruct i as [|[|[|i]]]; [reflexivity..|lia].
Qed.
Print Assumptions C109_force.

(** One equation between walls, for any number of steps. *)
Theorem C109_scalar_walls : forall unset c N kDegrees FluxMatrix s parts limit, (0 < N)%nat -> mesh_ok N parts ->
  keeps_contents 1 N parts limit -> only_walls s ->
  (matched (single_riemann unset c) opposite_normals parts /\ walls_made (single_riemann unset c) (fun _ => True) parts
   \/ matched (burgers_riemann unset c) opposite_normals parts /\ walls_made (burgers_riemann unset c) (fun _ => True) parts) ->
  forall order, (1 <= order <= 3)%nat -> forall steps sys,
  contents 1 N parts (s_solution (L_march limit (the_residual 1 N kDegrees FluxMatrix s parts) order steps sys)) 0
  = contents 1 N parts (s_solution sys) 0.
Proof.
  intros unset c N d FM s parts limit NP M Kp Wl H order Ho steps sys. apply march_at; try assumption; [lia|].
  intros U _ t. split.
  - apply balance_at; [exact NP|exact M| |lia].
    destruct H as [[Mt _]|[Mt _]]; eapply (matched_cancel 1 N FM parts _ opposite_normals (fun _ _ _ _ => True)); try exact Mt; try (intros ? ? ? ? ? ? ?; exact I).
    + intros f q fr gr l r T _ _. apply single_opposite, T.
    + intros f q fr gr l r T _ _. apply burgers_opposite, T.
  - apply walls_only; [exact Wl|]. intros r p name f q u E J Lq.
    destruct H as [[_ Wm]|[_ Wm]]; destruct (Wm r p name f q E J Lq) as (fr & _ & ->); reflexivity.
Qed.
Print Assumptions C109_scalar_walls.

(** The objects give the physical flux: for equal states on both sides of a face, and on boundaries with the state of the
    gas outside equal to that inside. *)
Theorem C109_flux : forall gamma f u k, 1 < gamma -> orthonormal 3 f -> physicalU gamma (toT u) ->
  let flux := euler_flux gamma u (normal f) k in
  forall solver, solver = Ausm_GetFluxUpwind gamma \/ solver = Hllc_GetFluxUpwind gamma ->
  let r := euler_riemann gamma solver f in
  GetFluxUpwind r u u k = flux /\ Model_DG.GetFluxOnSupersonicInlet r u k = flux /\
  Model_DG.GetFluxOnSupersonicOutlet r u k = flux /\ Model_DG.GetFluxOnSubsonicInlet r u u k = flux /\
  Model_DG.GetFluxOnSubsonicOutlet r u u k = flux /\ Model_DG.GetFluxOnSmartBoundary r u u k = flux.
Proof.
  intros gamma f u k G O P flux solver S r.
  assert (L : List.length (normal f) = 3%nat) by (apply (normal_length 3); [right; reflexivity|exact O]).
  assert (Z : u 0%nat <> 0) by (destruct P as [P _]; cbn [toT mass] in P; lra).
  assert (Lf : List.length f = 3%nat) by (destruct O as [O _]; exact O).
  destruct (boundaries_consistent 3 gamma f (toT u) (or_intror eq_refl) O eq_refl G P) as (B1 & B2 & B3 & B4 & B5).
  assert (U : normal_flux gamma (toT u) (normal f) (Rotated_GetFluxUpwind gamma solver f (toT u) (toT u))).
  { apply rotated_upwind with 3%nat; try assumption; [right; reflexivity|reflexivity|]. intros w W.
    destruct S as [-> | ->]; [apply ausm_consistent|apply hllc_consistent]; assumption. }
  unfold r, flux. cbn [euler_riemann GetFluxUpwind Model_DG.GetFluxOnSupersonicInlet Model_DG.GetFluxOnSupersonicOutlet
    Model_DG.GetFluxOnSubsonicInlet Model_DG.GetFluxOnSubsonicOutlet Model_DG.GetFluxOnSmartBoundary].
  do 5 (split; [apply normal_flux_value; try assumption; apply three_components; exact Lf|]).
  apply normal_flux_value; try assumption. unfold Model_Euler.GetFluxOnSmartBoundary.
  repeat match goal with |- context [if ?b then _ else _] => destruct b end; apply three_components; exact Lf.
Qed.
Print Assumptions C109_flux.
Theorem C109_scalar_flux : forall unset c nu u k,
  let f1 := Single_GetFlux (normal_coefficient c nu) (u 0%nat) in let f2 := Burgers_GetFlux (normal_coefficient c nu) (u 0%nat) in
  f1 = times1 (Simple_GetFluxMatrix1 c (u 0%nat)) nu /\ f2 = times1 (Burgers_GetFluxMatrix c (u 0%nat)) nu /\
  (let r := single_riemann unset c nu in GetFluxUpwind r u u k = f1 /\ Model_DG.GetFluxOnSupersonicInlet r u k = f1 /\
     Model_DG.GetFluxOnSupersonicOutlet r u k = f1 /\ Model_DG.GetFluxOnSolidWall r u k = 0) /\
  (let r := burgers_riemann unset c nu in GetFluxUpwind r u u k = f2 /\ Model_DG.GetFluxOnSupersonicInlet r u k = f2 /\
     Model_DG.GetFluxOnSupersonicOutlet r u k = f2 /\ Model_DG.GetFluxOnSolidWall r u k = 0).
Proof.
  intros unset c nu u k f1 f2.
  destruct (C26_consistent_and_monotone (normal_coefficient c nu)) as ((C1 & _) & (C2 & _)).
  destruct (C28_rotated_scalar_flux c nu (u 0%nat)) as (E1 & E2). unfold consistent in C1, C2.
  split; [unfold f1; rewrite <- C1; exact E1|]. split; [unfold f2; rewrite <- C2; exact E2|].
  split; (split; [apply C1 || apply C2|]); repeat split.
Qed.
Print Assumptions C109_scalar_flux.
Theorem C109_multiple_flux : forall unset K eigen c nu u k, (k < K)%nat ->
  (let '(d, rows, cols) := eigen (normal_mat c nu) in eigen_contract K (normal_mat c nu) d rows cols) ->
  let r := multiple_riemann unset K eigen c nu in let f := timesK (Simple_GetFluxMatrixK K c u) nu k in
  GetFluxUpwind r u u k = f /\ Model_DG.GetFluxOnSupersonicInlet r u k = f /\ Model_DG.GetFluxOnSupersonicOutlet r u k = f
  /\ Model_DG.GetFluxOnSolidWall r u k = 0.
Proof.
  intros unset K eigen c nu u k L E r f. unfold r, f, multiple_riemann. destruct (eigen (normal_mat c nu)) as [[d V] W].
  cbn [GetFluxUpwind Model_DG.GetFluxOnSupersonicInlet Model_DG.GetFluxOnSupersonicOutlet Model_DG.GetFluxOnSolidWall].
  pose proof (C28_rotated_multiple_flux K c nu d V W E u k L) as H.
  split; [exact H|]. rewrite <- H, (Multiple_consistent _ _ _ _ _ E) by exact L. repeat split.
Qed.
Print Assumptions C109_multiple_flux.

(** Between different states the fluxes are upwind: those of Godunov for one equation, by the signs of the eigenvalues for
    systems, and for a gas that moves with the speed of sound or faster the flux of the side from which it comes. *)
Theorem C109_upwind : forall unset c nu,
  godunov (fun u => times1 (Simple_GetFluxMatrix1 c u) nu)
    (fun l r => GetFluxUpwind (single_riemann unset c nu) (fun _ => l) (fun _ => r) 0%nat) /\
  godunov (fun u => times1 (Burgers_GetFluxMatrix c u) nu)
    (fun l r => GetFluxUpwind (burgers_riemann unset c nu) (fun _ => l) (fun _ => r) 0%nat) /\
  (forall K eigen m d V W, eigen (normal_mat m nu) = (d, V, W) -> forall l r k,
     GetFluxUpwind (multiple_riemann unset K eigen m nu) l r k
     = mulMV K (spectralK positive K d V W) l k + mulMV K (spectralK negative K d V W) r k) /\
  (forall gamma f l r k, 1 < gamma -> orthonormal 3 f -> physicalU gamma (toT l) -> physicalU gamma (toT r) ->
     let speed u := dotL (momentum (toT u)) (normal f) / u 0%nat in
     let sound u := GetSpeedOfSound gamma (ConservativeToPrimitive gamma (toT u)) in
     let flux := GetFluxUpwind (euler_riemann gamma (Ausm_GetFluxUpwind gamma) f) l r k in
     (sound l <= speed l -> sound r <= speed r -> flux = euler_flux gamma l (normal f) k) /\
     (speed l <= - sound l -> speed r <= - sound r -> flux = euler_flux gamma r (normal f) k)).
Proof.
  intros unset c nu. split; [|split; [|split]].
  - replace (fun u => times1 (Simple_GetFluxMatrix1 c u) nu) with (Single_GetFlux (normal_coefficient c nu)); [apply C26_scalar_fluxes_are_godunov|].
    apply FunctionalExtensionality.functional_extensionality. intros u. exact (proj1 (C109_scalar_flux unset c nu (fun _ => u) 0%nat)).
  - replace (fun u => times1 (Burgers_GetFluxMatrix c u) nu) with (Burgers_GetFlux (normal_coefficient c nu)); [apply C26_scalar_fluxes_are_godunov|].
    apply FunctionalExtensionality.functional_extensionality. intros u. exact (proj1 (proj2 (C109_scalar_flux unset c nu (fun _ => u) 0%nat))).
  - intros K eigen m d V W E l r k. unfold multiple_riemann. rewrite E. cbn [GetFluxUpwind]. apply Multiple_upwind.
  - intros gamma f l r k G O Pl Pr speed sound flux.
    assert (L : List.length (normal f) = 3%nat) by (apply (normal_length 3); [right; reflexivity|exact O]).
    assert (Lf : List.length f = 3%nat) by (destruct O as [O _]; exact O).
    assert (Q : forall u, physicalU gamma (toT u) -> u 0%nat <> 0 /\ physical (GlobalToNormal f (ConservativeToPrimitive gamma (toT u)))
       /\ mX (GlobalToNormal f (ConservativeToPrimitive gamma (toT u))) = speed u
       /\ List.length (mT (GlobalToNormal f (ConservativeToPrimitive gamma (toT u)))) = 2%nat).
    { intros u P. destruct (physicalU_C2P _ _ G P) as [Pp _]. pose proof P as P'. destruct P as [P _]. cbn [toT mass] in P.
      split; [lra|]. split; [destruct Pp; split; assumption|].
      rewrite C2P_physical; [|exact G|exact P|exact (physicalU_internal _ _ G P')].
      destruct O as (_ & O2 & _). unfold speed, normal. destruct f as [|n [|b [|e [|]]]]; try discriminate Lf.
      unfold GlobalToNormal, set_momentum. cbn [map hd tl mX mT List.length]. split; [|reflexivity].
      assert (Ln : List.length n = 3%nat) by (apply O2; left; reflexivity).
      destruct n as [|n1 [|n2 [|n3 [|]]]]; try discriminate Ln. cbn. field. lra. }
    destruct (Q l Pl) as (Zl & Ql & El & Ll). destruct (Q r Pr) as (Zr & Qr & Er & Lr).
    destruct (ausm_supersonic gamma _ _ G Ql Qr (eq_trans Ll (eq_sym Lr))) as (A & B). rewrite El, Er in A, B.
    unfold flux. cbn [euler_riemann GetFluxUpwind]. unfold Rotated_GetFluxUpwind. cbv zeta.
    split; intros H1 H2.
    + rewrite A by assumption. apply normal_flux_value; try assumption; [apply three_components, Lf|].
      apply (flux_of_C2P 3 gamma f (toT l)); try assumption; [right; reflexivity|reflexivity].
    + rewrite B by assumption. apply normal_flux_value; try assumption; [apply three_components, Lf|].
      apply (flux_of_C2P 3 gamma f (toT r)); try assumption; [right; reflexivity|reflexivity].
Qed.
Print Assumptions C109_upwind.

(** Through subsonic outlets and inlets passes the flux of the state that the characteristics of C39 determine. *)
Theorem C109_subsonic : forall gamma solver f i o, 1 < gamma -> orthonormal 3 f -> physicalU gamma (toT i) ->
  let wi := ConservativeToPrimitive gamma (toT i) in let wo := ConservativeToPrimitive gamma (toT o) in
  let r := euler_riemann gamma solver f in
  (0 < dotL (momentum wi) (normal f) -> exists b, outlet_state_correct gamma (normal f) wi wo b /\ (mass b <> 0 ->
     normal_flux gamma (PrimitiveToConservative gamma b) (normal f) (toT (Model_DG.GetFluxOnSubsonicOutlet r i o)))) /\
  (dotL (momentum wo) (normal f) <= 0 -> exists b, inlet_state_correct gamma (normal f) wi wo b /\ (mass b <> 0 ->
     normal_flux gamma (PrimitiveToConservative gamma b) (normal f) (toT (Model_DG.GetFluxOnSubsonicInlet r i o)))).
Proof.
  intros gamma solver f i o G O Pi wi wo r.
  assert (L : List.length (normal f) = 3%nat) by (apply (normal_length 3); [right; reflexivity|exact O]).
  assert (Lf : List.length f = 3%nat) by (destruct O as [O _]; exact O).
  assert (Li : List.length (momentum wi) = 3%nat) by (unfold wi; cbn [momentum List.length]; rewrite C2P_mT; reflexivity).
  assert (Lo : List.length (momentum wo) = 3%nat) by (unfold wo; cbn [momentum List.length]; rewrite C2P_mT; reflexivity).
  destruct (physicalU_C2P _ _ G Pi) as [Pp _]. fold wi in Pp.
  assert (N1 : dotL (normal f) (normal f) = 1).
  { destruct O as (_ & _ & O3). destruct f as [|n f']; [discriminate Lf|]. exact (O3 0%nat 0%nat ltac:(cbn; lia) ltac:(cbn; lia)). }
  assert (T : forall t : Tuple, List.length (momentum t) = 3%nat -> toT (ofT t) = t).
  { intros [m x [|y [|z [|]]] e] H; try discriminate H. reflexivity. }
  assert (B : forall w c, List.length (momentum w) = 3%nat -> List.length (addL (momentum w) (map (fun x => c * x) (normal f))) = 3%nat).
  { intros w c H. destruct (normal f) as [|n1 [|n2 [|n3 [|]]]]; try discriminate L.
    destruct (momentum w) as [|a1 [|a2 [|a3 [|]]]]; try discriminate H. reflexivity. }
  split; intros H; eexists; (split; [apply C39_subsonic_outlet_partial || apply C39_subsonic_inlet_partial; try assumption; congruence|]);
    intros Z; unfold r; cbn [euler_riemann Model_DG.GetFluxOnSubsonicOutlet Model_DG.GetFluxOnSubsonicInlet];
    rewrite T by (apply three_components, Lf);
    (apply (rotated_flux 3); [right; reflexivity|exact O| |lra|exact Z]).
  - unfold SubsonicOutlet_state. cbv zeta. specialize (B wi). cbn [momentum mX mT List.length].
    match goal with |- context [tl (addL ?a (map (fun x => ?c * x) _))] => specialize (B c Li) end.
    match goal with |- context [tl ?l] => destruct l as [|a1 [|a2 [|a3 [|]]]]; try discriminate B; reflexivity end.
  - unfold SubsonicInlet_state. cbv zeta. specialize (B wo). cbn [momentum mX mT List.length].
    match goal with |- context [tl (addL ?a (map (fun x => ?c * x) _))] => specialize (B c Lo) end.
    match goal with |- context [tl ?l] => destruct l as [|a1 [|a2 [|a3 [|]]]]; try discriminate B; reflexivity end.
Qed.
Print Assumptions C109_subsonic.

(** in the box a step moves the mass 3/10 from the first cell to the second *)
Example C109_nonvacuous :
  mesh_ok 1 box_parts /\ matched gas opposite_frames box_parts /\ walls_made gas (orthonormal 3) box_parts /\ only_walls box_fem
  /\ across 5 1 box_parts (both_physical (7 / 5)) box_state
  /\ box_state (0%nat, 0%nat) = 1 /\ box_after (0%nat, 0%nat) = 7 / 10
  /\ contents 5 1 box_parts box_after 0 = 2 /\ contents 5 1 box_parts box_after 4 = 14.
Proof.
  split; [exact box_mesh_ok|]. split; [exact box_matched|]. split; [exact box_walls|].
  split; [repeat split|]. split; [exact box_physical|]. split; [reflexivity|]. split; [exact box_values|].
  destruct (C109_walls (7 / 5) 1 0 any_matrix box_fem box_parts (fun u => u) ltac:(lra) ltac:(lia) box_mesh_ok ltac:(intros ? ? ? ? ? ? ? ?; reflexivity)
    box_matched ltac:(repeat split) box_walls 1 ltac:(lia) [(0, 1 / 10)] (mkSystem 0 box_state)) as (E0 & E4).
  - intros U [<-|[]]. exact box_physical.
  - change (L_march (fun u => u) _ 1 [(0, 1 / 10)] (mkSystem 0 box_state)) with
      (L_RK_Update (fun u => u) box_res 1 (mkSystem 0 box_state) 0 (1 / 10)) in E0, E4.
    fold box_after in E0, E4. rewrite E0, E4. unfold contents, content, value_of. cbn -[IZR Rmult Rplus Rminus Rinv Rdiv]. split; ring.
Qed.
