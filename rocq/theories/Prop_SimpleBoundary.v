(** C105: the flux functions of boundary conditions for linear equations and Burgers' equation. *)
From Coq Require Import Reals List Lra FunctionalExtensionality.
From Verif Require Import Model_Simple Spec_Simple Proof_Simple Model_SimpleBoundary.
Import ListNotations.
Open Scope R_scope.

(** [Rotate] succeeds for unit normals, and the normal is the first vector of the frame. *)
Theorem C105_rotate : forall C J (along : C -> R * R * R -> J) c nu rest, norm3 nu = 1 ->
  exists s, Rotate along c (nu :: rest) = Some s /\ Rotated_normal s = nu /\ unrotated s = along c nu.
Proof.
  intros C J along c nu rest U. unfold Rotate. rewrite U.
  replace (1 - 1) with 0 by ring. rewrite Rabs_R0. destruct (Rlt_dec 0 (/ 10 ^ 6)) as [L|L].
  - eexists. split; [reflexivity|]. split; reflexivity.
  - exfalso. apply L. apply Rinv_0_lt_compat. apply pow_lt. lra.
Qed.
Print Assumptions C105_rotate.

(** Through supersonic inlets and outlets passes the flux matrix of the state times the normal; nothing passes
    through walls.  This is also what the upwind flux is for the same state on both sides. *)
Theorem C105_scalar : forall c f s u, Rotate1 c f = Some s ->
  Simple_SupersonicOutlet Single_GetFlux s u = times1 (Simple_GetFluxMatrix1 c u) (Rotated_normal s) /\
  Simple_SupersonicInlet Single_GetFlux s u = times1 (Simple_GetFluxMatrix1 c u) (Rotated_normal s) /\
  Simple_GetFluxUpwind Single_GetFluxUpwind s u u = times1 (Simple_GetFluxMatrix1 c u) (Rotated_normal s) /\
  Simple_SupersonicOutlet Burgers_GetFlux s u = times1 (Burgers_GetFluxMatrix c u) (Rotated_normal s) /\
  Simple_SupersonicInlet Burgers_GetFlux s u = times1 (Burgers_GetFluxMatrix c u) (Rotated_normal s) /\
  Simple_GetFluxUpwind Burgers_GetFluxUpwind s u u = times1 (Burgers_GetFluxMatrix c u) (Rotated_normal s) /\
  Simple_SolidWall 0 s u = 0.
Proof.
  intros c [|nu f] s u E; [discriminate E|]. unfold Rotate1, Rotate in E. destruct (Rlt_dec _ _) in E; [|discriminate E].
  injection E as <-. unfold Simple_SupersonicOutlet, Simple_SupersonicInlet, Simple_GetFluxUpwind, Rotated_normal.
  cbn [unrotated frame_ hd].
  pose proof (rotated_single c nu u) as S1. pose proof (rotated_burgers c nu u) as S2.
  pose proof (godunov_consistent _ _ (Single_godunov (normal_coefficient c nu)) u) as T1.
  pose proof (godunov_consistent _ _ (Burgers_godunov (normal_coefficient c nu)) u) as T2.
  split; [congruence|]. split; [congruence|]. split; [exact S1|]. split; [congruence|]. split; [congruence|].
  split; [exact S2|reflexivity].
Qed.
Print Assumptions C105_scalar.

(** Between two states passes Godunov's flux for the flux along the normal: the least flux of the states between them if the
    left one is the smaller, otherwise the greatest. *)
Theorem C105_upwind : forall c f s, Rotate1 c f = Some s ->
  godunov (fun u => times1 (Simple_GetFluxMatrix1 c u) (Rotated_normal s)) (Simple_GetFluxUpwind Single_GetFluxUpwind s) /\
  godunov (fun u => times1 (Burgers_GetFluxMatrix c u) (Rotated_normal s)) (Simple_GetFluxUpwind Burgers_GetFluxUpwind s).
Proof.
  intros c [|nu f] s E; [discriminate E|]. unfold Rotate1, Rotate in E. destruct (Rlt_dec _ _) in E; [|discriminate E].
  injection E as <-. unfold Simple_GetFluxUpwind, Rotated_normal. cbn [unrotated frame_ hd]. split.
  - replace (fun u => times1 (Simple_GetFluxMatrix1 c u) nu) with (Single_GetFlux (normal_coefficient c nu)).
    + exact (Single_godunov (normal_coefficient c nu)).
    + apply FunctionalExtensionality.functional_extensionality. intros u. rewrite <- rotated_single. symmetry.
      exact (godunov_consistent _ _ (Single_godunov (normal_coefficient c nu)) u).
  - replace (fun u => times1 (Burgers_GetFluxMatrix c u) nu) with (Burgers_GetFlux (normal_coefficient c nu)).
    + exact (Burgers_godunov (normal_coefficient c nu)).
    + apply FunctionalExtensionality.functional_extensionality. intros u. rewrite <- rotated_burgers. symmetry.
      exact (godunov_consistent _ _ (Burgers_godunov (normal_coefficient c nu)) u).
Qed.
Print Assumptions C105_upwind.

(** Systems of two and of any number of equations. *)
Theorem C105_systems :
  (forall c f s u, Rotate2 c f = Some s ->
     Simple_SupersonicOutlet Double_GetFlux s u = times2 (Simple_GetFluxMatrix2 c u) (Rotated_normal s) /\
     Simple_SupersonicInlet Double_GetFlux s u = times2 (Simple_GetFluxMatrix2 c u) (Rotated_normal s) /\
     Simple_SolidWall (0, 0) s u = (0, 0)) /\
  (forall K c f s u i, RotateK c f = Some s ->
     Simple_SupersonicOutlet (Multiple_GetFlux K) s u i = timesK (Simple_GetFluxMatrixK K c u) (Rotated_normal s) i /\
     Simple_SupersonicInlet (Multiple_GetFlux K) s u i = timesK (Simple_GetFluxMatrixK K c u) (Rotated_normal s) i /\
     Simple_SolidWall (fun _ : nat => 0) s u i = 0).
Proof.
  split.
  - intros c [|nu f] s u E; [discriminate E|]. unfold Rotate2, Rotate in E. destruct (Rlt_dec _ _) in E; [|discriminate E].
    injection E as <-. unfold Simple_SupersonicOutlet, Simple_SupersonicInlet, Rotated_normal. cbn [unrotated frame_ hd].
    destruct c as [[cx cy] cz], nu as [[nx ny] nz]. unfold Double_GetFlux, mul2, times2. cbn.
    split; [|split]; [f_equal; ring|f_equal; ring|reflexivity].
  - intros K c [|nu f] s u i E; [discriminate E|]. unfold RotateK, Rotate in E. destruct (Rlt_dec _ _) in E; [|discriminate E].
    injection E as <-. unfold Simple_SupersonicOutlet, Simple_SupersonicInlet, Rotated_normal. cbn [unrotated frame_ hd].
    assert (H : Multiple_GetFlux K (normal_mat c nu) u i = timesK (Simple_GetFluxMatrixK K c u) nu i).
    { destruct c as [[cx cy] cz], nu as [[nx ny] nz]. unfold Multiple_GetFlux, timesK, mulMV. cbn.
      unfold mulMV. rewrite <- !sum_mul_r, <- !sum_add. apply sum_ext. intros. ring. }
    split; [exact H|split; [exact H|reflexivity]].
Qed.
Print Assumptions C105_systems.

(** The other three functions return nothing defined, whatever the states: for equal states they do not return the flux. *)
Theorem C105_subsonic_refuted : exists c f s, Rotate1 c f = Some s /\ forall u,
  let flux := Some (times1 (Simple_GetFluxMatrix1 c u) (Rotated_normal s)) in
  Simple_SubsonicInlet s u u <> flux /\ Simple_SubsonicOutlet s u u <> flux /\ Simple_SmartBoundary s u u <> flux.
Proof.
  destruct (C105_rotate _ _ normal_coefficient (1, 0, 0) (1, 0, 0) []) as (s & E & _).
  { unfold norm3. replace (1 * 1 + 0 * 0 + 0 * 0) with 1 by ring. apply sqrt_1. }
  exists (1, 0, 0), [(1, 0, 0)], s. split; [exact E|]. intros u. repeat split; discriminate.
Qed.
Print Assumptions C105_subsonic_refuted.

(** the normal (3/5, 4/5, 0) with the coefficients 1, 2, 0: the value 5 has the flux 11 *)
Example C105_nonvacuous : exists s, Rotate1 (1, 2, 0) [(3 / 5, 4 / 5, 0)] = Some s /\
  Simple_SupersonicOutlet Single_GetFlux s 5 = 11 /\ Simple_SupersonicInlet Burgers_GetFlux s 2 = 22 / 5.
Proof.
  destruct (C105_rotate _ _ normal_coefficient (1, 2, 0) (3 / 5, 4 / 5, 0) []) as (s & E & _ & U).
  { unfold norm3. replace (3 / 5 * (3 / 5) + 4 / 5 * (4 / 5) + 0 * 0) with 1 by field. apply sqrt_1. }
  exists s. split; [exact E|]. unfold Simple_SupersonicOutlet, Simple_SupersonicInlet, Single_GetFlux, Burgers_GetFlux.
  rewrite U. cbn. split; field.
Qed.
