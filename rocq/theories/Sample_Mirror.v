(** Two streams of a gas that meet, and a contact that moves. *)
From Coq Require Import Reals List Lra Lia.
From Verif Require Import Model_Euler Spec_Euler Proof_Euler Proof_Rotated Spec_Mirror Proof_Mirror.
Import ListNotations.
Open Scope R_scope.

Definition air : R := 7 / 5.
Definition frame_x : Frame := [[1; 0; 0]; [0; 1; 0]; [0; 0; 1]].
(** the normal turned round and other tangents *)
Definition frame_mx : Frame := [[-1; 0; 0]; [0; 0; 1]; [0; 1; 0]].

Lemma frame_x_ok : orthonormal 3 frame_x.
Proof.
  split; [reflexivity|]. split.
  - intros v [<-|[<-|[<-|[]]]]; reflexivity.
  - intros i j Hi Hj. destruct i as [|[|[|]]]; try lia; destruct j as [|[|[|]]]; try lia; cbn; ring.
Qed.
Lemma frame_mx_ok : orthonormal 3 frame_mx.
Proof.
  split; [reflexivity|]. split.
  - intros v [<-|[<-|[<-|[]]]]; reflexivity.
  - intros i j Hi Hj. destruct i as [|[|[|]]]; try lia; destruct j as [|[|[|]]]; try lia; cbn; ring.
Qed.

(** density, velocity, pressure; the speed of sound is 1 *)
Definition prim (rho u : R) : Tuple := mkTuple rho u [0; 0] (5 / 7).
Definition stream_l : Tuple := PrimitiveToConservative air (prim 1 2).
Definition stream_r : Tuple := PrimitiveToConservative air (prim 1 (-2)).
(** the same velocity and pressure, different densities *)
Definition slow_l : Tuple := PrimitiveToConservative air (prim 1 (3 / 2)).
Definition slow_r : Tuple := PrimitiveToConservative air (prim 4 (3 / 2)).

Lemma prim_physicalU rho u : 0 < rho -> physicalU air (PrimitiveToConservative air (prim rho u)).
Proof.
  intros P. split; [exact P|].
  rewrite (conservative_pressure air (prim rho u)); [cbn; lra|unfold air; lra|cbn; lra|].
  apply P2C_conservative. unfold air. lra.
Qed.
Lemma stream_l_physical : physicalU air stream_l.
Proof. apply prim_physicalU. lra. Qed.
Lemma stream_r_physical : physicalU air stream_r.
Proof. apply prim_physicalU. lra. Qed.

Lemma prim_back rho u : 0 < rho -> ConservativeToPrimitive air (PrimitiveToConservative air (prim rho u)) = prim rho u.
Proof. intros P. apply P2C_then_C2P; [unfold air; lra|exact P|cbn; lra]. Qed.
Lemma prim_x rho u : GlobalToNormal frame_x (prim rho u) = prim rho u.
Proof. unfold GlobalToNormal, set_momentum, prim, momentum. cbn. f_equal; [ring|]. f_equal; [ring|f_equal; ring]. Qed.
Lemma prim_mx rho u : GlobalToNormal frame_mx (prim rho u) = prim rho (- u).
Proof. unfold GlobalToNormal, set_momentum, prim, momentum. cbn. f_equal; [ring|]. f_equal; [ring|f_equal; ring]. Qed.

Lemma prim_sound u : GetSpeedOfSound air (prim 1 u) = 1.
Proof.
  unfold GetSpeedOfSound. cbn [mass energy prim]. destruct (Rle_dec 1 0); [lra|]. destruct (Rle_dec (5 / 7) 0); [lra|].
  replace (air * (5 / 7) / 1) with 1 by (unfold air; field). apply sqrt_1.
Qed.

(** the left wave of the collision runs to the right *)
Lemma stream_flux : Hllc_GetFluxUpwind air (prim 1 2) (prim 1 (-2)) = PrimitiveToFlux air (prim 1 2).
Proof.
  pose proof (hllc_upwind air (prim 1 2) (prim 1 (-2))) as H.
  destruct (Hllc_Initialize air (prim 1 2) (prim 1 (-2))) as [[sl ss] sr] eqn:E. apply H. clear H.
  unfold Hllc_Initialize in E. rewrite !prim_sound in E. cbn [mass mX energy prim] in E.
  injection E as E _ _. rewrite <- E. clear E.
  replace ((5 / 7 + 5 / 7 - (-2 - 2) * ((1 + 1) / 2) * ((1 + 1) / 2)) / 2) with (19 / 7) by field.
  rewrite Rmax_right by lra. unfold GetQ. destruct (Rle_dec (19 / 7) (5 / 7)); [lra|].
  replace (1 + (air + 1) / 2 * (19 / 7 / (5 / 7) - 1) / air) with (17 / 5) by (unfold air; field).
  enough (sqrt (17 / 5) <= 2) by lra.
  replace 2 with (sqrt (2 * 2)) by (apply sqrt_square; lra). apply sqrt_le_1_alt. lra.
Qed.

Lemma stream_fluxes :
  mass (Rotated_GetFluxUpwind air (Hllc_GetFluxUpwind air) frame_x stream_l stream_r) = 2 /\
  mass (Rotated_GetFluxUpwind air (Hllc_GetFluxUpwind air) frame_mx stream_r stream_l) = 2.
Proof.
  unfold Rotated_GetFluxUpwind, stream_l, stream_r. rewrite !prim_back by lra. rewrite !prim_x, !prim_mx.
  replace (- -2) with 2 by ring. replace (- (2)) with (-2) by ring. rewrite stream_flux.
  split; cbn; ring.
Qed.

Lemma slow_fluxes :
  mass (Rotated_GetFluxUpwind air (Hllc_GetFluxUpwind air) frame_x slow_l slow_r) = 3 / 2 /\
  mass (Rotated_GetFluxUpwind air (Hllc_GetFluxUpwind air) frame_mx slow_r slow_l) = - (3 / 2) /\
  physicalU air slow_l /\ physicalU air slow_r.
Proof.
  split; [|split; [|split; apply prim_physicalU; lra]].
  - unfold Rotated_GetFluxUpwind, slow_l, slow_r. rewrite !prim_back by lra. rewrite !prim_x.
    rewrite hllc_moving_contact; [|unfold air; lra|split; cbn; lra|split; cbn; lra|reflexivity|reflexivity].
    cbn [mX prim]. destruct (Rle_dec 0 (3 / 2)); [|lra]. cbn. ring.
  - unfold Rotated_GetFluxUpwind, slow_l, slow_r. rewrite !prim_back by lra. rewrite !prim_mx.
    rewrite hllc_moving_contact; [|unfold air; lra|split; cbn; lra|split; cbn; lra|reflexivity|reflexivity].
    cbn [mX prim]. destruct (Rle_dec 0 (- (3 / 2))); [lra|]. cbn. ring.
Qed.
