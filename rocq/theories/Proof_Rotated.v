(** Proofs about the rotated Euler solver and the eigenvector matrices. *)
From Coq Require Import Reals List Lra Psatz Lia Nsatz.
From Verif Require Import Model_Euler Spec_Euler Proof_Euler.
Import ListNotations.
Open Scope R_scope.

(** ** Orthonormal frames *)

Definition rows3 (a1 a2 a3 b1 b2 b3 c1 c2 c3 : R) : Prop :=
  (a1*a1+a2*a2+a3*a3=1 /\ b1*b1+b2*b2+b3*b3=1 /\ c1*c1+c2*c2+c3*c3=1) /\
  (a1*b1+a2*b2+a3*b3=0 /\ a1*c1+a2*c2+a3*c3=0 /\ b1*c1+b2*c2+b3*c3=0).

Lemma rows3_cols a1 a2 a3 b1 b2 b3 c1 c2 c3 :
  rows3 a1 a2 a3 b1 b2 b3 c1 c2 c3 -> rows3 a1 b1 c1 a2 b2 c2 a3 b3 c3.
Proof. intros [[? [? ?]] [? [? ?]]]. repeat split; nsatz. Qed.

Lemma orthonormal3 f : orthonormal 3 f -> exists a1 a2 a3 b1 b2 b3 c1 c2 c3,
  f = [[a1; a2; a3]; [b1; b2; b3]; [c1; c2; c3]] /\ rows3 a1 a2 a3 b1 b2 b3 c1 c2 c3.
Proof.
  intros [L [V O]]. destruct f as [|a [|b [|c [|]]]]; try discriminate L.
  pose proof (V a ltac:(cbn; auto)) as Va. pose proof (V b ltac:(cbn; auto)) as Vb.
  pose proof (V c ltac:(cbn; auto)) as Vc.
  destruct a as [|a1 [|a2 [|a3 [|]]]]; try discriminate Va.
  destruct b as [|b1 [|b2 [|b3 [|]]]]; try discriminate Vb.
  destruct c as [|c1 [|c2 [|c3 [|]]]]; try discriminate Vc.
  exists a1, a2, a3, b1, b2, b3, c1, c2, c3. split; [reflexivity|].
  pose proof (O 0 0 ltac:(lia) ltac:(lia))%nat as O00. pose proof (O 1 1 ltac:(lia) ltac:(lia))%nat as O11.
  pose proof (O 2 2 ltac:(lia) ltac:(lia))%nat as O22. pose proof (O 0 1 ltac:(lia) ltac:(lia))%nat as O01.
  pose proof (O 0 2 ltac:(lia) ltac:(lia))%nat as O02. pose proof (O 1 2 ltac:(lia) ltac:(lia))%nat as O12.
  cbn in *. repeat split; lra.
Qed.

Definition rows2 (a1 a2 b1 b2 : R) : Prop :=
  a1*a1+a2*a2=1 /\ b1*b1+b2*b2=1 /\ a1*b1+a2*b2=0.

Lemma rows2_cols a1 a2 b1 b2 : rows2 a1 a2 b1 b2 -> rows2 a1 b1 a2 b2.
Proof. intros [? [? ?]]. repeat split; nsatz. Qed.

Lemma orthonormal2 f : orthonormal 2 f -> exists a1 a2 b1 b2,
  f = [[a1; a2]; [b1; b2]] /\ rows2 a1 a2 b1 b2.
Proof.
  intros [L [V O]]. destruct f as [|a [|b [|]]]; try discriminate L.
  pose proof (V a ltac:(cbn; auto)) as Va. pose proof (V b ltac:(cbn; auto)) as Vb.
  destruct a as [|a1 [|a2 [|]]]; try discriminate Va.
  destruct b as [|b1 [|b2 [|]]]; try discriminate Vb.
  exists a1, a2, b1, b2. split; [reflexivity|].
  pose proof (O 0 0 ltac:(lia) ltac:(lia))%nat as O00. pose proof (O 1 1 ltac:(lia) ltac:(lia))%nat as O11.
  pose proof (O 0 1 ltac:(lia) ltac:(lia))%nat as O01.
  cbn in *. repeat split; lra.
Qed.


Ltac frame2 F :=
  apply orthonormal2 in F; destruct F as [a1 [a2 [b1 [b2 [-> F]]]]];
  let C := fresh "C" in pose proof (rows2_cols _ _ _ _ F) as C;
  destruct F as [? [? ?]], C as [? [? ?]].
Ltac frame3 F := 
  apply orthonormal3 in F;
  destruct F as [a1 [a2 [a3 [b1 [b2 [b3 [c1 [c2 [c3 [-> F]]]]]]]]]];
  let C := fresh "C" in pose proof (rows3_cols _ _ _ _ _ _ _ _ _ F) as C;
  destruct F as [[? [? ?]] [? [? ?]]], C as [[? [? ?]] [? [? ?]]].

Ltac tuple2 t H := destruct t as [m u [|v [|]] p]; try discriminate H; clear H.
Ltac tuple3 t H := destruct t as [m u [|v [|z [|]]] p]; try discriminate H; clear H.

Lemma round_trip D f t : dims D -> orthonormal D f -> length (momentum t) = D ->
  NormalToGlobal f (GlobalToNormal f t) = t /\ GlobalToNormal f (NormalToGlobal f t) = t.
Proof.
  intros [->| ->] F L.
  - tuple2 t L. frame2 F.
    unfold NormalToGlobal, GlobalToNormal, set_momentum, momentum. cbn.
    split; f_equal; [|f_equal| |f_equal]; nsatz.
  - tuple3 t L. frame3 F.
    unfold NormalToGlobal, GlobalToNormal, set_momentum, momentum. cbn.
    split; f_equal; [|f_equal; [|f_equal]| |f_equal; [|f_equal]]; nsatz.
Qed.

Lemma rotated_flux D gamma f w : dims D -> orthonormal D f -> length (momentum w) = D ->
  gamma <> 1 -> mass w <> 0 ->
  normal_flux gamma (PrimitiveToConservative gamma w) (normal f) (flux_of_primitive gamma f w).
Proof.
  intros HD F L G M.
  pose proof (conservative_pressure gamma w _ G M (P2C_conservative gamma w G)) as P.
  unfold normal_flux. rewrite P. clear P. revert HD F L M.
  intros [->| ->] F L M.
  - tuple2 w L. frame2 F. cbn in M.
    unfold flux_of_primitive, NormalToGlobal, GlobalToNormal, set_momentum, PrimitiveToFlux,
      PrimitiveToConservative, GetDynamicPressure, scaleL, momentum. cbn.
    replace ((u * m * a1 + (v * m * a2 + 0)) / m) with (u * a1 + v * a2) by (field; auto).
    assert (u = (u * a1 + v * a2) * a1 + (u * b1 + v * b2) * b1) as U by nsatz.
    assert (v = (u * a1 + v * a2) * a2 + (u * b1 + v * b2) * b2) as V by nsatz.
    assert ((u * a1 + v * a2) * (u * a1 + v * a2) + (u * b1 + v * b2) * (u * b1 + v * b2) = u * u + v * v) as Q by nsatz.
    split; [ring|]. split; [f_equal; [|f_equal]|].
    + transitivity (m * (u * a1 + v * a2) * ((u * a1 + v * a2) * a1 + (u * b1 + v * b2) * b1) + p * a1); [ring|].
      rewrite <- U. ring.
    + transitivity (m * (u * a1 + v * a2) * ((u * a1 + v * a2) * a2 + (u * b1 + v * b2) * b2) + p * a2); [ring|].
      rewrite <- V. ring.
    + transitivity ((u * a1 + v * a2) * (p / (gamma - 1) + p + m * ((u * a1 + v * a2) * (u * a1 + v * a2) + (u * b1 + v * b2) * (u * b1 + v * b2)) / 2)); [field; lra|].
      rewrite Q. field; lra.
  - tuple3 w L. frame3 F. cbn in M.
    unfold flux_of_primitive, NormalToGlobal, GlobalToNormal, set_momentum, PrimitiveToFlux,
      PrimitiveToConservative, GetDynamicPressure, scaleL, momentum. cbn.
    replace ((u * m * a1 + (v * m * a2 + (z * m * a3 + 0))) / m) with (u * a1 + v * a2 + z * a3) by (field; auto).
    set (n := u * a1 + v * a2 + z * a3). set (s := u * b1 + v * b2 + z * b3). set (t := u * c1 + v * c2 + z * c3).
    assert (u = n * a1 + s * b1 + t * c1) as U by (unfold n, s, t; nsatz).
    assert (v = n * a2 + s * b2 + t * c2) as V by (unfold n, s, t; nsatz).
    assert (z = n * a3 + s * b3 + t * c3) as Z by (unfold n, s, t; nsatz).
    assert (n * n + s * s + t * t = u * u + v * v + z * z) as Q by (unfold n, s, t; nsatz).
    replace (u * a1 + (v * a2 + (z * a3 + 0))) with n by (unfold n; ring).
    replace (u * b1 + (v * b2 + (z * b3 + 0))) with s by (unfold s; ring).
    replace (u * c1 + (v * c2 + (z * c3 + 0))) with t by (unfold t; ring).
    split; [ring|]. split; [f_equal; [|f_equal; [|f_equal]]|].
    + transitivity (m * n * (n * a1 + s * b1 + t * c1) + p * a1); [ring|]. rewrite <- U. ring.
    + transitivity (m * n * (n * a2 + s * b2 + t * c2) + p * a2); [ring|]. rewrite <- V. ring.
    + transitivity (m * n * (n * a3 + s * b3 + t * c3) + p * a3); [ring|]. rewrite <- Z. ring.
    + transitivity (n * (p / (gamma - 1) + p + m * (n * n + s * s + t * t) / 2)); [field; lra|].
      rewrite Q. field; lra.
Qed.

Lemma C2P_mT gamma U : length (mT (ConservativeToPrimitive gamma U)) = length (mT U).
Proof.
  assert (forall w, length (mT (SetZeroIfNegative w)) = length (mT w)) as S.
  { intros w. unfold SetZeroIfNegative.
    destruct (Rlt_dec (mass w) 0); destruct (Rlt_dec _ 0); cbn; rewrite ?map_length; reflexivity. }
  unfold ConservativeToPrimitive. destruct (Req_EM_T _ 0).
  - apply S.
  - rewrite S. cbn. rewrite map_length. apply S.
Qed.


Lemma physicalU_internal gamma U : 1 < gamma -> physicalU gamma U ->
  0 <= energy U - dotL (momentum U) (momentum U) / (2 * mass U).
Proof.
  intros G [M P]. unfold pressure in P. destruct (Rle_dec 0 (energy U - dotL (momentum U) (momentum U) / (2 * mass U))); [auto|nra].
Qed.

Lemma physicalU_C2P gamma U : 1 < gamma -> physicalU gamma U ->
  physical (ConservativeToPrimitive gamma U) /\
  PrimitiveToConservative gamma (ConservativeToPrimitive gamma U) = U.
Proof.
  intros G H. pose proof (physicalU_internal _ _ G H) as I. destruct H as [M P]. split.
  - rewrite C2P_physical by auto. split; auto.
  - apply C2P_then_P2C; auto.
Qed.

(** all flux functions that take the state itself give the physical flux *)
Lemma flux_of_C2P D gamma f U : dims D -> orthonormal D f -> length (momentum U) = D -> 1 < gamma ->
  physicalU gamma U ->
  normal_flux gamma U (normal f) (flux_of_primitive gamma f (ConservativeToPrimitive gamma U)).
Proof.
  intros HD F L G H. destruct (physicalU_C2P _ _ G H) as [P E].
  rewrite <- E at 1. eapply rotated_flux; eauto.
  - cbn in *. rewrite C2P_mT. exact L.
  - lra.
  - destruct P. lra.
Qed.

Lemma rotated_upwind D gamma f solver U : dims D -> orthonormal D f -> length (momentum U) = D -> 1 < gamma ->
  physicalU gamma U ->
  (forall w, physical w -> solver w w = PrimitiveToFlux gamma w) ->
  normal_flux gamma U (normal f) (Rotated_GetFluxUpwind gamma solver f U U).
Proof.
  intros HD F L G H S. unfold Rotated_GetFluxUpwind. cbv zeta. rewrite S.
  - eapply flux_of_C2P; eauto.
  - destruct (physicalU_C2P _ _ G H) as [P _]. destruct P. split; auto.
Qed.


Lemma matrix_flux gamma U n : length (momentum U) = 3%nat -> length n = 3%nat -> 1 < gamma -> physicalU gamma U ->
  normal_flux gamma U n (times_normal (GetFluxMatrix gamma U) n).
Proof.
  intros L N G H. pose proof (physicalU_internal _ _ G H) as I. destruct H as [M P].
  unfold GetFluxMatrix. rewrite C2P_physical by auto. 
  set (q := pressure gamma U). unfold normal_flux. fold q. clearbody q. clear I P.
  tuple3 U L. destruct n as [|n1 [|n2 [|n3 [|]]]]; try discriminate N. cbn in *.
  unfold momentum. cbn. split; [field; lra|]. split; [|field; lra].
  f_equal; [field; lra|]. f_equal; [field; lra|]. f_equal; field; lra.
Qed.

Lemma matrix_times_normal gamma f solver U : orthonormal 3 f -> length (momentum U) = 3%nat -> 1 < gamma ->
  physicalU gamma U ->
  (forall w, physical w -> solver w w = PrimitiveToFlux gamma w) ->
  Rotated_GetFluxUpwind gamma solver f U U = times_normal (GetFluxMatrix gamma U) (normal f).
Proof.
  intros F L G H S. eapply normal_flux_unique.
  - eapply rotated_upwind; eauto. right; reflexivity.
  - apply matrix_flux; auto. destruct F as [L' [V _]]. destruct f; [discriminate L'|]. apply V. cbn; auto.
Qed.

(** ** Walls *)

Lemma wall_flux D gamma f U : dims D -> orthonormal D f -> length (momentum U) = D ->
  GetFluxOnSolidWall gamma f U =
  let n := normal f in let p := energy (ConservativeToPrimitive gamma U) in
  mkTuple 0 (p * hd 0 n) (map (fun x => p * x) (tl n)) 0.
Proof.
  intros [->| ->] F L.
  - tuple2 U L. frame2 F. unfold GetFluxOnSolidWall, NormalToGlobal, set_momentum. cbn -[ConservativeToPrimitive].
    f_equal; [ring|f_equal; ring].
  - tuple3 U L. frame3 F. unfold GetFluxOnSolidWall, NormalToGlobal, set_momentum. cbn -[ConservativeToPrimitive].
    f_equal; [ring|f_equal; [ring|f_equal; ring]].
Qed.

Lemma wall_is_physical D gamma f U V : dims D -> orthonormal D f -> length (momentum U) = D -> length (momentum V) = D ->
  1 < gamma -> physicalU gamma U -> mass V <> 0 -> pressure gamma V = pressure gamma U ->
  dotL (momentum V) (normal f) = 0 ->
  normal_flux gamma V (normal f) (GetFluxOnSolidWall gamma f U).
Proof.
  intros HD F L LV G H M P Z.
  assert (energy (ConservativeToPrimitive gamma U) = pressure gamma U) as E.
  { rewrite C2P_physical; auto. destruct H; auto. apply (physicalU_internal gamma); auto. }
  rewrite (wall_flux D) by auto. cbv zeta. rewrite E. unfold normal_flux. rewrite Z, P. cbn [mass energy].
  replace (0 / mass V) with 0 by (field; auto). split; [ring|]. split; [|ring].
  clear E H P Z. generalize (pressure gamma U). intros q.
  destruct HD as [->| ->].
  - tuple2 V LV. frame2 F. unfold momentum, scaleL. cbn. f_equal; [ring|]. f_equal. ring.
  - tuple3 V LV. frame3 F. unfold momentum, scaleL. cbn. f_equal; [ring|]. f_equal; [ring|]. f_equal. ring.
Qed.

(** ** Boundaries *)

Lemma addL_scale0 a n : length a = length n -> addL a (map (fun x => 0 * x) n) = a.
Proof.
  revert n. induction a; intros [|y n] H; cbn in *; try discriminate; [reflexivity|].
  f_equal; [ring|]. apply IHa. lia.
Qed.

Lemma outlet_same gamma n w : length (momentum w) = length n -> SubsonicOutlet_state gamma n w w = w.
Proof.
  intros L. unfold SubsonicOutlet_state. rewrite Rminus_eq_0. unfold Rdiv. rewrite !Rmult_0_l.
  rewrite (addL_scale0 _ _ L). destruct w; cbn. f_equal. ring.
Qed.

Lemma inlet_same gamma n w : length (momentum w) = length n -> SubsonicInlet_state gamma n w w = w.
Proof.
  intros L. unfold SubsonicInlet_state. rewrite Rminus_eq_0.
  replace ((energy w + energy w + _ * 0) * (1 / 2)) with (energy w) by field.
  rewrite Rminus_eq_0. unfold Rdiv. rewrite !Rmult_0_l.
  rewrite (addL_scale0 _ _ L). destruct w; cbn. f_equal. ring.
Qed.

Lemma normal_length D f : dims D -> orthonormal D f -> length (normal f) = D.
Proof. intros [->| ->] [L [V _]]; (destruct f; [discriminate L|]); apply V; cbn; auto. Qed.

Theorem boundaries_consistent D gamma f U : dims D -> orthonormal D f -> length (momentum U) = D -> 1 < gamma ->
  physicalU gamma U ->
  normal_flux gamma U (normal f) (GetFluxOnSupersonicInlet gamma f U) /\
  normal_flux gamma U (normal f) (GetFluxOnSupersonicOutlet gamma f U) /\
  normal_flux gamma U (normal f) (GetFluxOnSubsonicInlet gamma f U U) /\
  normal_flux gamma U (normal f) (GetFluxOnSubsonicOutlet gamma f U U) /\
  normal_flux gamma U (normal f) (GetFluxOnSmartBoundary gamma f U U).
Proof.
  intros HD F L G H. pose proof (flux_of_C2P D gamma f U HD F L G H) as E.
  assert (length (momentum (ConservativeToPrimitive gamma U)) = length (normal f)) as N.
  { rewrite (normal_length D) by auto. cbn. rewrite C2P_mT. exact L. }
  assert (normal_flux gamma U (normal f) (GetFluxOnSubsonicInlet gamma f U U)) as A
    by (unfold GetFluxOnSubsonicInlet; rewrite inlet_same; auto).
  assert (normal_flux gamma U (normal f) (GetFluxOnSubsonicOutlet gamma f U U)) as B
    by (unfold GetFluxOnSubsonicOutlet; rewrite outlet_same; auto).
  repeat (split; [assumption|]). unfold GetFluxOnSmartBoundary.
  destruct (Rlt_dec _ 0); [destruct (Rlt_dec _ 0)|destruct (Rgt_dec _ 0)]; assumption.
Qed.

(** *** Characteristic relations *)

Lemma dotL_add a b n : length a = length b -> dotL (addL a b) n = dotL a n + dotL b n.
Proof.
  revert b n. induction a; intros [|y b] [|z n] H; cbn in *; try discriminate; try ring.
  rewrite IHa by lia. ring.
Qed.
Lemma dotL_scale c a n : dotL (map (fun x => c * x) a) n = c * dotL a n.
Proof. revert n. induction a; intros [|z n]; cbn; try ring. rewrite IHa. ring. Qed.

Lemma hd_tl_addL a b : a <> [] -> length a = length b -> hd 0 (addL a b) :: tl (addL a b) = addL a b.
Proof. destruct a, b; cbn; intros; try congruence. Qed.

Lemma outlet_relations gamma n wi wo : 1 < gamma -> physical wi ->
  length (momentum wi) = length n -> dotL n n = 1 -> dotL (momentum wi) n > 0 ->
  let b := SubsonicOutlet_state gamma n wi wo in
  let a := GetSpeedOfSound gamma wi in
  energy b = energy wo /\
  energy b - a * a * mass b = energy wi - a * a * mass wi /\
  energy b + mass wi * a * dotL (momentum b) n = energy wi + mass wi * a * dotL (momentum wi) n /\
  exists c, momentum b = addL (momentum wi) (map (fun x => c * x) n).
Proof.
  intros G H L N S b a. pose proof (sound_pos gamma wi ltac:(lra) H) as A. fold a in A.
  destruct H as [M P].
  assert (exists c, c = (energy wi - energy wo) / (mass wi * a) /\
    momentum b = addL (momentum wi) (map (fun x => c * x) n)) as [c [Ec B]].
  { exists ((energy wi - energy wo) / (mass wi * a)). split; [reflexivity|]. subst b. unfold SubsonicOutlet_state.
    fold a. destruct (Rgt_dec (dotL (momentum wi) n) 0); [|lra].
    unfold momentum at 1. cbn -[momentum dotL addL]. apply hd_tl_addL; [discriminate|].
    rewrite map_length. exact L. }
  split; [reflexivity|]. split; [|split].
  - unfold b, SubsonicOutlet_state. fold a. cbn -[dotL addL momentum]. field. lra.
  - rewrite B, dotL_add by (rewrite map_length; auto). rewrite dotL_scale, N, Ec.
    change (energy b) with (energy wo). field. lra.
  - exists c. exact B.
Qed.

Lemma inlet_relations gamma n wi wo : 1 < gamma -> physical wi ->
  length (momentum wo) = length n -> dotL n n = 1 -> dotL (momentum wo) n <= 0 ->
  let b := SubsonicInlet_state gamma n wi wo in
  let a := GetSpeedOfSound gamma wi in
  energy b - a * a * mass b = energy wo - a * a * mass wo /\
  energy b - mass wi * a * dotL (momentum b) n = energy wo - mass wi * a * dotL (momentum wo) n /\
  energy b + mass wi * a * dotL (momentum b) n = energy wi + mass wi * a * dotL (momentum wi) n /\
  exists c, momentum b = addL (momentum wo) (map (fun x => c * x) n).
Proof.
  intros G H L N S b a. pose proof (sound_pos gamma wi ltac:(lra) H) as A. fold a in A.
  destruct H as [M P].
  set (uo := dotL (momentum wo) n) in *. set (ui := dotL (momentum wi) n).
  assert (energy b = (energy wi + energy wo + mass wi * - a * (uo - ui)) * (1 / 2)) as Eb.
  { unfold b, SubsonicInlet_state. fold a uo ui. destruct (Rgt_dec uo 0); [lra|]. reflexivity. }
  assert (exists c, c = (energy wo - energy b) / (mass wi * - a) /\
    momentum b = addL (momentum wo) (map (fun x => c * x) n)) as [c [Ec B]].
  { exists ((energy wo - energy b) / (mass wi * - a)). split; [reflexivity|]. rewrite Eb.
    subst b. unfold SubsonicInlet_state. fold a uo ui.
    destruct (Rgt_dec uo 0); [lra|].
    unfold momentum at 1. cbn -[momentum dotL addL]. apply hd_tl_addL; [discriminate|].
    rewrite map_length. exact L. }
  assert (dotL (momentum b) n = uo + c) as D.
  { rewrite B, dotL_add by (rewrite map_length; auto). rewrite dotL_scale, N. fold uo. ring. }
  assert (mass b = mass wo - (energy wo - energy b) / (a * a)) as Mb.
  { rewrite Eb. unfold b, SubsonicInlet_state. fold a uo ui. destruct (Rgt_dec uo 0); [lra|]. reflexivity. }
  split; [|split; [|split]].
  - rewrite Mb. field. lra.
  - rewrite D, Ec. field. lra.
  - rewrite D, Ec, Eb. field. lra.
  - exists c. exact B.
Qed.
