(** C104: the flux through a face is the same from either side. *)
From Coq Require Import Reals List Lra Lia.
From Verif Require Import Model_Euler Spec_Euler Proof_Euler Proof_Rotated Model_Simple Spec_Simple Proof_Simple Spec_Mirror Proof_Mirror Sample_Mirror.
Import ListNotations.
Open Scope R_scope.

(** Scalar equations, for the rotated solvers with opposite normals. *)
Theorem C104_scalar : forall c nu l r,
  Single_GetFluxUpwind (normal_coefficient c (opp3 nu)) r l = - Single_GetFluxUpwind (normal_coefficient c nu) l r /\
  Burgers_GetFluxUpwind (normal_coefficient c (opp3 nu)) r l = - Burgers_GetFluxUpwind (normal_coefficient c nu) l r.
Proof. intros. rewrite opp_normal. split; [apply Single_opposite|apply Burgers_opposite]. Qed.
Print Assumptions C104_scalar.

(** Two linear equations with different eigenvalues. *)
Theorem C104_double : forall c nu l0 l1, eigenvalues2 (normal_mat2 c nu) l0 l1 -> forall l r,
  Double_GetFluxUpwind (normal_mat2 c (opp3 nu)) r l = oppC (Double_GetFluxUpwind (normal_mat2 c nu) l r).
Proof. intros c nu l0 l1 E l r. rewrite opp_normal2. exact (Double_opposite _ l0 l1 l r E). Qed.
Print Assumptions C104_double.

(** Any number of linear equations, whatever decompositions the two calls of [Decompose] return; the flux does not
    depend on the decomposition. *)
Theorem C104_multiple : forall K c nu d V W l r i, (i < K)%nat -> eigen_contract K (normal_mat c nu) d V W ->
  (forall d' V' W', eigen_contract K (normal_mat c (opp3 nu)) d' V' W' ->
     Multiple_GetFluxUpwind K d' V' W' r l i = - Multiple_GetFluxUpwind K d V W l r i) /\
  (forall d' V' W', eigen_contract K (normal_mat c nu) d' V' W' ->
     Multiple_GetFluxUpwind K d' V' W' l r i = Multiple_GetFluxUpwind K d V W l r i).
Proof.
  intros K c nu d V W l r i Hi HA. split; intros d' V' W' HB.
  - apply (Multiple_opposite K (normal_mat c nu) d d' V W V' W' l r i Hi HA).
    destruct HB as (AV & H). split; [|exact H]. intros a k La Lk. rewrite <- AV by assumption.
    apply sum_ext. intros. rewrite opp_normalK. reflexivity.
  - exact (Multiple_same K (normal_mat c nu) d d' V W V' W' l r i Hi HA HB).
Qed.
Print Assumptions C104_multiple.

(** The Euler equations with AUSM in two and three dimensions: frames with opposite normals give opposite fluxes for
    exchanged states; the tangents of the frames do not matter. *)
Theorem C104_ausm : forall D gamma f g Ul Ur, dims D -> 1 < gamma -> orthonormal D f -> orthonormal D g ->
  length (momentum Ul) = D -> length (momentum Ur) = D -> physicalU gamma Ul -> physicalU gamma Ur ->
  (normal g = map Ropp (normal f) ->
     Rotated_GetFluxUpwind gamma (Ausm_GetFluxUpwind gamma) g Ur Ul
     = negT (Rotated_GetFluxUpwind gamma (Ausm_GetFluxUpwind gamma) f Ul Ur)) /\
  (normal g = normal f ->
     Rotated_GetFluxUpwind gamma (Ausm_GetFluxUpwind gamma) g Ul Ur
     = Rotated_GetFluxUpwind gamma (Ausm_GetFluxUpwind gamma) f Ul Ur).
Proof.
  intros D gamma f g Ul Ur HD G F F' Ll Lr Pl Pr.
  assert (I : isotropic (D - 1) (Ausm_GetFluxUpwind gamma)) by (intros T l r HT; apply ausm_turn; exact HT).
  split; intros E.
  - apply (rotated_opposite gamma _ D HD I); try assumption. apply ausm_mirror; [exact G| |];
      apply physicalU_C2P in Pl; apply physicalU_C2P in Pr; try exact G; [exact (proj1 Pl)|exact (proj1 Pr)].
  - apply (rotated_same gamma _ D HD I); assumption.
Qed.
Print Assumptions C104_ausm.

(** The same for HLLC, if the states do not run into each other faster than with the sum of their sound speeds. *)
Theorem C104_hllc_partial : forall D gamma f g Ul Ur, dims D -> 1 < gamma -> orthonormal D f -> orthonormal D g ->
  length (momentum Ul) = D -> length (momentum Ur) = D -> physicalU gamma Ul -> physicalU gamma Ur ->
  let wl := ConservativeToPrimitive gamma Ul in let wr := ConservativeToPrimitive gamma Ur in
  (normal g = map Ropp (normal f) ->
     dotL (momentum wl) (normal f) - dotL (momentum wr) (normal f) < GetSpeedOfSound gamma wl + GetSpeedOfSound gamma wr ->
     Rotated_GetFluxUpwind gamma (Hllc_GetFluxUpwind gamma) g Ur Ul
     = negT (Rotated_GetFluxUpwind gamma (Hllc_GetFluxUpwind gamma) f Ul Ur)) /\
  (normal g = normal f ->
     Rotated_GetFluxUpwind gamma (Hllc_GetFluxUpwind gamma) g Ul Ur
     = Rotated_GetFluxUpwind gamma (Hllc_GetFluxUpwind gamma) f Ul Ur).
Proof.
  intros D gamma f g Ul Ur HD G F F' Ll Lr Pl Pr wl wr.
  assert (I : isotropic (D - 1) (Hllc_GetFluxUpwind gamma)) by (intros T l r HT; apply hllc_turn; exact HT).
  apply physicalU_C2P in Pl; [|exact G]. apply physicalU_C2P in Pr; [|exact G].
  assert (Hl : length (momentum wl) = D) by (apply (tangents D HD); unfold wl; rewrite C2P_mT; apply (tangents D HD); exact Ll).
  assert (Hr : length (momentum wr) = D) by (apply (tangents D HD); unfold wr; rewrite C2P_mT; apply (tangents D HD); exact Lr).
  split; intros E.
  - intros S. apply (rotated_opposite gamma _ D HD I); try assumption. fold wl wr. apply hllc_mirror.
    + exact G.
    + exact (proj1 Pl).
    + exact (proj1 Pr).
    + rewrite (proj1 (tangents D HD (GlobalToNormal f wl))) by (apply frame_length; assumption).
      rewrite (proj1 (tangents D HD (GlobalToNormal f wr))) by (apply frame_length; assumption). reflexivity.
    + apply not_inverted; [exact G|exact (proj1 Pl)|exact (proj1 Pr)|].
      replace (mX (GlobalToNormal f wl)) with (dotL (momentum wl) (normal f)).
      replace (mX (GlobalToNormal f wr)) with (dotL (momentum wr) (normal f)). exact S.
      * destruct F as (L & _). destruct f; [destruct HD; subst; discriminate L|reflexivity].
      * destruct F as (L & _). destruct f; [destruct HD; subst; discriminate L|reflexivity].
  - apply (rotated_same gamma _ D HD I); assumption.
Qed.
Print Assumptions C104_hllc_partial.

(** HLLC in general: for two streams of air that meet at Mach 2 each side computes the flux of its own state, so
    that both cells of a face between two processes lose the mass that should flow from one to the other. *)
Theorem C104_hllc_refuted : exists gamma f g Ul Ur, 1 < gamma /\ orthonormal 3 f /\ orthonormal 3 g /\
  normal g = map Ropp (normal f) /\ length (momentum Ul) = 3%nat /\ length (momentum Ur) = 3%nat /\
  physicalU gamma Ul /\ physicalU gamma Ur /\
  mass (Rotated_GetFluxUpwind gamma (Hllc_GetFluxUpwind gamma) f Ul Ur) = 2 /\
  mass (Rotated_GetFluxUpwind gamma (Hllc_GetFluxUpwind gamma) g Ur Ul) = 2.
Proof.
  exists air, frame_x, frame_mx, stream_l, stream_r.
  split; [unfold air; lra|]. split; [exact frame_x_ok|]. split; [exact frame_mx_ok|].
  split; [cbn; rewrite Ropp_0; reflexivity|]. split; [reflexivity|]. split; [reflexivity|].
  split; [exact stream_l_physical|]. split; [exact stream_r_physical|]. exact stream_fluxes.
Qed.
Print Assumptions C104_hllc_refuted.

(** a slower collision, and a linear system with two decompositions *)
Example C104_nonvacuous :
  mass (Rotated_GetFluxUpwind air (Hllc_GetFluxUpwind air) frame_x slow_l slow_r) = 3 / 2 /\
  mass (Rotated_GetFluxUpwind air (Hllc_GetFluxUpwind air) frame_mx slow_r slow_l) = - (3 / 2) /\
  physicalU air slow_l /\ physicalU air slow_r.
Proof. exact slow_fluxes. Qed.

(** two waves of opposite speeds, and two streams of Burgers' equation that meet *)
Example C104_linear_nonvacuous :
  eigenvalues2 (normal_mat2 (mat2 0 1 1 0, mat2 0 0 0 0, mat2 0 0 0 0) (1, 0, 0)) (-1) 1 /\
  Burgers_GetFluxUpwind (normal_coefficient (1, 0, 0) (1, 0, 0)) 3 (-1) = 9 / 2 /\
  Burgers_GetFluxUpwind (normal_coefficient (1, 0, 0) (opp3 (1, 0, 0))) (-1) 3 = - (9 / 2).
Proof.
  assert (B : Burgers_GetFluxUpwind (normal_coefficient (1, 0, 0) (1, 0, 0)) 3 (-1) = 9 / 2).
  { unfold Burgers_GetFluxUpwind, Burgers_GetFlux. cbn [normal_coefficient].
    replace (1 * 1 + 0 * 0 + 0 * 0) with 1 by ring. destruct (Req_EM_T 1 0); [lra|].
    destruct (Rge_dec (1 * 3) (1 * -1)); [|lra]. destruct (Rle_dec 0 ((1 * 3 + 1 * -1) / 2)); [field|lra]. }
  split; [|split; [exact B|]].
  - unfold eigenvalues2. cbn. lra.
  - rewrite (proj2 (C104_scalar (1, 0, 0) (1, 0, 0) 3 (-1))), B. reflexivity.
Qed.
