(** A gas that moves with speed three in a box of two cells on two ranks: piecewise constant solution, AUSM, walls. *)
From Coq Require Import Reals Lra Lia String List Arith Permutation.
From Verif Require Import Vec3 Arrays RSum Model_Dofs Model_DG Spec_DG Model_Temporal Model_Simulation Spec_Simulation
  Proof_Simulation Model_Euler Spec_Euler Proof_Euler Proof_Rotated Spec_Mirror Sample_Mirror Model_Solvers Spec_Solvers.
Import ListNotations.
Open Scope R_scope.

Definition box_cell (x : R) : gcell := GCell 0 1 (fun _ => V x 0 0) (fun _ => 1) (fun _ _ => 1) (fun _ _ => v0).
Definition gas := euler_riemann (7 / 5) (Ausm_GetFluxUpwind (7 / 5)).
Definition box_face (h : gcell) (rank : nat) (sh : gcell) (x : R) (f : Frame) : gface :=
  GFace h rank sh 1 (fun _ => V x 0 0) (fun _ => 1) (fun _ => gas f).
Definition box_a := box_cell (1 / 2).
Definition box_b := box_cell (3 / 2).
Definition box_ab := box_face box_a 1 box_b 1 frame_x.
Definition box_ba := box_face box_b 0 box_a 1 frame_mx.
Definition at_wall (f : gface) (name : string) : list gface := if String.eqb name "wall" then [f] else [].
Definition box_parts : list gpart :=
  [GPart [box_a] [] [box_ab] (at_wall (box_face box_a 0 box_a 0 frame_mx));
   GPart [box_b] [] [box_ba] (at_wall (box_face box_b 1 box_b 2 frame_x))].
Definition box_fem : fem := SetSolidWall (Fem [] [] [] [] [] [] 0) "wall".
(** density 1, velocity 3, pressure 1 *)
Definition box_state : Column (nat * nat) := fun '(r, a) =>
  match a with 0%nat => 1 | 1%nat => 3 | 4%nat => 7 | _ => 0 end.
Definition any_matrix (u : value) (k : nat) : vec := v0.

Lemma box_basis x : gbasis_ok 1 (box_cell x).
Proof.
  exists 1. split; [lra|]. split; [reflexivity|]. split; [reflexivity|].
  intros j Lj. destruct j; [|lia]. cbn [rsum box_cell g_points g_weight g_basis g_coord Nat.eqb]. ring.
Qed.

Lemma box_mesh_ok : mesh_ok 1 box_parts.
Proof.
  intros r p E. destruct r as [|[|r]]; cbn in E; [| |destruct r; discriminate]; injection E as <-.
  - split; [|intros g [<-|[]]; apply box_basis].
    unfold gpart_ok. cbn [g_local_cells g_local_faces g_ghost_faces g_boundary_faces map List.length].
    split; [repeat constructor; intros []|]. split; [intros g [<-|[]]; cbn; lia|]. split; [intros f []|].
    split; [intros f [<-|[]]; left; reflexivity|].
    intros name f. unfold at_wall. destruct (String.eqb name "wall"); intros I; [destruct I as [<-|[]]; left; reflexivity|destruct I].
  - split; [|intros g [<-|[]]; apply box_basis].
    unfold gpart_ok. cbn [g_local_cells g_local_faces g_ghost_faces g_boundary_faces map List.length].
    split; [repeat constructor; intros []|]. split; [intros g [<-|[]]; cbn; lia|]. split; [intros f []|].
    split; [intros f [<-|[]]; left; reflexivity|].
    intros name f. unfold at_wall. destruct (String.eqb name "wall"); intros I; [destruct I as [<-|[]]; left; reflexivity|destruct I].
Qed.

Lemma box_matched : matched gas opposite_frames box_parts.
Proof.
  exists [((0%nat, box_ab), (1%nat, box_ba))]. split; [apply Permutation_refl|].
  intros f g [E|[]]. injection E as <- <-. unfold copies.
  split; [reflexivity|]. split; [reflexivity|]. split; [reflexivity|]. split; [reflexivity|]. split; [reflexivity|].
  exists (fun _ => frame_x), (fun _ => frame_mx), (fun q => q). split; [apply Permutation_refl|]. intros q Lq.
  split; [reflexivity|]. split; [reflexivity|]. split; [reflexivity|]. split; [reflexivity|].
  split; [exact frame_x_ok|]. split; [exact frame_mx_ok|]. cbn. rewrite Ropp_0. reflexivity.
Qed.

Lemma box_walls : walls_made gas (orthonormal 3) box_parts.
Proof.
  intros r p name f q E I L. destruct r as [|[|r]]; cbn in E; [| |destruct r; discriminate]; injection E as <-;
    cbn [g_boundary_faces] in I; unfold at_wall in I; destruct (String.eqb name "wall"); try destruct I as [<-|[]]; try destruct I.
  - exists frame_mx. split; [exact frame_mx_ok|reflexivity].
  - exists frame_x. split; [exact frame_x_ok|reflexivity].
Qed.

Definition moving : Tuple := mkTuple 1 3 [0; 0] 7.
Lemma box_value r x g : g = box_a \/ g = box_b -> toT (value_of 5 1 box_state r g x) = moving.
Proof. intros [-> | ->]; unfold toT, value_of, moving; cbn -[IZR Rmult Rplus]; f_equal; try ring; f_equal; try ring; f_equal; ring. Qed.
Lemma moving_physical : physicalU (7 / 5) moving.
Proof. unfold physicalU, moving, pressure. cbn -[IZR Rmult Rplus Rminus Rinv Rdiv]. split; lra. Qed.

Lemma box_physical : across 5 1 box_parts (both_physical (7 / 5)) box_state.
Proof.
  intros r p f q E I L. unfold both_physical.
  assert (H : (g_holder f = box_a \/ g_holder f = box_b) /\ (g_sharer f = box_a \/ g_sharer f = box_b)).
  { destruct r as [|[|r]]; cbn in E; [| |destruct r; discriminate]; injection E as <-; cbn [g_ghost_faces] in I; destruct I as [<-|[]];
      cbn [g_holder g_sharer box_ab box_ba box_face]; tauto. }
  destruct H as [Hh Hs]. rewrite !box_value by assumption. split; exact moving_physical.
Qed.

Definition box_res := the_residual 5 1 0 any_matrix box_fem box_parts.
Definition box_after := s_solution (L_RK_Update (fun u => u) box_res 1 (mkSystem 0 box_state) 0 (1 / 10)).

Lemma moving_flux f : orthonormal 3 f -> mass (Rotated_GetFluxUpwind (7 / 5) (Ausm_GetFluxUpwind (7 / 5)) f moving moving) = dotL (momentum moving) (normal f).
Proof.
  intros O. destruct (rotated_upwind 3 (7 / 5) f (Ausm_GetFluxUpwind (7 / 5)) moving (or_intror eq_refl) O eq_refl ltac:(lra) moving_physical) as (E & _).
  - intros w P. apply ausm_consistent; [lra|exact P].
  - rewrite E. unfold moving at 1 3. cbn [mass]. field.
Qed.

(** the mass 3/10 passes through the interface *)
Lemma box_values : box_after (0%nat, 0%nat) = 7 / 10.
Proof.
  unfold box_after. cbn [L_RK_Update]. unfold L_RK1_Update, L_Euler_Update, NextSolution, L_SetSolutionColumn, SetSolutionColumn, SetTime,
    Model_Temporal.GetResidualColumn, cadd, cscale. cbn [s_solution s_time].
  enough (E : box_res 0 box_state (0%nat, 0%nat) = -3) by (rewrite E; cbn [box_state]; lra).
  destruct (the_residual_some 5 1 0 any_matrix box_fem box_parts box_mesh_ok 0 box_state 0 _ eq_refl) as (c & _ & _ & _ & W).
  pose proof (W box_a 0%nat 0%nat (or_introl eq_refl) ltac:(lia) ltac:(lia)) as E.
  change (5 * 1 * g_id box_a + (0 * 5 + 0))%nat with 0%nat in E. unfold box_res. rewrite E. clear.
  unfold weak_form, face_term. change (0 <? 0)%nat with false. cbv iota.
  change (local_faces _) with (@nil face). cbn [lsum].
  unfold conditions, box_fem, SetSolidWall, at_time, SetTime.
  cbn [app map solid_wall supersonic_inlet supersonic_outlet subsonic_inlet subsonic_outlet smart_boundary lsum ghost_faces boundary_faces the_part
    g_boundary_faces g_ghost_faces at_wall String.eqb Ascii.eqb Bool.eqb box_ab box_face the_face holder sharer the_cell c_id
    g_holder g_sharer g_rank g_id box_a box_b box_cell f_points g_fpoints rsum f_weight g_fweight f_coord g_fcoord c_basis g_basis].
  unfold if_id. change (0 =? 0)%nat with true. cbv iota.
  unfold upwind_at, wall_at.
  cbn [the_face box_ab box_face f_riemann f_coord holder sharer g_riemann g_fcoord g_holder g_sharer the_cell c_value g_rank].
  cbn [gas euler_riemann GetFluxUpwind Model_DG.GetFluxOnSolidWall ofT].
  rewrite !box_value by tauto. rewrite (moving_flux _ frame_x_ok).
  rewrite (wall_flux 3) by (try exact frame_mx_ok; try reflexivity; right; reflexivity).
  cbn -[IZR Rmult Rplus Rminus Rinv Rdiv]. lra.
Qed.
