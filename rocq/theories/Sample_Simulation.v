(** Two ranks with one cell each on a line, a scalar that is carried to the right with speed one, walls at both ends,
    linear polynomials, and a limiter that removes every slope. *)
From Coq Require Import Reals Lra Lia List Arith String Permutation.
From Verif Require Import Vec3 Arrays RSum Model_Dofs Model_DG Spec_DG Model_Temporal Model_Reconstruct Model_Simple
  Model_Simulation Spec_Simulation Proof_Simulation.
Import ListNotations.
Open Scope R_scope.

(** a cell from [left] to [left + 1]: the points at its ends, the basis 1, 2 (x - left) - 1 *)
Definition unit_cell (left : R) : gcell :=
  GCell 0 2 (fun q => V (left + INR q) 0 0) (fun _ => 1 / 2)
    (fun x j => match j with 0%nat => 1 | _ => 2 * (vx x - left) - 1 end)
    (fun x j => match j with 0%nat => v0 | _ => V 2 0 0 end).
Definition carry (a : R) : riemann :=
  Riemann (fun u w k => Single_GetFluxUpwind a (u k) (w k)) (fun _ _ => 0) (fun u k => Single_GetFlux a (u k))
    (fun u k => Single_GetFlux a (u k)) (fun u w => w) (fun u w => w) (fun u w => w).
Definition point_face (h : gcell) (rank : nat) (sh : gcell) (x a : R) : gface :=
  GFace h rank sh 1 (fun _ => V x 0 0) (fun _ => 1) (fun _ => carry a).
Definition cell_a := unit_cell 0.
Definition cell_b := unit_cell 1.
Definition face_ab := point_face cell_a 1 cell_b 1 1.
Definition face_ba := point_face cell_b 0 cell_a 1 (-1).
Definition wall_only (f : gface) (name : string) : list gface := if String.eqb name "wall" then [f] else [].
Definition line_parts : list gpart :=
  [GPart [cell_a] [] [face_ab] (wall_only (point_face cell_a 0 cell_a 0 (-1)));
   GPart [cell_b] [] [face_ba] (wall_only (point_face cell_b 1 cell_b 2 1))].
Definition line_fem : fem := SetSolidWall (Fem [] [] [] [] [] [] 0) "wall".
Definition carry_matrix (u : value) (k : nat) : vec := V (u k) 0 0.

Definition no_slope (m : memory coeff) (c : nat) : coeff := fun k j => match j with 0%nat => m c k 0%nat | _ => 0 end.
Definition line_limited := limited 1 2 1 [0; 1]%nat (fun c => c) (fun _ => 0%nat) (fun c => [1 - c]%nat) (fun _ _ => true) no_slope
  (fun _ _ _ _ => 0).
(** the mean 3 and the slope 1 in the first cell, 1 and 0 in the second *)
Definition line_state : Column (nat * nat) := fun '(r, a) =>
  match r, a with 0%nat, 0%nat => 3 | 0%nat, 1%nat => 1 | 1%nat, 0%nat => 1 | _, _ => 0 end.

Lemma unit_basis_ok left : gbasis_ok 2 (unit_cell left).
Proof.
  exists 1. split; [lra|]. split; [reflexivity|]. split; [reflexivity|].
  intros j Lj. destruct j as [|[|j]]; [| |lia]; cbn [rsum unit_cell g_points g_weight g_basis g_coord vx Nat.eqb INR]; field.
Qed.

Lemma line_mesh_ok : mesh_ok 2 line_parts.
Proof.
  intros r p E. destruct r as [|[|r]]; cbn in E; [| |destruct r; discriminate]; injection E as <-.
  - split; [|intros g [<-|[]]; apply unit_basis_ok].
    unfold gpart_ok. cbn [g_local_cells g_local_faces g_ghost_faces g_boundary_faces map List.length].
    split; [repeat constructor; intros []|]. split; [intros g [<-|[]]; cbn; lia|]. split; [intros f []|].
    split; [intros f [<-|[]]; left; reflexivity|].
    intros name f. unfold wall_only. destruct (String.eqb name "wall"); intros I; [destruct I as [<-|[]]; left; reflexivity|destruct I].
  - split; [|intros g [<-|[]]; apply unit_basis_ok].
    unfold gpart_ok. cbn [g_local_cells g_local_faces g_ghost_faces g_boundary_faces map List.length].
    split; [repeat constructor; intros []|]. split; [intros g [<-|[]]; cbn; lia|]. split; [intros f []|].
    split; [intros f [<-|[]]; left; reflexivity|].
    intros name f. unfold wall_only. destruct (String.eqb name "wall"); intros I; [destruct I as [<-|[]]; left; reflexivity|destruct I].
Qed.

Lemma line_paired : paired 0 line_parts.
Proof.
  exists [((0%nat, face_ab), (1%nat, face_ba))]. split; [apply Permutation_refl|].
  intros f g [E|[]]. injection E as <- <-. unfold opposite.
  split; [reflexivity|]. split; [reflexivity|]. split; [reflexivity|]. split; [reflexivity|]. split; [reflexivity|].
  exists (fun q => q). split; [apply Permutation_refl|]. intros q Lq. split; [reflexivity|]. split; [reflexivity|].
  intros a b. cbn [face_ab face_ba point_face g_riemann carry GetFluxUpwind]. unfold Single_GetFluxUpwind.
  destruct (Rlt_dec 0 (-1)); [lra|]. destruct (Rlt_dec 0 1); [ring|lra].
Qed.

Lemma line_keeps : keeps_contents 1 2 line_parts line_limited.
Proof. apply (limited_keeps 1 2 1 line_parts ltac:(lia) line_mesh_ok). reflexivity. Qed.

Lemma line_closed t U : outflow 1 2 carry_matrix line_fem line_parts t U 0 = 0.
Proof. unfold outflow, flux_through. cbn -[IZR Rmult]. ring. Qed.

(** one step of the forward Euler scheme of length 1/2 *)
Definition line_after := s_solution (L_RK_Update line_limited (the_residual 1 2 1 carry_matrix line_fem line_parts) 1
  (mkSystem 0 line_state) 0 (1 / 2)).

Lemma line_values : line_after (0%nat, 0%nat) = 1 /\ line_after (0%nat, 1%nat) = 0 /\ line_after (1%nat, 0%nat) = 3.
Proof.
  unfold line_after. cbn [L_RK_Update]. unfold L_RK1_Update, L_Euler_Update, NextSolution, L_SetSolutionColumn, SetSolutionColumn, SetTime,
    Model_Temporal.GetResidualColumn, cadd, cscale. cbn [s_solution s_time].
  assert (R0 : the_residual 1 2 1 carry_matrix line_fem line_parts 0 line_state (0%nat, 0%nat) = -4).
  { destruct (the_residual_some 1 2 1 carry_matrix line_fem line_parts line_mesh_ok 0 line_state 0 _ eq_refl) as (c & _ & _ & _ & W).
    pose proof (W cell_a 0%nat 0%nat (or_introl eq_refl) ltac:(lia) ltac:(lia)) as E.
    change (1 * 2 * g_id cell_a + (0 * 1 + 0))%nat with 0%nat in E. rewrite E. clear.
    unfold weak_form, face_term, volume_term, upwind_at, wall_at. cbn -[IZR Rmult Rplus Rminus Rinv Rdiv Single_GetFluxUpwind].
    unfold Single_GetFluxUpwind. destruct (Rlt_dec 0 1); [|lra]. unfold value_of, line_state, dot, vscale. cbn -[IZR Rmult Rplus Rminus Rinv Rdiv]. field. }
  assert (R1 : the_residual 1 2 1 carry_matrix line_fem line_parts 0 line_state (1%nat, 0%nat) = 4).
  { destruct (the_residual_some 1 2 1 carry_matrix line_fem line_parts line_mesh_ok 0 line_state 1 _ eq_refl) as (c & _ & _ & _ & W).
    pose proof (W cell_b 0%nat 0%nat (or_introl eq_refl) ltac:(lia) ltac:(lia)) as E.
    change (1 * 2 * g_id cell_b + (0 * 1 + 0))%nat with 0%nat in E. rewrite E. clear.
    unfold weak_form, face_term, volume_term, upwind_at, wall_at. cbn -[IZR Rmult Rplus Rminus Rinv Rdiv Single_GetFluxUpwind].
    unfold Single_GetFluxUpwind. destruct (Rlt_dec 0 (-1)); [lra|]. unfold value_of, line_state, dot, vscale. cbn -[IZR Rmult Rplus Rminus Rinv Rdiv]. field. }
  set (u := fun i => line_state i + 1 / 2 * the_residual 1 2 1 carry_matrix line_fem line_parts 0 line_state i).
  unfold line_limited.
  rewrite (limited_first 1 2 1 ltac:(lia) [0; 1]%nat (fun c => c) (fun _ => 0%nat) _ _ no_slope _ (fun _ _ _ _ _ => eq_refl) u 0 0 0 ltac:(lia)).
  rewrite (limited_first 1 2 1 ltac:(lia) [0; 1]%nat (fun c => c) (fun _ => 0%nat) _ _ no_slope _ (fun _ _ _ _ _ => eq_refl) u 1 0 0 ltac:(lia)).
  change (1 * 2 * 0 + 0)%nat with 0%nat. unfold u at 1 3. rewrite R0, R1. cbn [line_state]. split; [lra|]. split; [|lra].
  reflexivity.
Qed.
