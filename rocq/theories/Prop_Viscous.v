(** C92 and C93: the schemes with viscous fluxes. *)
From Coq Require Import Reals List Arith Lia Lra Bool String.
From Verif Require Import Vec3 Arrays RSum Poly Model_Gauss Model_Geometry Model_Basis Model_Nodal Model_Dofs Model_DG Model_Schemes Model_Viscous Spec_DG
  Spec_Schemes Spec_Nodal Spec_FR Spec_Viscous Proof_DGLobatto Proof_FR Proof_FRLine Proof_FRMain Proof_FRCell Proof_FRStream Proof_Box
  Proof_Viscous Proof_ViscousMain Sample_Viscous.
Import ListNotations.
Open Scope R_scope.

Local Notation Points q := (fun i => nth i (Lobatto_points q) 0).
Local Notation Weights q := (fun i => nth i (Lobatto_weights q) 0).

(** ** C92: convection and diffusion in FR::General and FR::Lobatto *)
(** No assertion fails, and the residual is that of flux reconstruction with the total fluxes. *)
Theorem C92_total_fluxes : forall K Q points place D degree c_next FluxMatrix nu beta_0 beta_1 HolderToSharer,
  geometric place -> (2 <= Q)%nat -> points 0%nat = -1 -> points (Q - 1)%nat = 1 -> forall p s, npart_ok (Q * Q * Q) p ->
  geometry_ok Q points place D p -> outlet_ok Q place FluxMatrix s p -> normals_forward HolderToSharer p ->
  exists r, VFR_GetResidualColumn K Q points degree c_next FluxMatrix nu beta_0 beta_1 HolderToSharer s p = Some r
    /\ size r = (K * (Q * Q * Q) * List.length (n_local_cells p))%nat
    /\ forall c j k, In c (n_local_cells p) -> (j < Q * Q * Q)%nat -> (k < K)%nat ->
         at_ r (address K (Q * Q * Q) (nc_id c) j k)
         = FR_form Q points place (total_matrix K FluxMatrix nu) (LocalToLeftDerivative degree c_next) (LocalToRightDerivative degree c_next) s
             (total_part K nu beta_0 beta_1 HolderToSharer (place_node Q place) p) c j k.
Proof. exact VFR_main. Qed.
Print Assumptions C92_total_fluxes.

Theorem C92_lobatto : forall K Q points place D degree FluxMatrix nu beta_0 beta_1 HolderToSharer,
  geometric place -> (2 <= Q)%nat -> points 0%nat = -1 -> points (Q - 1)%nat = 1 -> forall p s, npart_ok (Q * Q * Q) p ->
  geometry_ok Q points place D p -> outlet_ok Q place FluxMatrix s p -> normals_forward HolderToSharer p ->
  exists r, VFRL_GetResidualColumn K Q points degree FluxMatrix nu beta_0 beta_1 HolderToSharer s p = Some r
    /\ size r = (K * (Q * Q * Q) * List.length (n_local_cells p))%nat
    /\ forall c j k, In c (n_local_cells p) -> (j < Q * Q * Q)%nat -> (k < K)%nat ->
         at_ r (address K (Q * Q * Q) (nc_id c) j k)
         = FRL_form Q place (total_matrix K FluxMatrix nu) (LocalToRightDerivative degree (HuynhLumpingLobatto degree)) s
             (total_part K nu beta_0 beta_1 HolderToSharer (place_node Q place) p) c j k.
Proof. exact VFRL_main. Qed.
Print Assumptions C92_lobatto.

(** What is lost is what leaves through the boundary and the interfaces, by convection and by diffusion. *)
Theorem C92_conservation : forall K Q D place FluxMatrix nu beta_0 beta_1 HolderToSharer p s c_next, (2 <= Q <= 6)%nat ->
  geometric place -> lagrange_derivatives (Lobatto_points Q) D ->
  npart_ok (Q * Q * Q) p -> geometry_ok Q (Points Q) place D p -> outlet_ok Q place FluxMatrix s p -> normals_forward HolderToSharer p ->
  covered Q place s p -> face_weights Q place (Weights Q) p -> cell_weights Q (Weights Q) p ->
  exists r, VFR_GetResidualColumn K Q (Points Q) (Q - 1) c_next FluxMatrix nu beta_0 beta_1 HolderToSharer s p = Some r
    /\ forall k, (k < K)%nat ->
         lsum (n_local_cells p) (n_integral (Q * Q * Q) true K r k)
         = - lsum (boundary_contacts (place_node Q place) s (total_part K nu beta_0 beta_1 HolderToSharer (place_node Q place) p)) (through k)
           - lsum (ghost_contacts (place_node Q place) (total_part K nu beta_0 beta_1 HolderToSharer (place_node Q place) p)) (through k).
Proof.
  intros K Q D place F nu b0 b1 H2S p s c H Gm LD P G O Fw C FW CW. pose proof (Lobatto_ends Q H) as E. destruct (Lobatto_length Q H) as [LQ _].
  assert (I : integrates (Lobatto_points Q) (Lobatto_weights Q) (Q + 1)).
  { intros q Lq. apply (Lobatto_integrates Q H). lia. }
  pose proof (V_conservation K (Lobatto_points Q) (Lobatto_weights Q) place D F nu b0 b1 H2S Gm E p s) as M. rewrite LQ in M.
  exact (M P G Fw c LD O I C FW CW).
Qed.
Print Assumptions C92_conservation.

Lemma two_box_D : lagrange_derivatives (Lobatto_points 2) (box_D 2).
Proof. exact (line_D_ok (Lobatto_points 2) (Lobatto_weights 2) (box_matrix 2) (rule_ends 2 two_points) (box_inverse 2 two_points)). Qed.
(** Heat flows through two cubes with the slopes 1 and 3, through sides of area 4: 4 goes out, 12 comes in. *)
Example C92_two_cells : forall c_next, exists r,
  VFR_GetResidualColumn 1 2 (Points 2) 1 c_next no_flux (V 1 1 1) 1 1 to_sharer (inflow 2) (two_slopes 1 0 3 4) = Some r
  /\ lsum (n_local_cells (two_slopes 1 0 3 4)) (n_integral 8 true 1 r 0) = 8.
Proof.
  intros c. destruct (C92_conservation 1 2 (box_D 2) two_place no_flux (V 1 1 1) 1 1 to_sharer (two_slopes 1 0 3 4) (inflow 2) c) as (r & E & S).
  - lia.
  - exact two_linear_geometric.
  - exact two_box_D.
  - apply slopes_ok.
  - apply slopes_geometry.
  - intros name f q k _ I L. replace (dot _ _) with 0 by (unfold dot, no_flux; cbn; ring). apply in_map_iff in I. destruct I as (g & <- & _). reflexivity.
  - apply slopes_forward.
  - apply slopes_covered.
  - apply slopes_face_weights.
  - apply slopes_cell_weights.
  - exists r. split; [exact E|]. change 8%nat with (2 * 2 * 2)%nat. rewrite S by lia. rewrite slopes_outward.
    change (lsum (ghost_contacts _ _) (through 0)) with 0. ring.
Qed.

(** ** C93: linear solutions *)
(** They are steady with FR::General, if the convective flux is uniform (as it is if there is none). *)
Theorem C93_linear_steady : forall K Q place D FluxMatrix nu beta_0 beta_1 HolderToSharer p s F g c_next, (2 <= Q <= 6)%nat ->
  geometric place -> npart_ok (Q * Q * Q) p -> geometry_ok Q (Points Q) place D p -> normals_forward HolderToSharer p ->
  uniform_flux Q place FluxMatrix s p F -> linear_solution K (Q * Q * Q) (place_node Q place) p g ->
  (forall c, In c (n_local_cells p) -> no_divergence Q c) ->
  exists r, VFR_GetResidualColumn K Q (Points Q) (Q - 1) c_next FluxMatrix nu beta_0 beta_1 HolderToSharer s p = Some r
    /\ forall c j k, In c (n_local_cells p) -> (j < Q * Q * Q)%nat -> (k < K)%nat ->
         at_ r (address K (Q * Q * Q) (nc_id c) j k) = 0.
Proof.
  intros K Q place D FM nu b0 b1 H2S p s F g c H Gm P G Fw U L ND. pose proof (Lobatto_ends Q H) as E. destruct (Lobatto_length Q H) as [LQ _].
  pose proof (linear_steady K (Lobatto_points Q) (Lobatto_weights Q) place D FM nu b0 b1 H2S Gm E p s) as M. rewrite LQ in M.
  exact (M P G Fw F g U L c ND).
Qed.
Print Assumptions C93_linear_steady.

(** Hexahedra on which the rule has more points per line than twice their degree are such cells. *)
Theorem C93_fine_cells : forall Q M c, (2 <= Q <= 6)%nat -> inverse_of (Lobatto_points Q) M ->
  fine_hexahedron (Lobatto_points Q) M c -> no_divergence Q c.
Proof.
  intros Q M c H MI FH. pose proof (fine_no_divergence (Lobatto_points Q) (Lobatto_weights Q) M c (Lobatto_ends Q H) MI FH) as T.
  destruct (Lobatto_length Q H) as [LQ _]. rewrite LQ in T. exact T.
Qed.
Print Assumptions C93_fine_cells.

Example C93_two_cells : exists r,
  VFR_GetResidualColumn 1 2 (Points 2) 1 0 no_flux (V 1 1 1) 1 1 to_sharer (inflow 2) two_linear = Some r
  /\ forall c j, In c (n_local_cells two_linear) -> (j < 8)%nat -> at_ r (address 1 8 (nc_id c) j 0) = 0.
Proof.
  destruct (C93_linear_steady 1 2 two_place (box_D 2) no_flux (V 1 1 1) 1 1 to_sharer two_linear (inflow 2) (fun _ => V 0 0 0) (fun _ => V 1 0 0) 0) as (r & E & S).
  - lia.
  - exact two_linear_geometric.
  - apply slopes_ok.
  - apply slopes_geometry.
  - apply slopes_forward.
  - exact two_linear_uniform.
  - exact two_linear_linear.
  - intros c [<-|[<-|[]]]; apply box_no_divergence.
  - exists r. split; [exact E|]. intros c j I J. apply S; [exact I|exact J|lia].
Qed.

(** With DG::Lobatto they are not, as the fluxes through the faces have no viscous part: the scalar x in two cubes with the
    coefficients 1, without convection; at the first node it grows. *)
Theorem C93_dg_lobatto_refuted : exists p s FluxMatrix place D g nu r c,
  geometric place /\ npart_ok 8 p /\ geometry_ok 2 (Points 2) place D p /\ nodes_match (place_node 2 place) 8 p
  /\ uniform_flux 2 place FluxMatrix s p (fun _ => V 0 0 0) /\ linear_solution 1 8 (place_node 2 place) p g
  /\ (forall c, In c (n_local_cells p) -> no_divergence 2 c)
  /\ VDGL_GetResidualColumn 1 2 true FluxMatrix nu s p = Some r
  /\ In c (n_local_cells p) /\ at_ r (address 1 8 (nc_id c) 0 0) = 1.
Proof.
  destruct linear_not_steady as (r & E & Hr).
  exists two_linear, (inflow 2), no_flux, two_place, (box_D 2), (fun _ => V 1 0 0), (V 1 1 1), r, linear_A.
  split; [exact two_linear_geometric|]. split; [apply slopes_ok|]. split; [apply slopes_geometry|]. split; [exact two_linear_match|].
  split; [exact two_linear_uniform|]. split; [exact two_linear_linear|].
  split; [intros c [<-|[<-|[]]]; apply box_no_divergence|]. split; [exact E|]. split; [left; reflexivity|exact Hr].
Qed.
Print Assumptions C93_dg_lobatto_refuted.
