(** C80 to C84: the schemes with the degrees of freedom at the points of Gauss-Lobatto rules: DG::Lobatto, FR::General and
    FR::Lobatto. *)
From Coq Require Import Reals List Arith Lia Lra Bool String Permutation.
From Verif Require Import Vec3 Arrays RSum Poly Model_Gauss Model_Geometry Model_Basis Model_Nodal Model_Dofs Model_DG Model_Schemes Spec_DG
  Spec_Schemes Spec_Nodal Spec_FR Proof_DGLobatto Proof_FR Proof_FRLine Proof_FRMain Proof_FRCell Proof_FRStream Proof_Box.
Import ListNotations.
Open Scope R_scope.

Local Notation Points q := (fun i => nth i (Lobatto_points q) 0).
Local Notation Weights q := (fun i => nth i (Lobatto_weights q) 0).

(** ** C80: DG::Lobatto *)
(** No assertion fails, and the residual is the weak form tested with the functions of the nodes, with the mass matrix lumped. *)
Theorem C80_lumped_weak_form : forall K N kLocal cell_to_flux at_node p s,
  (0 < K)%nat -> npart_ok N p -> nodes_match at_node N p ->
  exists r, DGL_GetResidualColumn K N kLocal cell_to_flux s p = Some r
    /\ size r = (K * N * List.length (n_local_cells p))%nat
    /\ forall c j k, In c (n_local_cells p) -> (j < N)%nat -> (k < K)%nat ->
         at_ r (address K N (nc_id c) j k) = DGL_form at_node N kLocal cell_to_flux s p c j k.
Proof. exact DGL_main. Qed.
Print Assumptions C80_lumped_weak_form.

(** C80 and C81.  The fluxes of the six boundary conditions. *)
Theorem C80_fluxes : forall t given r u x,
  n_wall r u x = GetFluxOnSolidWall r u
  /\ n_sup_out r u x = GetFluxOnSupersonicOutlet r u
  /\ n_sup_in t given r u x = GetFluxOnSupersonicInlet r (given x t)
  /\ n_sub_in t given r u x = GetFluxOnSubsonicInlet r u (given x t)
  /\ n_sub_out t given r u x = GetFluxOnSubsonicOutlet r u (given x t)
  /\ n_smart t given r u x = GetFluxOnSmartBoundary r u (given x t).
Proof. intros. repeat split. Qed.
Print Assumptions C80_fluxes.

(** The integral of the residual by the rule is minus what leaves through the boundary and through the interfaces. *)
Theorem C80_conservation : forall K N kLocal cell_to_flux at_node p s,
  (0 < K)%nat -> npart_ok N p -> nodes_match at_node N p ->
  (forall c q, In c (n_local_cells p) -> (q < N)%nat -> GetWeight kLocal c q <> 0) ->
  (forall c q, In c (n_local_cells p) -> (q < N)%nat ->
    rsum N (fun j => vx (nc_gradients c q j)) = 0 /\ rsum N (fun j => vy (nc_gradients c q j)) = 0
    /\ rsum N (fun j => vz (nc_gradients c q j)) = 0) ->
  exists r, DGL_GetResidualColumn K N kLocal cell_to_flux s p = Some r
    /\ forall k, (k < K)%nat ->
         lsum (n_local_cells p) (n_integral N kLocal K r k)
         = - lsum (boundary_contacts at_node s p) (through k) - lsum (ghost_contacts at_node p) (through k).
Proof. exact DGL_conservation. Qed.
Print Assumptions C80_conservation.

Lemma two_D : lagrange_derivatives (Lobatto_points 2) (box_D 2).
Proof. exact (line_D_ok (Lobatto_points 2) (Lobatto_weights 2) (box_matrix 2) (rule_ends 2 two_points) (box_inverse 2 two_points)). Qed.
Lemma two_match : nodes_match (place_node 2 two_place) 8 two_example.
Proof.
  exact (place_nodes_match (Lobatto_points 2) (Lobatto_weights 2) (box_D 2) (rule_ends 2 two_points) two_place two_example
    (two_geometry _ _) (two_apart _ _)).
Qed.
(** Two cubes side by side: the scalar is carried along x, 2 comes in, 5 goes out, through sides of area 4. *)
Example C80_two_cells : exists r,
  DGL_GetResidualColumn 1 8 true (fun c q k => advect (nc_value c q) k) (inflow 2) two_example = Some r
  /\ lsum (n_local_cells two_example) (n_integral 8 true 1 r 0) = - 12.
Proof.
  destruct (C80_conservation 1 8 true (fun c q k => advect (nc_value c q) k) (place_node 2 two_place) two_example (inflow 2)) as (r & E & S).
  - lia.
  - apply two_ok.
  - exact two_match.
  - intros c q I L. destruct (box_nodes_all 2 two_points q L) as (i & j & k & A1 & A2 & A3 & ->). unfold GetWeight.
    rewrite (two_cell_weights _ _ c i j k I A1 A2 A3). pose proof (fun a => Lobatto_nonzero 2 a ltac:(lia)) as W.
    apply Rmult_integral_contrapositive; split; [apply Rmult_integral_contrapositive; split|]; apply W; assumption.
  - intros c q I L. apply (tensor_unity (Lobatto_points 2) (Lobatto_weights 2) (box_D 2) c q (rule_ends 2 two_points) two_D); [|exact L].
    apply (proj1 (proj2 (two_geometry _ _)) c I).
  - exists r. split; [exact E|]. rewrite S by lia. rewrite two_outward. change (lsum (ghost_contacts (place_node 2 two_place) two_example) (through 0)) with 0. ring.
Qed.

(** ** C81: FR::General and FR::Lobatto *)
(** No assertion fails, and the residual is minus the divergence of the interpolated flux, minus the jumps at the sides times the
    derivatives of the correction functions. *)
Theorem C81_flux_reconstruction : forall K Q points place D FluxMatrix degree c_next,
  (2 <= Q)%nat -> points 0%nat = -1 -> points (Q - 1)%nat = 1 -> forall p s, npart_ok (Q * Q * Q) p ->
  geometry_ok Q points place D p -> outlet_ok Q place FluxMatrix s p ->
  exists r, FR_GetResidualColumn K Q points degree c_next FluxMatrix s p = Some r
    /\ size r = (K * (Q * Q * Q) * List.length (n_local_cells p))%nat
    /\ forall c j k, In c (n_local_cells p) -> (j < Q * Q * Q)%nat -> (k < K)%nat ->
         at_ r (address K (Q * Q * Q) (nc_id c) j k)
         = FR_form Q points place FluxMatrix (LocalToLeftDerivative degree c_next) (LocalToRightDerivative degree c_next) s p c j k.
Proof. exact FR_main. Qed.
Print Assumptions C81_flux_reconstruction.

(** FR::Lobatto corrects at the points of the sides only. *)
Theorem C81_lobatto : forall K Q points place D FluxMatrix degree,
  (2 <= Q)%nat -> points 0%nat = -1 -> points (Q - 1)%nat = 1 -> forall p s, npart_ok (Q * Q * Q) p ->
  geometry_ok Q points place D p -> outlet_ok Q place FluxMatrix s p ->
  (exists x, FR_construct Q points degree (HuynhLumpingLobatto degree) p = Some x) ->
  exists r, FRL_GetResidualColumn K Q points degree FluxMatrix s p = Some r
    /\ size r = (K * (Q * Q * Q) * List.length (n_local_cells p))%nat
    /\ forall c j k, In c (n_local_cells p) -> (j < Q * Q * Q)%nat -> (k < K)%nat ->
         at_ r (address K (Q * Q * Q) (nc_id c) j k)
         = FRL_form Q place FluxMatrix (LocalToRightDerivative degree (HuynhLumpingLobatto degree)) s p c j k.
Proof. intros K Q points place D F d. exact (FRL_main K Q points place D F d). Qed.
Print Assumptions C81_lobatto.

(** FR::General is conservative, whatever the parameter of the correction functions. *)
Theorem C81_conservation : forall K Q D place FluxMatrix p s c_next, (2 <= Q <= 6)%nat ->
  lagrange_derivatives (Lobatto_points Q) D ->
  npart_ok (Q * Q * Q) p -> geometry_ok Q (Points Q) place D p -> outlet_ok Q place FluxMatrix s p ->
  covered Q place s p -> face_weights Q place (Weights Q) p -> cell_weights Q (Weights Q) p ->
  exists r, FR_GetResidualColumn K Q (Points Q) (Q - 1) c_next FluxMatrix s p = Some r
    /\ forall k, (k < K)%nat ->
         lsum (n_local_cells p) (n_integral (Q * Q * Q) true K r k)
         = - lsum (boundary_contacts (place_node Q place) s p) (through k)
           - lsum (ghost_contacts (place_node Q place) p) (through k).
Proof.
  intros K Q D place F p s c H LD P G O C FW CW. pose proof (Lobatto_ends Q H) as E. destruct (Lobatto_length Q H) as [LQ _].
  assert (I : integrates (Lobatto_points Q) (Lobatto_weights Q) (Q + 1)).
  { intros q Lq. apply (Lobatto_integrates Q H). lia. }
  pose proof (FR_conservation K (Lobatto_points Q) (Lobatto_weights Q) D E LD place F p s) as M. rewrite LQ in M.
  exact (M P G c O I C FW CW).
Qed.
Print Assumptions C81_conservation.

Example C81_two_cells : forall c_next, exists r,
  FR_GetResidualColumn 1 2 (Points 2) 1 c_next advect (inflow 2) two_example = Some r
  /\ lsum (n_local_cells two_example) (n_integral 8 true 1 r 0) = - 12.
Proof.
  intros c. destruct (C81_conservation 1 2 (box_D 2) two_place advect two_example (inflow 2) c) as (r & E & S).
  - lia.
  - exact two_D.
  - apply two_ok.
  - apply two_geometry.
  - apply two_outlet.
  - apply two_covered.
  - apply two_face_weights.
  - apply two_cell_weights.
  - exists r. split; [exact E|]. change 8%nat with (2 * 2 * 2)%nat. rewrite S by lia. rewrite two_outward.
    change (lsum (ghost_contacts (place_node 2 two_place) two_example) (through 0)) with 0. ring.
Qed.

(** ** C82: the three schemes agree *)
(** With the correction functions of HuynhLumpingLobatto the residuals of FR::General, FR::Lobatto and DG::Lobatto are the same. *)
Theorem C82_three_schemes : forall K Q D place FluxMatrix cell_to_flux p s, (2 <= Q <= 6)%nat -> (0 < K)%nat ->
  lagrange_derivatives (Lobatto_points Q) D ->
  npart_ok (Q * Q * Q) p -> geometry_ok Q (Points Q) place D p -> outlet_ok Q place FluxMatrix s p ->
  covered Q place s p -> face_weights Q place (Weights Q) p -> cell_weights Q (Weights Q) p -> nodes_apart Q p ->
  (forall c q k, cell_to_flux c q k = FluxMatrix (nc_value c q) k) ->
  exists r1 r2 r3, FR_GetResidualColumn K Q (Points Q) (Q - 1) (HuynhLumpingLobatto (Q - 1)) FluxMatrix s p = Some r1
    /\ FRL_GetResidualColumn K Q (Points Q) (Q - 1) FluxMatrix s p = Some r2
    /\ DGL_GetResidualColumn K (Q * Q * Q) true cell_to_flux s p = Some r3
    /\ forall c j k, In c (n_local_cells p) -> (j < Q * Q * Q)%nat -> (k < K)%nat ->
         at_ r1 (address K (Q * Q * Q) (nc_id c) j k) = at_ r2 (address K (Q * Q * Q) (nc_id c) j k)
         /\ at_ r2 (address K (Q * Q * Q) (nc_id c) j k) = at_ r3 (address K (Q * Q * Q) (nc_id c) j k).
Proof.
  intros K Q D place F g p s H HK LD P G O C FW CW NA EF. pose proof (Lobatto_ends Q H) as E. destruct (Lobatto_length Q H) as [LQ _].
  pose proof (three_schemes K (Lobatto_points Q) (Lobatto_weights Q) D E LD place F p s) as M. rewrite LQ in M.
  exact (M P G O (Lobatto_extrema Q H) g (Lobatto_integrates Q H) C FW CW (fun a => Lobatto_nonzero Q a H) EF NA HK).
Qed.
Print Assumptions C82_three_schemes.

(** The assertions of CheckCacheConsistency in the constructor of FR::Lobatto hold. *)
Theorem C82_caches : forall Q D place p c f q, (2 <= Q <= 6)%nat ->
  npart_ok (Q * Q * Q) p -> geometry_ok Q (Points Q) place D p -> touches p c f -> (q < nf_points f)%nat ->
  exists e base, FRL_entry Q (Points Q) (Q - 1) c f q = Some e
    /\ FR_entry Q (Points Q) (Q - 1) (HuynhLumpingLobatto (Q - 1)) c f q = Some base
    /\ consistent Q e base.
Proof.
  intros Q D place p c f q H P G T L. pose proof (Lobatto_ends Q H) as E. destruct (Lobatto_length Q H) as [LQ _].
  pose proof (caches_consistent (Lobatto_points Q) (Lobatto_weights Q) place D p E (Lobatto_extrema Q H)) as M. rewrite LQ in M.
  exact (M P G c f q T L).
Qed.
Print Assumptions C82_caches.

Example C82_two_cells : exists r1 r2 r3,
  FR_GetResidualColumn 1 2 (Points 2) 1 (HuynhLumpingLobatto 1) advect (inflow 2) two_example = Some r1
  /\ FRL_GetResidualColumn 1 2 (Points 2) 1 advect (inflow 2) two_example = Some r2
  /\ DGL_GetResidualColumn 1 8 true (fun c q k => advect (nc_value c q) k) (inflow 2) two_example = Some r3
  /\ (forall c j, In c (n_local_cells two_example) -> (j < 8)%nat ->
        at_ r1 (address 1 8 (nc_id c) j 0) = at_ r2 (address 1 8 (nc_id c) j 0)
        /\ at_ r2 (address 1 8 (nc_id c) j 0) = at_ r3 (address 1 8 (nc_id c) j 0))
  /\ lsum (n_local_cells two_example) (n_integral 8 true 1 r1 0) = - 12.
Proof.
  destruct (C82_three_schemes 1 2 (box_D 2) two_place advect (fun c q k => advect (nc_value c q) k) two_example (inflow 2)) as (r1 & r2 & r3 & E1 & E2 & E3 & S).
  - lia.
  - lia.
  - exact two_D.
  - apply two_ok.
  - apply two_geometry.
  - apply two_outlet.
  - apply two_covered.
  - apply two_face_weights.
  - apply two_cell_weights.
  - apply two_apart.
  - reflexivity.
  - exists r1, r2, r3. split; [exact E1|]. split; [exact E2|]. split; [exact E3|]. split.
    + intros c j I L. apply S; [exact I|exact L|lia].
    + destruct (C81_two_cells (HuynhLumpingLobatto 1)) as (r & E & T).
      assert (X : Some r = Some r1) by (rewrite <- E; exact E1). injection X as ->. exact T.
Qed.

(** ** C83: a uniform flow *)
(** A uniform flow should stay as it is; in a cell with curved or twisted sides and two points per line it does not, although
    the cell, its sides and the fluxes are as they should be. *)
Theorem C83_free_stream_refuted : exists p s F place D r c,
  npart_ok 8 p /\ geometry_ok 2 (Points 2) place D p /\ lagrange_derivatives (Lobatto_points 2) D /\ covered 2 place s p
  /\ face_weights 2 place (Weights 2) p /\ cell_weights 2 (Weights 2) p /\ uniform_flux 2 place advect s p F
  /\ FR_GetResidualColumn 1 2 (Points 2) 1 0 advect s p = Some r
  /\ In c (n_local_cells p) /\ at_ r (address 1 8 (nc_id c) 0 0) <> 0.
Proof.
  assert (K : small_k (1 / 4)) by (right; reflexivity). destruct stream_not_preserved as (r & E & V).
  exists (one_part 2 (box_cell 2 0 0 (1 / 4) (uniform 2 1 (1 / 4)))), (far_away 1), (fun _ => vscale 1 along_x), (one_place 2), (box_D 2), r,
    (box_cell 2 0 0 (1 / 4) (uniform 2 1 (1 / 4))).
  split; [apply (one_ok 2 two_points)|]. split; [apply (one_geometry 2 two_points _ _ _ K)|]. split; [exact two_D|].
  split; [apply (one_covered 2), two_points|]. split; [apply (one_face_weights 2 two_points)|]. split; [apply (one_cell_weights 2 two_points)|].
  split; [apply (one_uniform 2 two_points _ _ _ K)|]. split; [exact E|]. split; [left; reflexivity|].
  change (nc_id _) with 0%nat. rewrite V. lra.
Qed.
Print Assumptions C83_free_stream_refuted.

(** It does if the rule has more points per line than twice the degree of the hexahedron. *)
Theorem C83_free_stream : forall K Q place D FluxMatrix p s F M c_next, (2 <= Q <= 6)%nat ->
  npart_ok (Q * Q * Q) p -> geometry_ok Q (Points Q) place D p -> uniform_flux Q place FluxMatrix s p F ->
  inverse_of (Lobatto_points Q) M -> (forall c, In c (n_local_cells p) -> fine_hexahedron (Lobatto_points Q) M c) ->
  exists r, FR_GetResidualColumn K Q (Points Q) (Q - 1) c_next FluxMatrix s p = Some r
    /\ forall c j k, In c (n_local_cells p) -> (j < Q * Q * Q)%nat -> (k < K)%nat ->
         at_ r (address K (Q * Q * Q) (nc_id c) j k) = 0.
Proof.
  intros K Q place D FM p s F M c H P G U MI FH. pose proof (Lobatto_ends Q H) as E. destruct (Lobatto_length Q H) as [LQ _].
  pose proof (free_stream K (Lobatto_points Q) (Lobatto_weights Q) place D FM p s F E) as T. rewrite LQ in T.
  exact (T P G U M c MI FH).
Qed.
Print Assumptions C83_free_stream.

(** the same cell with three points per line *)
Example C83_three_points : exists r,
  FR_GetResidualColumn 1 3 (Points 3) 2 0 advect (far_away 1) (one_part 3 (box_cell 3 0 0 (1 / 4) (uniform 3 1 (1 / 4)))) = Some r
  /\ forall j, (j < 27)%nat -> at_ r (address 1 27 0 j 0) = 0.
Proof.
  assert (K : small_k (1 / 4)) by (right; reflexivity).
  destruct (C83_free_stream 1 3 (one_place 3) (box_D 3) advect (one_part 3 (box_cell 3 0 0 (1 / 4) (uniform 3 1 (1 / 4)))) (far_away 1)
    (fun _ => vscale 1 along_x) (box_matrix 3) 0) as (r & E & V).
  - lia.
  - apply (one_ok 3 three_points).
  - apply (one_geometry 3 three_points _ _ _ K).
  - apply (one_uniform 3 three_points _ _ _ K).
  - apply (box_inverse 3 three_points).
  - apply (one_fine 3 three_points _ _ _ K). reflexivity.
  - exists r. split; [exact E|]. intros j L. apply (V (box_cell 3 0 0 (1 / 4) (uniform 3 1 (1 / 4))) j 0%nat (or_introl eq_refl) L). lia.
Qed.

(** ** C84: the searches of the constructors *)
(** In a cell whose sides and points are apart, FindFaceId finds the side by its center, and FindCollinearIndex the indices of a point. *)
Theorem C84_search : forall Q points c i a b, well_separated Q points c -> (i < 6)%nat -> (a < Q)%nat -> (b < Q)%nat ->
  FindFaceId c (nc_to_global c (face_point i 0 0)) = Some i
  /\ FindCollinearIndex Q points c (nc_to_global c (face_point i (points a) (points b))) i = (a, b).
Proof.
  intros Q pts c i a b S I A B. split.
  - exact (FindFaceId_found Q pts c S i I).
  - exact (FindCollinearIndex_found Q pts c S i a b I A B).
Qed.
Print Assumptions C84_search.

(** a twisted cell around (5, 0, 0) *)
Example C84_cell : FindFaceId (box_cell 3 0 5 (1 / 4) (uniform 3 1 (1 / 4))) (V 6 0 0) = Some 2%nat
  /\ FindCollinearIndex 3 (Points 3) (box_cell 3 0 5 (1 / 4) (uniform 3 1 (1 / 4))) (V 6 (3 / 4) (- (3 / 4))) 2 = (2, 0)%nat.
Proof.
  assert (K : small_k (1 / 4)) by (right; reflexivity). set (c := box_cell 3 0 5 (1 / 4) (uniform 3 1 (1 / 4))).
  assert (G : forall l, nc_to_global c l = V (vx l + 5) (vy l + 1 / 4 * (vx l * vz l)) (vz l + 1 / 4 * (vx l * vy l))).
  { intros l. apply (box_global 3 5 (1 / 4) (uniform 3 1 (1 / 4)) l). }
  destruct (C84_search 3 (Points 3) c 2 2 0 (box_separated 3 three_points 0 5 (1 / 4) (uniform 3 1 (1 / 4)) K)) as [S1 S2]; [lia..|].
  rewrite G in S1, S2. cbn [face_point vx vy vz] in S1, S2. split.
  - rewrite <- S1. f_equal. apply vec_eq; cbn [vx vy vz]; ring.
  - rewrite <- S2. f_equal. apply vec_eq; cbn; lra.
Qed.
