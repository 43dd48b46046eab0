(** Two cubes side by side, in which a scalar that is linear along x diffuses. *)
From Coq Require Import Reals List Arith Lia Lra Bool String.
From Verif Require Import Vec3 Arrays RSum Poly Model_Geometry Model_Basis Model_Nodal Model_Dofs Model_DG Model_Gauss Model_Diffusive Model_Schemes Model_Viscous
  Spec_DG Spec_Diffusive Spec_Schemes Spec_Nodal Spec_FR Spec_Viscous
  Proof_Dofs Proof_DG Proof_Schemes Proof_DGLobatto Proof_FR Proof_FRLine Proof_FRMain Proof_FRCell Proof_FRStream Proof_Box Proof_Viscous Proof_ViscousMain.
Import ListNotations.
Open Scope R_scope.

(** nothing is carried *)
Definition still : riemann :=
  Riemann (fun _ _ _ => 0) (fun _ _ => 0) (fun _ _ => 0) (fun _ _ => 0) (fun _ _ _ => 0) (fun _ _ _ => 0) (fun _ _ _ => 0).
Definition no_flux (u : value) (k : nat) : vec := V 0 0 0.
(** a x + b with x from the middle of the cell, the gradient (a, 0, 0), and the Hessian 0 *)
Definition slope (a b : R) (comp n : nat) : R :=
  match comp with 0%nat => a * nth (fst (fst (Hexa_index_inv 2 2 n))) (Lobatto_points 2) 0 + b | 1%nat => a | _ => 0 end.
Definition two_slopes (a b a' b' : R) : npart :=
  with_solvers (fun _ _ => still) (two_part (box_cell 2 0 0 0 (slope a b)) (box_cell 2 1 2 0 (slope a' b'))).
(** the solution x *)
Definition linear_coeff (o : R) : nat -> nat -> R := slope 1 o.
Definition linear_A : ncell := box_cell 2 0 0 0 (linear_coeff 0).
Definition linear_B : ncell := box_cell 2 1 2 0 (linear_coeff 2).
Definition two_linear : npart := two_slopes 1 0 1 2.
Definition to_sharer (f : nface) : vec := V 2 0 0.

Lemma box_value id o coeff n c : (n < 8)%nat -> nc_value (box_cell 2 id o 0 coeff) n c = coeff c n.
Proof.
  intros L. destruct (box_nodes_all 2 two_points n L) as (i & j & l & I & J & L' & ->).
  cbn [box_cell hexa_cell nc_value]. unfold GetValue. rewrite (box_det 2 two_points) by assumption. cbn [box_nodal n_coeff]. field.
Qed.
Lemma box_no_divergence id o coeff : no_divergence 2 (box_cell 2 id o 0 coeff).
Proof.
  intros F n L. destruct (box_nodes_all 2 two_points n L) as (i & j & l & I & J & L' & ->).
  set (c := box_cell 2 id o 0 coeff). set (xs := Lobatto_points 2).
  pose proof (tensor_divergence xs (box_D 2) (fun _ _ => F) c i j l 0 (box_tensor 2 two_points id o 0 coeff) I J L') as TD.
  change (List.length xs) with 2%nat in TD. unfold divergence_at, F_local in TD. rewrite TD. clear TD.
  pose proof (D_exact xs (Lobatto_weights 2) (box_D 2) (rule_ends 2 two_points)
    (line_D_ok xs (Lobatto_weights 2) (box_matrix 2) (rule_ends 2 two_points) (box_inverse 2 two_points))) as DE.
  change (List.length xs) with 2%nat in DE.
  assert (T : forall i j l a, (i < 2)%nat -> (j < 2)%nat -> (l < 2)%nat -> (a < 3)%nat ->
    axis_flux (rmul F (nc_associated c ((i * 2 + j) * 2 + l))) a = match a with 0%nat => vx F | 1%nat => vy F | _ => vz F end).
  { clear. intros i j l a I J L A. rewrite rmul_column. unfold c. rewrite (box_associated 2 two_points) by (auto using small_0).
    destruct a as [|[|[|a]]]; [..|lia]; unfold dot, box_column; cbn [vx vy vz]; ring. }
  rewrite (rsum_ext 2 (fun a => _ * vx _) (fun a => box_D 2 i a * peval [vx F] (nth a xs 0))).
  2:{ intros a A. f_equal. pose proof (T a j l 0%nat A J L' ltac:(lia)) as T0. cbn [axis_flux] in T0. rewrite T0. cbn [peval]. ring. }
  rewrite (rsum_ext 2 (fun b => _ * vy _) (fun b => box_D 2 j b * peval [vy F] (nth b xs 0))).
  2:{ intros a A. f_equal. pose proof (T i a l 1%nat I A L' ltac:(lia)) as T0. cbn [axis_flux] in T0. rewrite T0. cbn [peval]. ring. }
  rewrite (rsum_ext 2 (fun e => _ * vz _) (fun e => box_D 2 l e * peval [vz F] (nth e xs 0))).
  2:{ intros a A. f_equal. pose proof (T i j a 2%nat I J A ltac:(lia)) as T0. cbn [axis_flux] in T0. rewrite T0. cbn [peval]. ring. }
  rewrite !DE by (cbn [List.length]; lia). cbn [pderiv pderiv_from tl peval INR]. ring.
Qed.

Lemma two_linear_geometric : geometric two_place.
Proof. intros c f r q. reflexivity. Qed.
Section Slopes.
  Variables a b a' b' : R.
  Lemma slopes_ok : npart_ok 8 (two_slopes a b a' b').
  Proof. exact (S_ok 2 _ _ (two_ok (slope a b) (slope a' b'))). Qed.
  Lemma slopes_geometry : geometry_ok 2 (fun i => nth i (Lobatto_points 2) 0) two_place (box_D 2) (two_slopes a b a' b').
  Proof. exact (S_geometry 2 _ two_place (box_D 2) two_linear_geometric _ _ (two_geometry (slope a b) (slope a' b'))). Qed.
  Lemma slopes_covered : covered 2 two_place (inflow 2) (two_slopes a b a' b').
  Proof. apply (S_covered 2 two_place two_linear_geometric). apply two_covered. Qed.
  Lemma slopes_face_weights : face_weights 2 two_place (fun i => nth i (Lobatto_weights 2) 0) (two_slopes a b a' b').
  Proof. apply (S_face_weights 2 two_place two_linear_geometric). apply two_face_weights. Qed.
  Lemma slopes_cell_weights : cell_weights 2 (fun i => nth i (Lobatto_weights 2) 0) (two_slopes a b a' b').
  Proof. exact (two_cell_weights (slope a b) (slope a' b')). Qed.
  Lemma slopes_apart : nodes_apart 2 (two_slopes a b a' b').
  Proof.
    intros c f n m T. destruct (S_touches _ _ _ _ T) as (g & _ & T'). exact (two_apart (slope a b) (slope a' b') c g n m T').
  Qed.
  Lemma slopes_forward : normals_forward to_sharer (two_slopes a b a' b').
  Proof.
    intros f q [[<-|[]]|[]] L. cbn [with_riemann nf_normal nf_points two_face side_face] in *.
    destruct (two_face_unit (slope a b) (slope a' b') 0 q ltac:(lia) L) as [_ N].
    cbn [two_face side_face nf_normal] in N.  cbn [with_riemann nf_normal two_face side_face]. rewrite N.
    unfold dot, to_sharer, unit_axis. cbn. lra.
  Qed.
  Lemma still_contacts t k : In t (contacts (place_node 2 two_place) (inflow 2) (two_slopes a b a' b')) -> k_flux t k = 0.
  Proof.
    unfold contacts. rewrite !in_app_iff. intros [I|[I|[]]].
    - unfold inner_contacts in I. cbn [two_slopes with_solvers n_local_faces] in I. rewrite flat_map_map in I. apply in_flat_map in I. destruct I as (f & _ & I).
      unfold at_local in I. apply in_flat_map in I. destruct I as (q & _ & [<-|[<-|[]]]); reflexivity.
    - unfold boundary_contacts, n_conditions in I.
      cbn [inflow solid_wall supersonic_inlet supersonic_outlet subsonic_inlet subsonic_outlet smart_boundary map app flat_map] in I.
      rewrite app_nil_r in I. apply in_app_or in I. cbn [two_slopes with_solvers n_boundary_faces] in I.
      destruct I as [I|I]; rewrite flat_map_map in I; apply in_flat_map in I; destruct I as (f & _ & I); unfold at_boundary in I; apply in_map_iff in I;
        destruct I as (q & <- & _); reflexivity.
  Qed.
End Slopes.
Lemma two_linear_uniform : uniform_flux 2 two_place no_flux (inflow 2) two_linear (fun _ => V 0 0 0).
Proof.
  split; [reflexivity|]. intros t k I. rewrite (still_contacts _ _ _ _ t k I). unfold dot. cbn. ring.
Qed.
Lemma two_linear_linear : linear_solution 1 8 (place_node 2 two_place) two_linear (fun _ => V 1 0 0).
Proof.
  split.
  - intros c q k [[<-|[<-|[]]]|(f & [] & _)] L Lk; assert (k = 0%nat) by lia; subst k; unfold du_of, ddu_of, linear_A, linear_B;
      rewrite !box_value by exact L; split; reflexivity.
  - intros f q k [[<-|[]]|[]] L Lk. assert (k = 0%nat) by lia. subst k. cbn [with_riemann nf_points two_face side_face] in L.
    change (List.length (Lobatto_points 2) * List.length (Lobatto_points 2))%nat with 4%nat in L.
    cbn [nholder nsharer with_riemann two_face side_face]. change (0 <? 6)%nat with true. cbv iota. unfold linear_A, linear_B.
    rewrite !box_value; [destruct q as [|[|[|[|q]]]]; [..|lia]; cbn; lra| |]; destruct q as [|[|[|[|q]]]]; cbn; lia.
Qed.
(** in DG::Lobatto *)
Lemma linear_volume : rsum 8 (fun q => GetWeight true linear_A q * dot (local_flux true (fun c q => V_FluxMatrix 1 no_flux (V 1 1 1) (nc_value c q)) linear_A q 0)
  (nc_gradients linear_A q 0)) = 1.
Proof.
  set (xs := Lobatto_points 2). set (c := linear_A).
  pose proof (D_exact xs (Lobatto_weights 2) (box_D 2) (rule_ends 2 two_points)
    (line_D_ok xs (Lobatto_weights 2) (box_matrix 2) (rule_ends 2 two_points) (box_inverse 2 two_points)) [1 / 2; - (1 / 2)]) as DE.
  change (List.length xs) with 2%nat in DE.
  assert (D0 : forall i, (i < 2)%nat -> box_D 2 i 0 = - (1 / 2)).
  { intros i I. specialize (DE i ltac:(cbn; lia) I). cbn [rsum] in DE. replace (peval (pderiv _) _) with (- (1 / 2)) in DE.
    - rewrite <- DE. unfold xs. cbn. lra.
    - cbn. ring. }
  assert (T : forall i j l, (i < 2)%nat -> (j < 2)%nat -> (l < 2)%nat ->
    GetWeight true c ((i * 2 + j) * 2 + l) * dot (local_flux true (fun c q => V_FluxMatrix 1 no_flux (V 1 1 1) (nc_value c q)) c ((i * 2 + j) * 2 + l) 0)
      (nc_gradients c ((i * 2 + j) * 2 + l) 0) = 1 / 2 * delta j 0 * delta l 0).
  { intros i j l I J L. unfold GetWeight. rewrite (two_cell_weights (linear_coeff 0) (linear_coeff 2) c i j l (or_introl eq_refl) I J L).
    replace (nth i (Lobatto_weights 2) 0 * nth j (Lobatto_weights 2) 0 * nth l (Lobatto_weights 2) 0) with 1
      by (destruct i as [|[|i]], j as [|[|j]], l as [|[|l]]; try lia; cbn; ring).
    rewrite (proj2 (box_tensor 2 two_points 0 0 0 (linear_coeff 0)) i j l 0%nat 0%nat 0%nat I J L ltac:(lia) ltac:(lia) ltac:(lia)
      : nc_gradients c ((i * 2 + j) * 2 + l) 0 = _).
    unfold local_flux. assert (LN : ((i * 2 + j) * 2 + l < 8)%nat) by lia.
    replace (V_FluxMatrix 1 no_flux (V 1 1 1) (nc_value c ((i * 2 + j) * 2 + l)) 0%nat) with (V (-1) 0 0).
    2:{ unfold V_FluxMatrix, MinusViscousFluxMatrix, du_of, c, linear_A. rewrite !box_value by exact LN. unfold linear_coeff; cbn [slope Nat.add Nat.mul].
        unfold no_flux. apply vec_eq; cbn [vx vy vz]; ring. }
    assert (C : forall a, (a < 3)%nat -> axis_flux (rmul (V (-1) 0 0) (nc_associated c ((i * 2 + j) * 2 + l))) a = match a with 0%nat => -1 | _ => 0 end).
    { intros a A. rewrite rmul_column. unfold c, linear_A. rewrite (box_associated 2 two_points) by (auto using small_0).
      destruct a as [|[|[|a]]]; [..|lia]; unfold dot, box_column; cbn [vx vy vz]; ring. }
    pose proof (C 0%nat ltac:(lia)) as C0. pose proof (C 1%nat ltac:(lia)) as C1. pose proof (C 2%nat ltac:(lia)) as C2. cbn [axis_flux] in C0, C1, C2.
    unfold dot. cbn [vx vy vz]. rewrite C0, C1, C2, D0 by exact I. field. }
  cbn [rsum].
  pose proof (T 0%nat 0%nat 0%nat ltac:(lia) ltac:(lia) ltac:(lia)) as T0. pose proof (T 0%nat 0%nat 1%nat ltac:(lia) ltac:(lia) ltac:(lia)) as T1.
  pose proof (T 0%nat 1%nat 0%nat ltac:(lia) ltac:(lia) ltac:(lia)) as T2. pose proof (T 0%nat 1%nat 1%nat ltac:(lia) ltac:(lia) ltac:(lia)) as T3.
  pose proof (T 1%nat 0%nat 0%nat ltac:(lia) ltac:(lia) ltac:(lia)) as T4. pose proof (T 1%nat 0%nat 1%nat ltac:(lia) ltac:(lia) ltac:(lia)) as T5.
  pose proof (T 1%nat 1%nat 0%nat ltac:(lia) ltac:(lia) ltac:(lia)) as T6. pose proof (T 1%nat 1%nat 1%nat ltac:(lia) ltac:(lia) ltac:(lia)) as T7.
  cbn [Nat.add Nat.mul] in T0, T1, T2, T3, T4, T5, T6, T7. rewrite T0, T1, T2, T3, T4, T5, T6, T7. unfold delta. cbn. lra.
Qed.
Lemma two_linear_match : nodes_match (place_node 2 two_place) 8 two_linear.
Proof.
  exact (place_nodes_match (Lobatto_points 2) (Lobatto_weights 2) (box_D 2) (rule_ends 2 two_points) two_place two_linear
    (slopes_geometry 1 0 1 2) (slopes_apart 1 0 1 2)).
Qed.
Lemma linear_not_steady : exists r, VDGL_GetResidualColumn 1 2 true no_flux (V 1 1 1) (inflow 2) two_linear = Some r /\ at_ r (address 1 8 0 0 0) = 1.
Proof.
  destruct (DGL_main 1 8 true (fun c q => V_FluxMatrix 1 no_flux (V 1 1 1) (nc_value c q)) (place_node 2 two_place) two_linear (inflow 2)
    ltac:(lia) (slopes_ok 1 0 1 2) two_linear_match) as (r & ER & _ & V).
  exists r. split; [exact ER|]. rewrite (V linear_A 0%nat 0%nat (or_introl eq_refl) ltac:(lia) ltac:(lia) : at_ r (address 1 8 0 0 0) = _).
  unfold DGL_form. rewrite linear_volume.
  replace (of_cell _ _ _) with 0.
  - unfold GetWeight. pose proof (slopes_cell_weights 1 0 1 2 linear_A 0%nat 0%nat 0%nat (or_introl eq_refl) ltac:(lia) ltac:(lia) ltac:(lia)) as W.
    change ((0 * 2 + 0) * 2 + 0)%nat with 0%nat in W. rewrite W. cbn. field.
  - symmetry. unfold of_cell. rewrite (lsum_ext _ _ (fun _ => 0)); [apply lsum_zero; reflexivity|].
    intros t It. unfold if_id. destruct (_ =? _)%nat; [|reflexivity]. destruct (_ =? _)%nat; [|reflexivity].
    unfold outward. rewrite (still_contacts _ _ _ _ t 0%nat It). destruct (k_holder t); ring.
Qed.

(** what leaves through the sides of the two cubes, with slopes [a] and [a'] and the coefficients 1 *)
Lemma slopes_outward a b a' b' :
  lsum (boundary_contacts (place_node 2 two_place) (inflow 2) (total_part 1 (V 1 1 1) 1 1 to_sharer (place_node 2 two_place) (two_slopes a b a' b'))) (through 0)
  = 4 * a - 4 * a'.
Proof.
  unfold boundary_contacts, n_conditions.
  cbn [inflow solid_wall supersonic_inlet supersonic_outlet subsonic_inlet subsonic_outlet smart_boundary map app flat_map].
  set (A := box_cell 2 0 0 0 (slope a b)). set (B := box_cell 2 1 2 0 (slope a' b')). set (fl_in := n_sup_in _ _).
  set (T := fun id => total_face 1 (V 1 1 1) 1 1 to_sharer (place_node 2 two_place) (with_riemann (two_face A B id) (fun _ => still))).
  change (n_boundary_faces (total_part _ _ _ _ _ _ _) "inflow") with [T 4%nat].
  change (n_boundary_faces (total_part _ _ _ _ _ _ _) "outflow") with (map T [1; 2; 3; 5; 6; 7; 8; 9; 10]%nat).
  assert (H : forall id fl, (id < 11)%nat -> fl = fl_in \/ fl = n_sup_out ->
    lsum (at_boundary (place_node 2 two_place) fl (T id)) (through 0) = - (4 * ((if (id <? 6)%nat then a else a') * vx (unit_axis (nth id two_sides 0%nat))))).
  { intros id fl L Hfl. unfold at_boundary. change (nf_points (T id)) with 4%nat.
    assert (EV : forall q, (q < 4)%nat -> du_of 1 (nc_value (nholder (two_face A B id)) (place_node 2 two_place (nholder (two_face A B id)) (two_face A B id) q)) 0%nat
      = V (if (id <? 6)%nat then a else a') 0 0).
    { intros q Lq.
      assert (LN : (place_node 2 two_place (nholder (two_face A B id)) (two_face A B id) q < 2 * 2 * 2)%nat).
      { destruct (spot_lt 2 two_points q Lq) as [L1 L2].
        unfold place_node, two_place, spot, node_at. change (List.length (Lobatto_points 2)) with 2%nat.
        apply node_lt; [assumption..|]. match goal with |- (last_of _ ?i < _)%nat => generalize i end. intros i. unfold last_of. destruct i as [|[|[|[|[|i]]]]]; lia. }
      set (n := place_node _ _ _ _ _) in *. clearbody n. cbn [two_face side_face nholder]. unfold du_of, A, B.
      destruct (id <? 6)%nat; rewrite !box_value by exact LN; reflexivity. }
    assert (F : forall q, (q < 4)%nat -> through 0 (Contact (nholder (T id)) (T id) q true
       (fl (nf_riemann (T id) q) (value_at (place_node 2 two_place) (nholder (T id)) (T id) q) (nf_coord (T id) q)))
       = - ((if (id <? 6)%nat then a else a') * vx (unit_axis (nth id two_sides 0%nat)))).
    { intros q Lq. destruct (two_face_unit (slope a b) (slope a' b') id q L Lq) as [W Nn]. fold A B in W, Nn.
      unfold through. cbn [k_face k_point k_flux]. change (nf_weight (T id) q) with (nf_weight (two_face A B id) q). rewrite W.
      transitivity (1 * (0 - dot (diffusion (V 1 1 1) (du_of 1 (nc_value (nholder (two_face A B id)) (place_node 2 two_place (nholder (two_face A B id)) (two_face A B id) q)) 0%nat))
        (nf_normal (two_face A B id) q))).
      { destruct Hfl as [-> | ->]; reflexivity. }
      rewrite EV, Nn by exact Lq. unfold dot, diffusion. cbn [vx vy vz]. ring. }
    cbn [seq map lsum]. rewrite !F by lia. ring. }
  cbn [map flat_map app]. rewrite !lsum_app. change (lsum (@nil contact) (through 0)) with 0.
  rewrite !H by (auto; lia). cbn. ring.
Qed.
