From Coq Require Import Reals Lra Lia List Arith String Permutation FunctionalExtensionality.
From Verif Require Import Vec3 Arrays RSum Model_Dofs Model_DG Spec_DG Proof_DG Model_Temporal Spec_Temporal
  Model_Simulation Spec_Simulation Proof_Simulation Model_Euler Spec_Euler Proof_Euler Proof_Rotated Model_Simple Spec_Simple Spec_Mirror Proof_Mirror Prop_Mirror
  Model_Solvers Spec_Solvers.
Import ListNotations.
Open Scope R_scope.

Section Mesh.
  Variables K N kDegrees : nat.
  Variable FluxMatrix : value -> nat -> vec.
  Variable s : fem.
  Variable parts : list gpart.
  Notation res := (the_residual K N kDegrees FluxMatrix s parts).

  Lemma ghost_face_in pairs r f : Permutation (flat_map (fun '(r, p) => map (pair r) (g_ghost_faces p)) (ranked parts))
      (flat_map (fun '(f, g) => [f; g]) pairs) -> (exists g, In ((r, f), g) pairs) ->
    exists p, nth_error parts r = Some p /\ In f (g_ghost_faces p).
  Proof.
    intros Pm (g & I). assert (J : In (r, f) (flat_map (fun '(r, p) => map (pair r) (g_ghost_faces p)) (ranked parts))).
    { apply (Permutation_in _ (Permutation_sym Pm)). apply in_flat_map. exists ((r, f), g). split; [exact I|left; reflexivity]. }
    apply in_flat_map in J. destruct J as ([r' p] & J & H). apply in_map_iff in H. destruct H as (f' & E & H).
    injection E as -> ->. exists p. split; [apply in_ranked, J|exact H].
  Qed.

  Section Solver.
    Context {F : Type}.
    Variable make : F -> riemann.
    Variable turned : F -> F -> Prop.
    Variable good : gface -> nat -> value -> value -> Prop.
    Variable k : nat.
    Hypothesis opp : forall f q fr gr l r, turned fr gr -> good f q l r -> g_riemann f q = make fr ->
      GetFluxUpwind (make gr) r l k = - GetFluxUpwind (make fr) l r k.

    Lemma copies_flux U r f r' g : copies make turned (r, f) (r', g) ->
      (forall q, (q < g_fpoints f)%nat ->
         good f q (value_of K N U r (g_holder f) (g_fcoord f q)) (value_of K N U (g_rank f) (g_sharer f) (g_fcoord f q))) ->
      flux_through upwind_at k (the_face K N FluxMatrix U r f) = - flux_through upwind_at k (the_face K N FluxMatrix U r' g).
    Proof.
      intros (R1 & R2 & H1 & H2 & Np & ff & fg & sigma & Pm & Q) A. unfold flux_through.
      cbn [f_points Model_Simulation.the_face]. rewrite Np.
      rewrite <- (rsum_perm (g_fpoints f) sigma (fun q => f_weight (the_face K N FluxMatrix U r' g) q * upwind_at (the_face K N FluxMatrix U r' g) q k)) by exact Pm.
      rewrite <- rsum_opp. apply rsum_ext. intros q Lq. destruct (Q q Lq) as (E1 & E2 & E3 & E4 & T).
      specialize (A q Lq). unfold upwind_at. cbn [f_weight f_riemann f_coord holder sharer Model_Simulation.the_face].
      rewrite E1, E2, E3, E4, R2, H1, H2. cbn [c_value Model_Simulation.the_cell]. rewrite <- R1.
      rewrite (opp f q _ _ _ _ T A E3). ring.
    Qed.

    Lemma matched_cancel U : matched make turned parts -> across K N parts good U ->
      lsum (ranked parts) (fun '(r, p) => lsum (g_ghost_faces p) (fun f => flux_through upwind_at k (the_face K N FluxMatrix U r f))) = 0.
    Proof.
      intros (pairs & Pm & O) A.
      set (Fl := fun rf : nat * gface => flux_through upwind_at k (the_face K N FluxMatrix U (fst rf) (snd rf))).
      transitivity (lsum (flat_map (fun '(r, p) => map (pair r) (g_ghost_faces p)) (ranked parts)) Fl).
      - clear. induction (ranked parts) as [|[r p] l IH]; cbn [lsum flat_map]; [reflexivity|].
        rewrite lsum_app, lsum_map, IH. reflexivity.
      - assert (E : forall r f r' g, In ((r, f), (r', g)) pairs -> Fl (r, f) + Fl (r', g) = 0).
        { intros r f r' g I. unfold Fl. cbn [fst snd]. rewrite (copies_flux U r f r' g); [ring|apply O, I|].
          intros q Lq. destruct (ghost_face_in pairs r f Pm) as (p & Ep & If); [exists (r', g); exact I|].
          exact (A r p f q Ep If Lq). }
        rewrite (lsum_perm _ _ _ Pm). clear - E. induction pairs as [|[[r f] [r' g]] l IH]; cbn [flat_map lsum app]; [reflexivity|].
        rewrite IH by (intros; apply E; right; assumption). rewrite Rplus_0_r. apply E. left. reflexivity.
    Qed.
  End Solver.

  Hypothesis NP : (0 < N)%nat.
  Hypothesis M : mesh_ok N parts.

  Lemma balance_at t U k :
    lsum (ranked parts) (fun '(r, p) => lsum (g_ghost_faces p) (fun f => flux_through upwind_at k (the_face K N FluxMatrix U r f))) = 0 ->
    (k < K)%nat -> contents K N parts (res t U) k = - outflow K N FluxMatrix s parts t U k.
  Proof.
    intros Z L. unfold contents, outflow.
    rewrite (lsum_ext (ranked parts) _ (fun '(r, p) =>
       - lsum (conditions (at_time s t) (the_part K N FluxMatrix U r p)) (fun '(fs, flux_at) => lsum fs (flux_through flux_at k))
      - lsum (g_ghost_faces p) (fun f => flux_through upwind_at k (the_face K N FluxMatrix U r f)))).
    - match type of Z with lsum ?l ?g = 0 => set (G := g) in * end. clear M.
      enough (E : forall l, lsum l (fun '(r, p) =>
        - lsum (conditions (at_time s t) (the_part K N FluxMatrix U r p)) (fun '(fs, flux_at) => lsum fs (flux_through flux_at k))
        - lsum (g_ghost_faces p) (fun f => flux_through upwind_at k (the_face K N FluxMatrix U r f)))
        = - lsum l (fun '(r, p) => lsum (conditions (at_time s t) (the_part K N FluxMatrix U r p)) (fun '(fs, flux_at) => lsum fs (flux_through flux_at k)))
          - lsum l G) by (rewrite E, Z; ring).
      induction l as [|[r p] l IH]; cbn [lsum]; [ring|]. rewrite IH. unfold G at 2. ring.
    - intros [r p] I. apply part_balance; [exact NP|exact M|apply in_ranked, I|exact L].
  Qed.

  (** a step, from the balance at its stages *)
  Lemma step_at limit k order sys t dt : keeps_contents K N parts limit -> (k < K)%nat -> (1 <= order <= 3)%nat ->
    (forall U, In U (stages limit res order (s_solution sys) t dt) -> forall t, contents K N parts (res t U) k = - outflow K N FluxMatrix s parts t U k) ->
    contents K N parts (s_solution (L_RK_Update limit res order sys t dt)) k
    = contents K N parts (s_solution sys) k
      - dt * averaged limit res order (fun t U => outflow K N FluxMatrix s parts t U k) (s_solution sys) t dt.
  Proof.
    intros Kp L Ho B.
    rewrite (lrk_balance (fun U => contents K N parts U k) limit res (contents_functional K N parts k)
      (fun u => keeps_total K N parts limit u k Kp L) order Ho).
    cbv beta. replace (averaged limit res order (fun t u => contents K N parts (res t u) k) (s_solution sys) t dt)
      with (- averaged limit res order (fun t U => outflow K N FluxMatrix s parts t U k) (s_solution sys) t dt); [ring|].
    unfold averaged, stages in *. destruct order as [|[|[|order]]]; [lia|..];
      rewrite !B by (cbn [In]; tauto); field.
  Qed.

  Lemma march_at limit k order : keeps_contents K N parts limit -> (k < K)%nat -> (1 <= order <= 3)%nat -> forall steps sys,
    (forall U, In U (visited limit res order steps sys) -> forall t,
       contents K N parts (res t U) k = - outflow K N FluxMatrix s parts t U k /\ outflow K N FluxMatrix s parts t U k = 0) ->
    contents K N parts (s_solution (L_march limit res order steps sys)) k = contents K N parts (s_solution sys) k.
  Proof.
    intros Kp L Ho. induction steps as [|[t dt] steps IH]; intros sys B; [reflexivity|].
    change (L_march limit res order ((t, dt) :: steps) sys) with (L_march limit res order steps (L_RK_Update limit res order sys t dt)).
    cbn [visited] in B. rewrite IH by (intros U I; apply B, in_or_app; right; exact I).
    rewrite step_at; [|exact Kp|exact L|exact Ho|intros U I t'; apply B, in_or_app; left; exact I].
    assert (averaged limit res order (fun t U => outflow K N FluxMatrix s parts t U k) (s_solution sys) t dt = 0) as ->; [|ring].
    assert (Z : forall U, In U (stages limit res order (s_solution sys) t dt) -> forall t, outflow K N FluxMatrix s parts t U k = 0)
      by (intros U I t'; apply B, in_or_app; left; exact I).
    unfold averaged, stages in *. destruct order as [|[|[|order]]]; [lia|..]; rewrite !Z by (cbn [In]; tauto); field.
  Qed.

  (** closed boundaries *)
  Lemma walls_only t U k : only_walls s ->
    (forall r p name f q u, nth_error parts r = Some p -> In f (g_boundary_faces p name) -> (q < g_fpoints f)%nat ->
       Model_DG.GetFluxOnSolidWall (g_riemann f q) u k = 0) ->
    outflow K N FluxMatrix s parts t U k = 0.
  Proof.
    intros (O1 & O2 & O3 & O4 & O5) W. unfold outflow. rewrite <- (lsum_zero (ranked parts)). apply lsum_ext. intros [r p] I.
    apply in_ranked in I. unfold conditions, at_time.
    cbn [solid_wall supersonic_inlet supersonic_outlet subsonic_inlet subsonic_outlet smart_boundary].
    rewrite O1, O2, O3, O4, O5. cbn [map app]. rewrite app_nil_r.
    rewrite lsum_map. rewrite <- (lsum_zero (solid_wall s)). apply lsum_ext. intros name _.
    cbn [boundary_faces Model_Simulation.the_part]. rewrite lsum_map. rewrite <- (lsum_zero (g_boundary_faces p name)).
    apply lsum_ext. intros f J. unfold flux_through. apply rsum_zero. intros q Lq. cbn [f_points Model_Simulation.the_face] in Lq.
    unfold wall_at. cbn [f_riemann f_weight Model_Simulation.the_face]. rewrite (W r p name f q _ I J Lq). ring.
  Qed.
End Mesh.

(** ** The solvers *)

Lemma toT_momentum u : List.length (momentum (toT u)) = 3%nat.
Proof. reflexivity. Qed.

Lemma ofT_neg t k : ofT (negT t) k = - ofT t k.
Proof.
  destruct t as [m x l e]. destruct k as [|[|[|[|[|k]]]]]; cbn [ofT negT mass mX mT energy]; try reflexivity; [| |ring].
  - destruct l; cbn; ring.
  - destruct l as [|a [|b l]]; cbn; ring.
Qed.

Lemma single_opposite unset c nu nu' l r k : opposite_normals nu nu' ->
  GetFluxUpwind (single_riemann unset c nu') r l k = - GetFluxUpwind (single_riemann unset c nu) l r k.
Proof. intros ->. exact (proj1 (C104_scalar c nu _ _)). Qed.
Lemma burgers_opposite unset c nu nu' l r k : opposite_normals nu nu' ->
  GetFluxUpwind (burgers_riemann unset c nu') r l k = - GetFluxUpwind (burgers_riemann unset c nu) l r k.
Proof. intros ->. exact (proj2 (C104_scalar c nu _ _)). Qed.

Lemma multiple_opposite unset K eigen c nu nu' l r k : (k < K)%nat ->
  (forall nu, let '(d, rows, cols) := eigen (normal_mat c nu) in eigen_contract K (normal_mat c nu) d rows cols) ->
  opposite_normals nu nu' ->
  GetFluxUpwind (multiple_riemann unset K eigen c nu') r l k = - GetFluxUpwind (multiple_riemann unset K eigen c nu) l r k.
Proof.
  intros L E ->. pose proof (E nu) as E1. pose proof (E (opp3 nu)) as E2. unfold multiple_riemann.
  destruct (eigen (normal_mat c nu)) as [[d V] W]. destruct (eigen (normal_mat c (opp3 nu))) as [[d' V'] W'].
  cbn [GetFluxUpwind]. exact (proj1 (C104_multiple K c nu d V W l r k L E1) d' V' W' E2).
Qed.

Lemma ausm_opposite gamma f g l r k : 1 < gamma -> opposite_frames f g -> physicalU gamma (toT l) -> physicalU gamma (toT r) ->
  GetFluxUpwind (euler_riemann gamma (Ausm_GetFluxUpwind gamma) g) r l k
  = - GetFluxUpwind (euler_riemann gamma (Ausm_GetFluxUpwind gamma) f) l r k.
Proof.
  intros G (F1 & F2 & E) Pl Pr. cbn [euler_riemann GetFluxUpwind]. rewrite <- ofT_neg. f_equal.
  exact (proj1 (C104_ausm 3 gamma f g (toT l) (toT r) (or_intror eq_refl) G F1 F2 eq_refl eq_refl Pl Pr) E).
Qed.

Lemma hllc_opposite gamma f g l r k : 1 < gamma -> opposite_frames f g -> physicalU gamma (toT l) -> physicalU gamma (toT r) ->
  (let wl := ConservativeToPrimitive gamma (toT l) in let wr := ConservativeToPrimitive gamma (toT r) in
   dotL (momentum wl) (normal f) - dotL (momentum wr) (normal f) < GetSpeedOfSound gamma wl + GetSpeedOfSound gamma wr) ->
  GetFluxUpwind (euler_riemann gamma (Hllc_GetFluxUpwind gamma) g) r l k
  = - GetFluxUpwind (euler_riemann gamma (Hllc_GetFluxUpwind gamma) f) l r k.
Proof.
  intros G (F1 & F2 & E) Pl Pr C. cbn [euler_riemann GetFluxUpwind]. rewrite <- ofT_neg. f_equal.
  exact (proj1 (C104_hllc_partial 3 gamma f g (toT l) (toT r) (or_intror eq_refl) G F1 F2 eq_refl eq_refl Pl Pr) E C).
Qed.

(** the flux through a wall: only momentum, by the pressure *)
Lemma euler_wall gamma solver f u k : orthonormal 3 f ->
  Model_DG.GetFluxOnSolidWall (euler_riemann gamma solver f) u k
  = ofT (let p := energy (ConservativeToPrimitive gamma (toT u)) in
         mkTuple 0 (p * hd 0 (normal f)) (map (fun x => p * x) (tl (normal f))) 0) k.
Proof. intros O. cbn [euler_riemann Model_DG.GetFluxOnSolidWall]. rewrite (wall_flux 3) by (try exact O; try reflexivity; right; reflexivity). reflexivity. Qed.

Lemma normal_flux_value gamma u n F k : List.length n = 3%nat -> List.length (momentum F) = 3%nat -> u 0%nat <> 0 ->
  normal_flux gamma (toT u) n F -> ofT F k = euler_flux gamma u n k.
Proof.
  intros L LF Z (E1 & E2 & E3). destruct n as [|a [|b [|c [|]]]]; try discriminate L.
  destruct F as [fm fx fl fe]. destruct fl as [|fy [|fz [|]]]; try discriminate LF.
  unfold toT, addL, scaleL, pressure in E1, E2, E3. cbn [mass momentum mX mT energy dotL map] in E1, E2, E3.
  cbn [Model_Euler.addL] in E2. injection E2 as X Y W.
  destruct k as [|[|[|[|[|k]]]]]; cbn [ofT euler_flux mass mX mT energy nth].
  - rewrite E1. field. exact Z.
  - rewrite X. field. exact Z.
  - rewrite Y. field. exact Z.
  - rewrite W. field. exact Z.
  - rewrite E3. field. exact Z.
  - reflexivity.
Qed.

Lemma three_components f t : List.length f = 3%nat -> List.length (momentum (NormalToGlobal f t)) = 3%nat.
Proof.
  intros L. unfold NormalToGlobal, set_momentum, momentum. cbn [mX mT List.length]. rewrite L. reflexivity.
Qed.
