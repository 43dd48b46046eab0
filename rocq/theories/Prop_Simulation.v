(** C102 and C103: whole simulations with a limiter on several processes, and the error of a solution. *)
From Coq Require Import Reals Lra Lia List Arith String Permutation.
From Verif Require Import Vec3 Arrays RSum Model_Dofs Model_DG Spec_DG Proof_DG Model_Temporal Spec_Temporal Model_Reconstruct
  Model_Projection Prop_Projection Model_Simulation Spec_Simulation Proof_Simulation Spec_Basis Model_Taylor_cell Proof_Taylor_cell Proof_TaylorGradient Proof_L1 Sample_Simulation.
Import ListNotations.
Open Scope R_scope.

(** C102.  On every rank the residual of the current solution is computed without a failing assertion and is the weak
    form (C20) of the polynomials whose coefficients are in the columns of all ranks. *)
Theorem C102_residual : forall K N kDegrees FluxMatrix s parts, mesh_ok N parts ->
  forall t U r p, nth_error parts r = Some p ->
  exists c, Model_DG.GetResidualColumn K N kDegrees (at_time s t) (the_part K N FluxMatrix U r p) = Some c
    /\ size c = (K * N * List.length (g_local_cells p))%nat
    /\ (forall a, the_residual K N kDegrees FluxMatrix s parts t U (r, a) = at_ c a)
    /\ forall g j k, In g (g_local_cells p) -> (j < N)%nat -> (k < K)%nat ->
         the_residual K N kDegrees FluxMatrix s parts t U (r, (K * N * g_id g + (j * K + k))%nat)
         = weak_form kDegrees (at_time s t) (the_part K N FluxMatrix U r p) (the_cell K N FluxMatrix U r g) j k.
Proof. exact the_residual_some. Qed.
Print Assumptions C102_residual.

(** C102.  One step of any of the three schemes, with a limiter that keeps the content of every cell: the content of the
    whole mesh changes by what leaves through the boundary, averaged over the states of the step. *)
Theorem C102_step : forall K N kDegrees FluxMatrix s parts limit, (0 < N)%nat -> mesh_ok N parts ->
  keeps_contents K N parts limit -> forall k, (k < K)%nat -> paired k parts ->
  let residual := the_residual K N kDegrees FluxMatrix s parts in
  forall order, (1 <= order <= 3)%nat -> forall sys t dt,
  contents K N parts (s_solution (L_RK_Update limit residual order sys t dt)) k
  = contents K N parts (s_solution sys) k
    - dt * averaged limit residual order (fun t U => outflow K N FluxMatrix s parts t U k) (s_solution sys) t dt.
Proof.
  intros K N d FM s parts limit NP M Kp k L Pr residual order Ho sys t dt.
  rewrite (lrk_balance (fun U => contents K N parts U k) limit residual (contents_functional K N parts k)
    (fun u => keeps_total K N parts limit u k Kp L) order Ho).
  cbv beta. replace (averaged limit residual order (fun t u => contents K N parts (residual t u) k) (s_solution sys) t dt)
    with (- averaged limit residual order (fun t U => outflow K N FM s parts t U k) (s_solution sys) t dt); [ring|].
  unfold averaged. destruct order as [|[|[|order]]]; unfold residual; rewrite !residual_balance by assumption; field.
Qed.
Print Assumptions C102_step.

(** C102.  If nothing of a component leaves through the boundary, its content stays the same for any number of steps. *)
Theorem C102_conserved : forall K N kDegrees FluxMatrix s parts limit, (0 < N)%nat -> mesh_ok N parts ->
  keeps_contents K N parts limit -> forall k, (k < K)%nat -> paired k parts ->
  (forall t U, outflow K N FluxMatrix s parts t U k = 0) ->
  forall order, (1 <= order <= 3)%nat -> forall steps sys,
  contents K N parts (s_solution (L_march limit (the_residual K N kDegrees FluxMatrix s parts) order steps sys)) k
  = contents K N parts (s_solution sys) k.
Proof.
  intros K N d FM s parts limit NP M Kp k L Pr Z order Ho steps sys.
  apply (lrk_march (fun U => contents K N parts U k) limit _ (contents_functional K N parts k)
    (fun u => keeps_total K N parts limit u k Kp L)); [|exact Ho].
  intros t U. rewrite residual_balance by assumption. rewrite Z. ring.
Qed.
Print Assumptions C102_conserved.

(** C102.  Limiting by [Part::Reconstruct] on any partition keeps the content of every cell, whatever is limited and
    whatever the ghost cells contain, if the limiter keeps the coefficients of the constant basis function. *)
Theorem C102_limiting : forall K N kDegrees parts, (0 < N)%nat -> mesh_ok N parts ->
  forall cells owner number adj is_not_smooth limit stale,
  (forall m c k, In c cells -> (k < K)%nat -> limit m c k 0%nat = m c k 0%nat) ->
  keeps_contents K N parts (limited K N kDegrees cells owner number adj is_not_smooth limit stale).
Proof. exact limited_keeps. Qed.
Print Assumptions C102_limiting.

(** C102.  The gradients that the residual uses on such cells are those of the values. *)
Theorem C102_gradients : forall k id b j x y z, (k <= 3)%nat -> (j < Taylor3_N k)%nat ->
  let f x y z := g_basis (taylor_cell k id b) (V x y z) j in
  let g := g_gradients (taylor_cell k id b) (V x y z) j in
  is_partial [AX] f x y z (vx g) /\ is_partial [AY] f x y z (vy g) /\ is_partial [AZ] f x y z (vz g).
Proof. exact taylor_cell_gradient. Qed.
Print Assumptions C102_gradients.

(** C102.  Both WENO limiters do so on cells with orthonormal Taylor bases of degree at most three; such cells satisfy
    what is asked of the bases. *)
Theorem C102_weno : forall k K w0 eps basis gauss center adj faces cells, (k <= 3)%nat ->
  (forall c, In c cells -> built (Taylor3_N k) (taylor3 k) (gauss c) (center c) (basis c)
     /\ w0 * INR (List.length (adj c)) < 1) -> 0 < w0 -> 0 < eps ->
  (forall c id, In c cells -> gbasis_ok (Taylor3_N k) (taylor_cell k id (basis c))) /\
  (forall m c r, In c cells -> (r < K)%nat -> lazy_limit k w0 eps basis adj m c r 0%nat = m c r 0%nat) /\
  ((forall c f, In c cells -> In f (faces c) -> 0 < f_volume f /\ forall u i j, (i < K)%nat -> (j < K)%nat ->
      rsum K (fun m => f_R f u i m * f_L f u m j) = if Nat.eqb i j then 1 else 0) ->
   (forall c, In c cells -> faces c <> []) ->
   forall m c r, In c cells -> (r < K)%nat -> eigen_limit k K w0 eps basis adj faces m c r 0%nat = m c r 0%nat).
Proof.
  intros k K w0 eps basis gauss center adj faces cells Lk H W0 E0. split; [|split].
  - intros c id I. destruct (H c I) as (B & _). exact (taylor_basis_ok k id _ _ _ Lk B).
  - intros m c r I Lr. destruct (H c I) as (B & W). exact (lazy_keeps_first k w0 eps basis adj _ _ m c r Lk B W0 W E0).
  - intros F Ne m c r I Lr. destruct (H c I) as (B & W).
    apply (eigen_keeps_first k K w0 eps basis adj faces _ _ m c r Lk B W0 W E0 (Ne c I)); [| |exact Lr].
    + intros f J. apply (F c f I J).
    + intros f u i j J. apply (F c f I J).
Qed.
Print Assumptions C102_weno.

(** C102.  All together: the discontinuous Galerkin scheme with the lazy WENO limiter on any number of processes keeps the
    content of the domain when nothing leaves it. *)
Theorem C102_weno_conserved : forall k K FluxMatrix s parts w0 eps basis gauss center adj cells owner number is_not_smooth stale,
  (k <= 3)%nat -> mesh_ok (Taylor3_N k) parts ->
  (forall c, In c cells -> built (Taylor3_N k) (taylor3 k) (gauss c) (center c) (basis c)
     /\ w0 * INR (List.length (adj c)) < 1) -> 0 < w0 -> 0 < eps ->
  forall comp, (comp < K)%nat -> paired comp parts ->
  (forall t U, outflow K (Taylor3_N k) FluxMatrix s parts t U comp = 0) ->
  forall order, (1 <= order <= 3)%nat -> forall steps sys,
  contents K (Taylor3_N k) parts (s_solution (L_march
    (limited K (Taylor3_N k) k cells owner number adj is_not_smooth (lazy_limit k w0 eps basis adj) stale)
    (the_residual K (Taylor3_N k) k FluxMatrix s parts) order steps sys)) comp
  = contents K (Taylor3_N k) parts (s_solution sys) comp.
Proof.
  intros k K FM s parts w0 eps basis gauss center adj cells owner number ins stale Lk M H W0 E0 comp L Pr Z order Ho steps sys.
  assert (NP : (0 < Taylor3_N k)%nat) by (destruct k as [|[|[|k]]]; cbn; lia).
  apply C102_conserved; try assumption. apply C102_limiting; [exact NP|exact M|].
  apply (C102_weno k K w0 eps basis gauss center adj (fun _ => []) cells Lk H W0 E0).
Qed.
Print Assumptions C102_weno_conserved.

(** C102.  A convex set of states that the limiter and steps of the forward Euler scheme do not leave is not left by the
    three schemes; and with a limiter that changes nothing the schemes are those of C23 to C25. *)
Theorem C102_convex : forall I (P : Column I -> Prop) limit residual dt, convex P -> (forall u, P u -> P (limit u)) ->
  (forall t u, P u -> P (fun i => u i + dt * residual t u i)) ->
  forall order, (1 <= order <= 3)%nat -> forall ts s, P (s_solution s) ->
  P (s_solution (L_march limit residual order (map (fun t => (t, dt)) ts) s)).
Proof. exact @lrk_convex. Qed.
Print Assumptions C102_convex.
Theorem C102_without_limiter : forall I residual order (s : System I) t dt,
  L_RK_Update (fun u => u) residual order s t dt = RK_Update residual order s t dt.
Proof. exact @lrk_identity. Qed.
Print Assumptions C102_without_limiter.

(** on the line the hypotheses hold; a step moves 2 from the first cell to the second and removes the slope *)
Example C102_nonvacuous :
  mesh_ok 2 line_parts /\ paired 0 line_parts /\ keeps_contents 1 2 line_parts line_limited
  /\ (forall t U, outflow 1 2 carry_matrix line_fem line_parts t U 0 = 0)
  /\ content 1 2 line_state 0 0 cell_a = 3 /\ content 1 2 line_after 0 0 cell_a = 1
  /\ line_state (0%nat, 1%nat) = 1 /\ line_after (0%nat, 1%nat) = 0
  /\ contents 1 2 line_parts line_state 0 = 4 /\ contents 1 2 line_parts line_after 0 = 4.
Proof.
  destruct line_values as (V0 & V1 & _).
  assert (C0 : contents 1 2 line_parts line_state 0 = 4).
  { unfold contents, content, value_of. cbn -[IZR Rmult Rplus Rminus Rinv Rdiv]. field. }
  split; [exact line_mesh_ok|]. split; [exact line_paired|]. split; [exact line_keeps|]. split; [exact line_closed|].
  split; [unfold content, value_of; cbn -[IZR Rmult Rplus Rminus Rinv Rdiv]; field|].
  split.
  { unfold content, value_of. cbn [rsum g_points g_weight g_coord g_basis g_id cell_a unit_cell].
    change (1 * 2 * 0 + (0 * 1 + 0))%nat with 0%nat. change (1 * 2 * 0 + (1 * 1 + 0))%nat with 1%nat.
    rewrite V0, V1. cbn [INR vx]. field. }
  split; [reflexivity|]. split; [exact V1|]. split; [exact C0|]. rewrite <- C0.
  exact (C102_conserved 1 2 1 carry_matrix line_fem line_parts line_limited ltac:(lia) line_mesh_ok line_keeps 0 ltac:(lia) line_paired
    line_closed 1 ltac:(lia) [(0, 1 / 2)] (mkSystem 0 line_state)).
Qed.

(** the tetrahedron of C54 with two neighbours *)
Example C102_weno_nonvacuous : let b := OrthoNormal_new 4 (taylor3 1) space_gauss v0 in
  built (Taylor3_N 1) (taylor3 1) space_gauss v0 b /\ 1 / 4 * INR (List.length [1; 2]%nat) < 1
  /\ gbasis_ok 4 (taylor_cell 1 0 b)
  /\ forall m : memory coeff, lazy_limit 1 (1 / 4) 1 (fun _ => b) (fun _ => [1; 2]%nat) m 0 0%nat 0%nat = m 0%nat 0%nat 0%nat.
Proof.
  intros b. assert (W : 1 / 4 * INR (List.length [1; 2]%nat) < 1) by (cbn; lra).
  destruct (C102_weno 1 1 (1 / 4) 1 (fun _ => b) (fun _ => space_gauss) (fun _ => v0) (fun _ => [1; 2]%nat) (fun _ => []) [0%nat] ltac:(lia)
    (fun _ _ => conj space_built W) ltac:(lra) ltac:(lra)) as (G & L & _).
  split; [exact space_built|]. split; [exact W|]. split; [apply (G 0%nat); left; reflexivity|].
  intros m. apply L; [left; reflexivity|lia].
Qed.

(** ** C103 *)

(** The error of a rank is the quadrature of the absolute difference from the given solution, component by component;
    so the sum over the ranks is the quadrature over the whole mesh. *)
Theorem C103_sum : forall K N exact_solution t U parts k,
  (forall r p, MeasureL1Error K N exact_solution t U r p k
    = lsum (g_local_cells p) (fun g => rsum (g_points g) (fun q =>
        g_weight g q * Rabs (value_of K N U r g (g_coord g q) k - exact_solution (g_coord g q) t k)))) /\
  lsum (ranked parts) (fun '(r, p) => MeasureL1Error K N exact_solution t U r p k)
  = lsum (flat_map (fun '(r, p) => map (pair r) (g_local_cells p)) (ranked parts)) (fun '(r, g) => rsum (g_points g) (fun q =>
        g_weight g q * Rabs (value_of K N U r g (g_coord g q) k - exact_solution (g_coord g q) t k))).
Proof.
  intros K N ex t U parts k. split; [intros; apply l1_sum|].
  induction (ranked parts) as [|[r p] l IH]; cbn [lsum flat_map]; [reflexivity|].
  rewrite lsum_app, lsum_map, IH, l1_sum. reflexivity.
Qed.
Print Assumptions C103_sum.

(** With positive weights the error is not negative, and it is zero exactly if the solution agrees with the given one
    in every quadrature point. *)
Theorem C103_zero : forall K N exact_solution t U r p k,
  (forall g q, In g (g_local_cells p) -> (q < g_points g)%nat -> 0 < g_weight g q) ->
  0 <= MeasureL1Error K N exact_solution t U r p k /\
  (MeasureL1Error K N exact_solution t U r p k = 0 <->
   forall g q, In g (g_local_cells p) -> (q < g_points g)%nat ->
     value_of K N U r g (g_coord g q) k = exact_solution (g_coord g q) t k).
Proof.
  intros K N ex t U r p k W. rewrite l1_sum.
  assert (NQ : forall g q, In g (g_local_cells p) -> (q < g_points g)%nat ->
    0 <= g_weight g q * Rabs (value_of K N U r g (g_coord g q) k - ex (g_coord g q) t k)).
  { intros g q I L. apply Rmult_le_pos; [left; apply W; assumption|apply Rabs_pos]. }
  assert (NG : forall g, In g (g_local_cells p) -> 0 <= rsum (g_points g) (fun q =>
    g_weight g q * Rabs (value_of K N U r g (g_coord g q) k - ex (g_coord g q) t k))).
  { intros g I. apply rsum_nonneg. intros q L. apply NQ; assumption. }
  split.
  - rewrite <- (lsum_zero (g_local_cells p)). apply lsum_le. exact NG.
  - split.
    + intros Z g q I L. pose proof (lsum_zero_each _ _ NG Z g I) as Zg. cbv beta in Zg.
      pose proof (rsum_zero_each _ _ (fun q => NQ g q I) Zg q L) as Zq. cbv beta in Zq.
      apply Rmult_integral in Zq. destruct Zq as [Zq|Zq]; [specialize (W g q I L); lra|].
      destruct (Req_dec (value_of K N U r g (g_coord g q) k - ex (g_coord g q) t k) 0) as [E|E]; [lra|].
      apply Rabs_no_R0 in E. contradiction.
    + intros E. rewrite <- (lsum_zero (g_local_cells p)). apply lsum_ext. intros g I. apply rsum_zero. intros q L.
      rewrite (E g q I L), Rminus_diag_eq, Rabs_R0 by reflexivity. ring.
Qed.
Print Assumptions C103_zero.

(** With weights that are not negative: the contents of two solutions differ at most by the error of one against the other,
    and errors against two functions differ at most by the quadrature of their distance. *)
Theorem C103_bounds : forall K N exact_solution other t U r p k,
  (forall g q, In g (g_local_cells p) -> (q < g_points g)%nat -> 0 <= g_weight g q) ->
  Rabs (lsum (g_local_cells p) (content K N U k r)
        - lsum (g_local_cells p) (fun g => rsum (g_points g) (fun q => g_weight g q * exact_solution (g_coord g q) t k)))
    <= MeasureL1Error K N exact_solution t U r p k /\
  MeasureL1Error K N exact_solution t U r p k
    <= MeasureL1Error K N other t U r p k
       + lsum (g_local_cells p) (fun g => rsum (g_points g) (fun q =>
           g_weight g q * Rabs (other (g_coord g q) t k - exact_solution (g_coord g q) t k))).
Proof.
  intros K N ex other t U r p k W. rewrite !l1_sum. split.
  - rewrite <- lsum_sub. eapply Rle_trans; [apply lsum_abs|]. apply lsum_le. intros g I.
    unfold content. rewrite <- rsum_sub. eapply Rle_trans; [apply rsum_abs|]. apply rsum_le. intros q L.
    rewrite <- Rmult_minus_distr_l, Rabs_mult, (Rabs_pos_eq (g_weight g q)) by (apply W; assumption). apply Rle_refl.
  - rewrite <- lsum_add. apply lsum_le. intros g I. rewrite <- rsum_add. apply rsum_le. intros q L.
    rewrite <- Rmult_plus_distr_l. apply Rmult_le_compat_l; [apply W; assumption|].
    eapply Rle_trans; [|apply Rabs_triang]. right. f_equal. ring.
Qed.
Print Assumptions C103_bounds.

(** the solution 3 + (2 x - 1) in the first cell against the function x: the differences at the ends are
    2 and 3, with the weights 1/2 *)
Example C103_nonvacuous :
  MeasureL1Error 1 2 (fun x _ _ => vx x) 0 line_state 0 (nth 0 line_parts (GPart [] [] [] (fun _ => []))) 0%nat = 5 / 2
  /\ (forall g q, In g (g_local_cells (nth 0 line_parts (GPart [] [] [] (fun _ => [])))) -> (q < g_points g)%nat -> 0 < g_weight g q).
Proof.
  split.
  - rewrite l1_sum. cbn [nth line_parts g_local_cells lsum]. unfold value_of.
    cbn -[IZR Rmult Rplus Rminus Rinv Rdiv Rabs].
    replace (0 + 3 * 1 + 1 * (2 * (0 + 0 - 0) - 1) - (0 + 0)) with 2 by ring.
    replace (0 + 3 * 1 + 1 * (2 * (0 + 1 - 0) - 1) - (0 + 1)) with 3 by ring.
    rewrite !Rabs_pos_eq by lra. field.
  - intros g q [<-|[]] _. cbn -[IZR Rinv]. lra.
Qed.
