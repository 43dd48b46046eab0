From Coq Require Import Reals Lra Lia List Arith String Permutation FunctionalExtensionality Bool.
From Verif Require Import Vec3 Arrays RSum Model_Dofs Model_DG Spec_DG Proof_DG Model_Temporal Spec_Temporal
  Model_Reconstruct Spec_Reconstruct Proof_Reconstruct Model_Simulation Spec_Simulation.
Import ListNotations.
Open Scope R_scope.

(** ** Time stepping *)

Ltac open_lrk :=
  unfold L_RK_Update, L_RK1_Update, L_RK2_Update, L_RK3_Update, L_Euler_Update, L_SetSolutionColumn, NextSolution, SetTime,
      SetSolutionColumn, Model_Temporal.GetResidualColumn, cadd, cscale; cbn [s_solution s_time].

Lemma lrk_identity {I} residual order (s : System I) t dt :
  L_RK_Update (fun u => u) residual order s t dt = RK_Update residual order s t dt.
Proof. destruct order as [|[|[|order]]]; reflexivity. Qed.

Lemma lrk_balance {I} (l : Column I -> R) limit residual : functional l -> (forall u, l (limit u) = l u) ->
  forall order, (1 <= order <= 3)%nat -> forall s t dt,
  l (s_solution (L_RK_Update limit residual order s t dt))
  = l (s_solution s) + dt * averaged limit residual order (fun t u => l (residual t u)) (s_solution s) t dt.
Proof.
  intros (L1 & L2) H order Ho [t0 u] t dt. cbn [s_solution].
  assert (E : forall t u, l (fun i => u i + dt * residual t u i) = l u + dt * l (residual t u)).
  { intros t1 v. rewrite (L1 v (fun i => dt * residual t1 v i)), L2. ring. }
  assert (order = 1 \/ order = 2 \/ order = 3)%nat as [-> | [-> | ->]] by lia; unfold averaged.
  - open_lrk. rewrite H. apply E.
  - open_lrk. fold (stage1 limit residual u t dt). set (u1 := stage1 limit residual u t dt).
    rewrite H, L2, (L1 (fun i => u1 i + dt * residual (t + dt) u1 i) u), E.
    unfold u1 at 1, stage1 at 1. rewrite H, E. field.
  - open_lrk. fold (stage1 limit residual u t dt). set (u1 := stage1 limit residual u t dt).
    assert (S2 : limit (fun i => / 4 * (3 * u i + (u1 i + dt * residual (t + dt) u1 i))) = stage2 limit residual u t dt).
    { unfold stage2. fold u1. f_equal. extensionality i. field. }
    rewrite S2. set (u2 := stage2 limit residual u t dt) in *.
    rewrite H, L2, (L1 (fun i => 2 * (u2 i + dt * residual (t + dt / 2) u2 i)) u), (L2 2 (fun i => u2 i + dt * residual (t + dt / 2) u2 i)), E.
    rewrite <- S2 at 1.
    rewrite H, L2, (L1 (fun i => 3 * u i) (fun i => u1 i + dt * residual (t + dt) u1 i)), L2, E.
    unfold u1 at 1, stage1 at 1. rewrite H, E. field.
Qed.

Lemma lrk_march {I} (l : Column I -> R) limit residual : functional l -> (forall u, l (limit u) = l u) ->
  (forall t u, l (residual t u) = 0) -> forall order, (1 <= order <= 3)%nat -> forall steps s,
  l (s_solution (L_march limit residual order steps s)) = l (s_solution s).
Proof.
  intros F H Z order Ho. induction steps as [|[t dt] steps IH]; intros s; [reflexivity|].
  cbn [L_march fold_left]. unfold L_march in IH. rewrite IH. rewrite (lrk_balance l) by assumption. cbn [fst snd].
  assert (averaged limit residual order (fun t u => l (residual t u)) (s_solution s) t dt = 0) as ->; [|ring].
  unfold averaged. destruct order as [|[|[|order]]]; rewrite ?Z; field.
Qed.

(** a convex set that the limiter does not leave *)
Lemma lrk_convex {I} (P : Column I -> Prop) limit residual dt : convex P -> (forall u, P u -> P (limit u)) ->
  (forall t u, P u -> P (fun i => u i + dt * residual t u i)) ->
  forall order, (1 <= order <= 3)%nat -> forall ts s, P (s_solution s) ->
  P (s_solution (L_march limit residual order (map (fun t => (t, dt)) ts) s)).
Proof.
  intros C Hl H order Ho.
  assert (CU : forall w u v z, 0 <= w <= 1 -> P u -> P v -> (forall i, z i = w * u i + (1 - w) * v i) -> P z).
  { intros w u v z Hw Hu Hv E. replace z with (fun i => w * u i + (1 - w) * v i); [apply C; auto|].
    extensionality i. symmetry. apply E. }
  assert (S : forall s t, P (s_solution s) -> P (s_solution (L_RK_Update limit residual order s t dt))).
  { intros [t0 u] t Hu. cbn [s_solution] in Hu.
    assert (order = 1 \/ order = 2 \/ order = 3)%nat as [-> | [-> | ->]] by lia.
    - open_lrk. apply Hl, H, Hu.
    - open_lrk. set (u1 := limit (fun i => u i + dt * residual t u i)). assert (P1 : P u1) by (apply Hl, H, Hu). apply Hl.
      apply (CU (1 / 2) u (fun i => u1 i + dt * residual (t + dt) u1 i)); [lra|assumption|apply H; assumption|].
      intros i. field.
    - open_lrk. set (u1 := limit (fun i => u i + dt * residual t u i)). assert (P1 : P u1) by (apply Hl, H, Hu).
      set (u2 := limit (fun i => / 4 * (3 * u i + (u1 i + dt * residual (t + dt) u1 i)))).
      assert (P2 : P u2).
      { apply Hl. apply (CU (3 / 4) u (fun i => u1 i + dt * residual (t + dt) u1 i)); [lra|assumption|apply H; assumption|].
        intros i. field. }
      apply Hl. apply (CU (1 / 3) u (fun i => u2 i + dt * residual (t + dt / 2) u2 i)); [lra|assumption|apply H; assumption|].
      intros i. field. }
  unfold L_march. induction ts as [|t ts IH]; intros s Hs; [exact Hs|]. cbn [map fold_left fst snd]. apply IH, S, Hs.
Qed.

(** ** Sums *)

Lemma lsum_perm {A} (l l' : list A) f : Permutation l l' -> lsum l f = lsum l' f.
Proof. induction 1; cbn [lsum]; lra. Qed.

Lemma rsum_lsum n f : rsum n f = lsum (seq 0 n) f.
Proof.
  induction n as [|n IH]; [reflexivity|]. rewrite seq_S, lsum_app, <- IH. cbn [rsum lsum Nat.add]. ring.
Qed.

Lemma rsum_perm n sigma f : Permutation (map sigma (seq 0 n)) (seq 0 n) -> rsum n (fun q => f (sigma q)) = rsum n f.
Proof. intros Pm. rewrite !rsum_lsum. rewrite <- (lsum_perm _ _ f Pm), lsum_map. reflexivity. Qed.

Lemma in_ranked parts r p : In (r, p) (ranked parts) <-> nth_error parts r = Some p.
Proof.
  unfold ranked. assert (forall k, In (r, p) (combine (seq k (List.length parts)) parts)
    <-> (k <= r)%nat /\ nth_error parts (r - k) = Some p) as H.
  { induction parts as [|a l IH]; intros k; cbn [List.length seq combine].
    - split; [intros []|]. intros (_ & E). destruct (r - k)%nat; discriminate.
    - cbn [In]. rewrite IH. split.
      + intros [E|(L & E)].
        * injection E as -> ->. rewrite Nat.sub_diag. split; [lia|reflexivity].
        * split; [lia|]. replace (r - k)%nat with (S (r - S k)) by lia. exact E.
      + intros (L & E). destruct (Nat.eq_dec r k) as [->|D].
        * rewrite Nat.sub_diag in E. injection E as ->. left. reflexivity.
        * right. split; [lia|]. replace (r - k)%nat with (S (r - S k)) in E by lia. exact E. }
  rewrite H, Nat.sub_0_r. split; [intros (_ & E); exact E|intros E; split; [lia|exact E]].
Qed.

(** ** The residual of the whole mesh *)

Section Mesh.
  Variables K N kDegrees : nat.
  Variable FluxMatrix : value -> nat -> vec.
  Variable s : fem.
  Variable parts : list gpart.
  Notation state := (Column (nat * nat)).
  Notation the_part := (the_part K N FluxMatrix).
  Notation the_cell := (the_cell K N FluxMatrix).
  Notation the_face := (the_face K N FluxMatrix).
  Notation res := (the_residual K N kDegrees FluxMatrix s parts).

  Lemma the_part_ok U r p : gpart_ok r p -> part_ok (the_part U r p).
  Proof.
    intros (ND & L & F & G & B). unfold part_ok, Model_Simulation.the_part; cbn [local_cells local_faces ghost_faces boundary_faces].
    assert (IC : forall g, In g (g_local_cells p) -> In (the_cell U r g) (map (the_cell U r) (g_local_cells p)))
      by (intros; apply in_map; assumption).
    split; [|split; [|split; [|split]]].
    - rewrite map_map. cbn. exact ND.
    - intros c I. apply in_map_iff in I. destruct I as (g & <- & I). rewrite map_length. apply L, I.
    - intros f I. apply in_map_iff in I. destruct I as (g & <- & I). cbn [holder sharer Model_Simulation.the_face].
      destruct (F g I) as (A & C & ->). auto.
    - intros f I. apply in_map_iff in I. destruct I as (g & <- & I). cbn [holder sharer Model_Simulation.the_face]. auto.
    - intros name f I. apply in_map_iff in I. destruct I as (g & <- & I). cbn [holder sharer Model_Simulation.the_face].
      apply IC, (B name g I).
  Qed.

  Lemma the_basis_ok U r g : gbasis_ok N g -> basis_ok N (the_cell U r g).
  Proof. intros H. exact H. Qed.

  Lemma content_functional k r g : functional (fun U => content K N U k r g).
  Proof.
    unfold content, value_of. split; [intros u v|intros c u].
    - rewrite <- rsum_add. apply rsum_ext. intros q Lq.
      rewrite <- Rmult_plus_distr_l, <- rsum_add. f_equal. apply rsum_ext. intros; ring.
    - rewrite <- rsum_mul_l. apply rsum_ext. intros q Lq.
      rewrite (rsum_ext N _ (fun j => c * (u (r, (K * N * g_id g + (j * K + k))%nat) * g_basis g (g_coord g q) j)))
        by (intros; ring).
      rewrite rsum_mul_l. ring.
  Qed.

  Lemma lsum_functional {A I} (l : list A) (F : A -> Column I -> R) :
    (forall a, functional (F a)) -> functional (fun U => lsum l (fun a => F a U)).
  Proof.
    intros H. split; [intros u v|intros c u]; induction l as [|a l IH]; cbn [lsum]; try ring; rewrite IH.
    - rewrite (proj1 (H a)). ring.
    - rewrite (proj2 (H a)). ring.
  Qed.

  Lemma contents_functional k : functional (fun U => contents K N parts U k).
  Proof.
    assert (F : functional (fun U => lsum (ranked parts) (fun rp => lsum (g_local_cells (snd rp)) (content K N U k (fst rp))))).
    { apply (lsum_functional (ranked parts) (fun rp U => lsum (g_local_cells (snd rp)) (content K N U k (fst rp)))).
      intros rp. apply (lsum_functional (g_local_cells (snd rp)) (fun g U => content K N U k (fst rp) g)).
      intros g. apply content_functional. }
    assert (E : forall U, contents K N parts U k = lsum (ranked parts) (fun rp => lsum (g_local_cells (snd rp)) (content K N U k (fst rp)))).
    { intros U. apply lsum_ext. intros [r p] _. reflexivity. }
    split; intros; rewrite !E; apply F.
  Qed.

  Lemma keeps_total limit U k : keeps_contents K N parts limit -> (k < K)%nat -> contents K N parts (limit U) k = contents K N parts U k.
  Proof.
    intros H L. unfold contents. apply lsum_ext. intros [r p] I. apply in_ranked in I.
    apply lsum_ext. intros g J. eapply H; eassumption.
  Qed.

  Hypothesis NP : (0 < N)%nat.
  Hypothesis M : mesh_ok N parts.

  Lemma the_residual_some t U r p : nth_error parts r = Some p ->
    exists c, Model_DG.GetResidualColumn K N kDegrees (at_time s t) (the_part U r p) = Some c
      /\ size c = (K * N * List.length (g_local_cells p))%nat
      /\ (forall a, res t U (r, a) = at_ c a)
      /\ forall g j k, In g (g_local_cells p) -> (j < N)%nat -> (k < K)%nat ->
           res t U (r, (K * N * g_id g + (j * K + k))%nat)
           = weak_form kDegrees (at_time s t) (the_part U r p) (the_cell U r g) j k.
  Proof.
    intros E. destruct (M r p E) as (P & _).
    destruct (weak_form_main K N kDegrees (at_time s t) (the_part U r p) (the_part_ok U r p P)) as (c & Ec & Sz & W).
    assert (A : forall a, res t U (r, a) = at_ c a) by (intros a; unfold the_residual; rewrite E, Ec; reflexivity).
    exists c. split; [exact Ec|]. split; [|split; [exact A|]].
    - rewrite Sz. cbn [local_cells Model_Simulation.the_part]. rewrite map_length. reflexivity.
    - intros g j k Ig Lj Lk. rewrite A. apply (W (the_cell U r g) j k); [|exact Lj|exact Lk].
      cbn [local_cells Model_Simulation.the_part]. apply in_map, Ig.
  Qed.

  Lemma part_balance t U r p k : nth_error parts r = Some p -> (k < K)%nat ->
    lsum (g_local_cells p) (content K N (res t U) k r)
    = - lsum (conditions (at_time s t) (the_part U r p)) (fun '(fs, flux_at) => lsum fs (flux_through flux_at k))
      - lsum (g_ghost_faces p) (fun f => flux_through upwind_at k (the_face U r f)).
  Proof.
    intros E L. destruct (the_residual_some t U r p E) as (c & Ec & _ & A & _).
    destruct (M r p E) as (P & B).
    pose proof (conservation_main K N kDegrees (at_time s t) (the_part U r p) (the_part_ok U r p P)) as C.
    assert (B' : forall c0, In c0 (local_cells (the_part U r p)) -> basis_ok N c0).
    { intros c0 I. cbn [local_cells Model_Simulation.the_part] in I. apply in_map_iff in I.
      destruct I as (g & <- & I). apply the_basis_ok, B, I. }
    specialize (C B' NP c Ec k L). cbn [local_cells ghost_faces Model_Simulation.the_part] in C. rewrite !lsum_map in C. rewrite <- C.
    apply lsum_ext. intros g I. unfold content, cell_integral, value_of, address.
    cbn [c_points c_weight c_id c_basis c_coord Model_Simulation.the_cell].
    apply rsum_ext. intros q Lq. f_equal. apply rsum_ext. intros j Lj. rewrite A. reflexivity.
  Qed.

  Lemma opposite_flux U k r f r' g : opposite k (r, f) (r', g) ->
    flux_through upwind_at k (the_face U r f) = - flux_through upwind_at k (the_face U r' g).
  Proof.
    intros (R1 & R2 & H1 & H2 & Np & sigma & Pm & Q). unfold flux_through.
    cbn [f_points Model_Simulation.the_face]. rewrite Np.
    rewrite <- (rsum_perm (g_fpoints f) sigma (fun q => f_weight (the_face U r' g) q * upwind_at (the_face U r' g) q k)) by exact Pm.
    rewrite <- rsum_opp. apply rsum_ext. intros q Lq. destruct (Q q Lq) as (E1 & E2 & E3).
    unfold upwind_at. cbn [f_weight f_riemann f_coord holder sharer Model_Simulation.the_face].
    rewrite E1, E2, E3, R1, R2, H1, H2. ring.
  Qed.

  Lemma interfaces_cancel U k : paired k parts ->
    lsum (ranked parts) (fun '(r, p) => lsum (g_ghost_faces p) (fun f => flux_through upwind_at k (the_face U r f))) = 0.
  Proof.
    intros (pairs & Pm & O).
    set (F := fun rf : nat * gface => flux_through upwind_at k (the_face U (fst rf) (snd rf))).
    transitivity (lsum (flat_map (fun '(r, p) => map (pair r) (g_ghost_faces p)) (ranked parts)) F).
    - clear. induction (ranked parts) as [|[r p] l IH]; cbn [lsum flat_map]; [reflexivity|].
      rewrite lsum_app, lsum_map, IH. reflexivity.
    - rewrite (lsum_perm _ _ _ Pm). clear Pm. induction pairs as [|[[r f] [r' g]] l IH]; cbn [flat_map lsum app]; [reflexivity|].
      rewrite IH by (intros; apply O; right; assumption).
      unfold F; cbn [fst snd]. rewrite (opposite_flux U k r f r' g) by (apply O; left; reflexivity). ring.
  Qed.

  Lemma residual_balance t U k : paired k parts -> (k < K)%nat ->
    contents K N parts (res t U) k = - outflow K N FluxMatrix s parts t U k.
  Proof.
    intros Pr L. pose proof (interfaces_cancel U k Pr) as Z. unfold contents, outflow.
    rewrite (lsum_ext (ranked parts) _ (fun '(r, p) =>
       - lsum (conditions (at_time s t) (the_part U r p)) (fun '(fs, flux_at) => lsum fs (flux_through flux_at k))
      - lsum (g_ghost_faces p) (fun f => flux_through upwind_at k (the_face U r f)))).
    - match type of Z with lsum ?l ?g = 0 => set (G := g) in * end. clear Pr M.
      enough (E : forall l, lsum l (fun '(r, p) =>
        - lsum (conditions (at_time s t) (the_part U r p)) (fun '(fs, flux_at) => lsum fs (flux_through flux_at k))
        - lsum (g_ghost_faces p) (fun f => flux_through upwind_at k (the_face U r f)))
        = - lsum l (fun '(r, p) => lsum (conditions (at_time s t) (the_part U r p)) (fun '(fs, flux_at) => lsum fs (flux_through flux_at k)))
          - lsum l G) by (rewrite E, Z; ring).
      induction l as [|[r p] l IH]; cbn [lsum]; [ring|]. rewrite IH. unfold G at 2. ring.
    - intros [r p] I. apply part_balance; [apply in_ranked, I|exact L].
  Qed.

  (** the content of a cell is that of the first coefficient *)
  Lemma content_first U k r p g : nth_error parts r = Some p -> In g (g_local_cells p) -> forall phi, phi <> 0 ->
    (forall x, g_basis g x 0%nat = phi) ->
    (forall j, (j < N)%nat ->
          rsum (g_points g) (fun q => g_weight g q * (g_basis g (g_coord g q) 0%nat * g_basis g (g_coord g q) j))
          = if (j =? 0)%nat then 1 else 0) ->
    content K N U k r g = U (r, (K * N * g_id g + k)%nat) / phi.
  Proof.
    intros E I phi Z F O. unfold content, value_of.
    rewrite (rsum_ext _ _ (fun q => rsum N (fun j => U (r, (K * N * g_id g + (j * K + k))%nat) / phi *
       (g_weight g q * (g_basis g (g_coord g q) 0%nat * g_basis g (g_coord g q) j))))).
    - rewrite rsum_swap.
      rewrite (rsum_ext N _ (fun j => if (j =? 0)%nat then U (r, (K * N * g_id g + k)%nat) / phi else 0)).
      + destruct N as [|n]; [lia|]. rewrite (rsum_lsum (S n)). cbn [seq lsum Nat.eqb].
        assert (forall a m, (0 < a)%nat -> lsum (seq a m) (fun j => if (j =? 0)%nat then U (r, (K * S n * g_id g + k)%nat) / phi else 0) = 0) as ->.
        { intros a m. revert a. induction m as [|m IH]; intros a La; cbn [seq lsum]; [reflexivity|].
          rewrite IH by lia. destruct a; [lia|]. cbn. ring. }
        * ring.
        * lia.
      + intros j Lj. rewrite rsum_mul_l, O by exact Lj. destruct (Nat.eqb_spec j 0) as [->|D]; [|ring].
        cbn [Nat.mul Nat.add]. ring.
    - intros q Lq. rewrite <- rsum_mul_l. apply rsum_ext. intros j Lj. rewrite F. field. exact Z.
  Qed.

  Section Limiter.
    Variable cells : list nat.
    Variable owner number : nat -> nat.
    Variable adj : nat -> list nat.
    Variable ins : memory coeff -> nat -> bool.
    Variable lim : memory coeff -> nat -> coeff.
    Variable stale : nat -> memory coeff.
    Hypothesis keeps : forall m c k, In c cells -> (k < K)%nat -> lim m c k 0%nat = m c k 0%nat.

    Lemma Reconstruct_first U c k : In c cells -> (k < K)%nat ->
      Reconstruct ins lim cells adj owner kDegrees stale U c k 0%nat = U c k 0%nat.
    Proof.
      intros I L. destruct (Nat.eq_dec kDegrees 0) as [->|D].
      { unfold Reconstruct, Reconstruct_rank. cbn. rewrite Nat.eqb_refl. reflexivity. }
      rewrite (result_eq ins lim cells adj owner stale U kDegrees D).
      assert (B : between ins lim cells adj owner stale U (owner c) c k 0%nat = U c k 0%nat).
      { destruct (between_cases ins lim cells adj owner stale U kDegrees (owner c) c) as [->|(_ & _ & _ & _ & ->)]; [reflexivity|].
        rewrite keeps by assumption. rewrite before_own. reflexivity. }
      destruct (pass_value ins lim (inter_cells cells adj owner (owner c)) (between ins lim cells adj owner stale U (owner c)) c)
        as [(_ & _ & ->)|(_ & ->)]; [rewrite keeps by assumption|]; exact B.
    Qed.

    Lemma limited_first U r i k : (k < K)%nat ->
      limited K N kDegrees cells owner number adj ins lim stale U (r, (K * N * i + k)%nat) = U (r, (K * N * i + k)%nat).
    Proof.
      intros L. unfold limited.
      destruct (find _ cells) as [c|] eqn:Fd; [|reflexivity].
      apply find_some in Fd. destruct Fd as (Ic & Q). apply andb_true_iff in Q. destruct Q as (Q1 & Q2).
      apply Nat.eqb_eq in Q1, Q2.
      assert (KN : (k < K * N)%nat) by nia.
      assert (Dv : ((K * N * i + k) / (K * N))%nat = i).
      { rewrite Nat.mul_comm. rewrite Nat.div_add_l by lia. rewrite Nat.div_small by exact KN. lia. }
      assert (Md : ((K * N * i + k) mod (K * N))%nat = k).
      { rewrite Nat.add_comm, Nat.mul_comm. rewrite Nat.mod_add by lia. apply Nat.mod_small, KN. }
      rewrite Dv in Q2. rewrite Md, Nat.mod_small, Nat.div_small by exact L.
      rewrite Reconstruct_first by assumption. unfold coeff_of. rewrite Q1, Q2. reflexivity.
    Qed.

    Lemma limited_keeps : keeps_contents K N parts (limited K N kDegrees cells owner number adj ins lim stale).
    Proof.
      intros U r p g k E I L. destruct (M r p E) as (_ & B). destruct (B g I) as (phi & Z & F & _ & O).
      rewrite !(content_first _ k r p g E I phi Z F O). rewrite limited_first by exact L. reflexivity.
    Qed.
  End Limiter.
End Mesh.
