From Coq Require Import Reals List Arith Lia Lra.
From Verif Require Import Vec3 Arrays RSum Model_Geometry Model_Basis Model_Nodal Model_Dofs Model_DG Model_Diffusive Model_Schemes
  Model_Damping Spec_DG Spec_Schemes Spec_Damping Proof_Dofs Proof_DG Proof_Schemes.
Import ListNotations.
Open Scope R_scope.

Lemma dot_rmul v m w : dot (rmul v m) w = dot v (mcol m w).
Proof. destruct v as [v1 v2 v3], m as [[a1 a2 a3] [b1 b2 b3] [c1 c2 c3]], w as [w1 w2 w3]. unfold dot, rmul, mcol, vadd, vscale, dot. cbn [r0 r1 r2 vx vy vz]. ring. Qed.
Lemma dot_sum3 n (f g h : nat -> R) w :
  dot (V (rsum n f) (rsum n g) (rsum n h)) w = rsum n (fun i => dot (V (f i) (g i) (h i)) w).
Proof.
  unfold dot. cbn [vx vy vz]. rewrite <- !rsum_mul_r, <- !rsum_add. reflexivity.
Qed.
Lemma mapM_some {A B} (f : A -> option B) (l : list A) : (forall x, In x l -> exists y, f x = Some y) ->
  exists r, mapM f l = Some r.
Proof.
  induction l as [|x l IH]; intros H; [exists []; reflexivity|]. cbn [mapM].
  destruct (H x) as (y & ->); [left; reflexivity|]. cbn.
  destruct IH as (r & ->); [intros z I; apply H; right; exact I|]. exists (y :: r). reflexivity.
Qed.

(** cells whose gradients and residuals are linear *)
Section Cell.
  Variables K N : nat.
  Variable c : dcell.
  Variables G W : nat -> nat -> vec.
  Definition linear_cell : Prop :=
    (forall u q, (q < d_points c)%nat -> exists g, d_gradient c u q = Some g
       /\ forall r w, dot (g r) w = rsum N (fun i => u r i * dot (G q i) w))
    /\ (forall F, exists m, d_divergence c F (fun _ => 0) = Some m
       /\ forall r j, (r < K)%nat -> (j < N)%nat -> m (K * j + r)%nat = rsum (d_points c) (fun q => dot (F q r) (W q j))).
  Definition entry (j i : nat) : R := - rsum (d_points c) (fun q => dot (G q i) (W q j)).
  Hypothesis H : linear_cell.

  Lemma linear_residual u F m : (forall q, (q < d_points c)%nat -> exists g, d_gradient c u q = Some g /\ forall r, F q r = vneg (g r)) ->
    d_divergence c F (fun _ => 0) = Some m ->
    forall r j, (r < K)%nat -> (j < N)%nat -> m (K * j + r)%nat = rsum N (fun i => entry j i * u r i).
  Proof.
    intros Fg E r j R J. pose proof H as [Hg Hd]. destruct (Hd F) as (m' & E' & V'). rewrite E in E'. injection E' as <-.
    rewrite V' by assumption. unfold entry.
    rewrite (rsum_ext N _ (fun i => rsum (d_points c) (fun q => - (u r i * dot (G q i) (W q j))))).
    2:{ intros i _. rewrite rsum_opp. rewrite rsum_mul_l. ring. }
    rewrite rsum_swap. apply rsum_ext. intros q Q. rewrite rsum_opp.
    destruct (Fg q Q) as (g & Eg & Fr). destruct (Hg u q Q) as (g' & Eg' & L). rewrite Eg in Eg'. injection Eg' as <-.
    rewrite Fr, <- L. destruct (g r) as [x1 x2 x3], (W q j) as [y1 y2 y3]. unfold dot, vneg. cbn [vx vy vz]. ring.
  Qed.

  Lemma diffusive_flux u q : (q < d_points c)%nat -> exists F, GetDiffusiveFluxMatrix (isotropic 1) c u q = Some F
    /\ exists g, d_gradient c u q = Some g /\ forall r, F r = vneg (g r).
  Proof.
    intros Q. pose proof H as [Hg _]. destruct (Hg u q Q) as (g & Eg & _). unfold GetDiffusiveFluxMatrix. rewrite Eg. cbn [bind].
    eexists. split; [reflexivity|]. exists g. split; [reflexivity|]. intros r.
    unfold MinusViscousFluxMatrix, isotropic, vneg, v0. cbn [vx vy vz]. f_equal; ring.
  Qed.
  Lemma element_residual_some u : exists m, element_residual (isotropic 1) c u = Some m /\ diffusive_residual c u m.
  Proof.
    unfold element_residual, diffusive_residual.
    destruct (mapM_some (GetDiffusiveFluxMatrix (isotropic 1) c u) (seq 0 (d_points c))) as (fs & E).
    { intros q I. apply in_seq in I. destruct (diffusive_flux u q) as (F & E & _); [lia|]. exists F. exact E. }
    rewrite E. cbn [bind]. pose proof H as [_ Hd]. destruct (Hd (fun q => nth q fs (fun _ => v0))) as (m & Em & _).
    exists m. split; [exact Em|]. exists (fun q => nth q fs (fun _ => v0)). split; [|exact Em].
    intros q Q. destruct (diffusive_flux u q Q) as (F & EF & g & Eg & Fr). exists g. split; [exact Eg|].
    pose proof (mapM_nth _ _ _ q q E (nth_error_seq 0 (d_points c) q Q)) as X. rewrite EF in X.
    destruct X as (y & X1 & X2). injection X1 as ->. rewrite (nth_error_nth _ _ _ X2). exact Fr.
  Qed.
  Lemma entry_damps : damps K N c entry.
  Proof.
    intros u. destruct (element_residual_some u) as (m & _ & D). exists m. split; [exact D|]. intros r j R J.
    destruct D as (F & Fg & E). exact (linear_residual u F m Fg E r j R J).
  Qed.
  Lemma residual_entry u m r j : diffusive_residual c u m -> (r < K)%nat -> (j < N)%nat ->
    m (K * j + r)%nat = rsum N (fun i => entry j i * u r i).
  Proof. intros (F & Fg & E) R J. exact (linear_residual u F m Fg E r j R J). Qed.

  (** any matrix that damps is this one *)
  Lemma damps_entry D j i : (0 < K)%nat -> damps K N c D -> (j < N)%nat -> (i < N)%nat -> D j i = entry j i.
  Proof.
    intros K0 X J I. destruct (X (fun _ k => if (k =? i)%nat then 1 else 0)) as (m & Rs & E).
    pose proof (E 0%nat j K0 J) as E1. rewrite (residual_entry _ _ _ _ Rs K0 J) in E1.
    assert (P : forall f : nat -> R, rsum N (fun k => f k * (if (k =? i)%nat then 1 else 0)) = f i).
    { intros f. rewrite (rsum_single N i); [|exact I|intros k _ Z; destruct (Nat.eqb_spec k i); [contradiction|ring]].
      rewrite Nat.eqb_refl. ring. }
    rewrite !P in E1. symmetry. exact E1.
  Qed.

  (** ** Building the matrix *)
  Lemma rows_agree_true m : (0 < K)%nat -> (forall r j, (r < K)%nat -> (j < N)%nat -> m (K * j + r)%nat = m (K * j)%nat) ->
    rows_agree K N m = true.
  Proof.
    intros K0 X. unfold rows_agree. apply forallb_forall. intros r I. apply in_seq in I.
    destruct (Req_EM_T _ 0) as [|Z]; [reflexivity|]. elim Z. apply rsum_zero. intros j J. rewrite X by lia. ring.
  Qed.

  (** the solution before column [i] is built *)
  Definition before (i : nat) : coeff := fun r j => if (S j =? i)%nat then 1 else 0.
  Definition unit_coeff (i : nat) : coeff := before (S i).

  Lemma build_column_some s m i : (0 < K)%nat -> nu_ s = isotropic 1 -> (i < N)%nat ->
    (forall r j, (j < N)%nat -> coeffs s (d_ptr c) r j = before i r j) ->
    exists s' m', build_column K N c (s, m) i = Some (s', m')
      /\ nu_ s' = isotropic 1
      /\ (forall p, p <> d_ptr c -> coeffs s' p = coeffs s p)
      /\ (forall r j, (j < N)%nat -> coeffs s' (d_ptr c) r j = before (S i) r j)
      /\ (forall j k, (j < N)%nat -> (k < N)%nat -> m' j k = if (k =? i)%nat then entry j i else m j k).
  Proof.
    intros K0 Nu I B. unfold build_column.
    set (sol := if (0 <? i)%nat then set_col 0 (i - 1) (set_col 1 i (coeffs s (d_ptr c))) else set_col 1 i (coeffs s (d_ptr c))).
    assert (SO : forall r j, (j < N)%nat -> sol r j = before (S i) r j).
    { intros r j J. unfold sol, set_col, before. destruct (Nat.ltb_spec 0 i) as [L|L].
      - destruct (Nat.eqb_spec j (i - 1)) as [->|X1].
        + replace (S (i - 1) =? S i)%nat with false by (symmetry; apply Nat.eqb_neq; lia). reflexivity.
        + destruct (Nat.eqb_spec j i) as [->|X2]; [rewrite Nat.eqb_refl; reflexivity|].
          rewrite B by exact J. unfold before.
          replace (S j =? i)%nat with false by (symmetry; apply Nat.eqb_neq; lia).
          replace (S j =? S i)%nat with false by (symmetry; apply Nat.eqb_neq; lia). reflexivity.
      - destruct (Nat.eqb_spec j i) as [->|X2]; [rewrite Nat.eqb_refl; reflexivity|].
        rewrite B by exact J. unfold before.
        replace (S j =? i)%nat with false by (symmetry; apply Nat.eqb_neq; lia).
        replace (S j =? S i)%nat with false by (symmetry; apply Nat.eqb_neq; lia). reflexivity. }
    change (nu_ (set_coeff s (d_ptr c) sol)) with (nu_ s). rewrite Nu.
    destruct (element_residual_some sol) as (res & E & D). rewrite E. cbn [bind].
    assert (V1 : forall r j, (r < K)%nat -> (j < N)%nat -> res (K * j + r)%nat = entry j i).
    { intros r j R J. rewrite (residual_entry _ _ _ _ D R J).
      rewrite (rsum_single N i); [|exact I|intros k Lk Z; rewrite SO by exact Lk; unfold before].
      - rewrite SO by exact I. unfold before. rewrite Nat.eqb_refl. ring.
      - replace (S k =? S i)%nat with false by (symmetry; apply Nat.eqb_neq; lia). ring. }
    assert (V0 : forall j, (j < N)%nat -> res (K * j)%nat = entry j i).
    { intros j J. rewrite <- (V1 0%nat j K0 J). f_equal. lia. }
    rewrite rows_agree_true; [|exact K0|intros r j R J; rewrite V1, V0 by assumption; reflexivity].
    eexists _, _. split; [reflexivity|].
    split; [exact Nu|]. split; [|split].
    - intros p Z. cbn [coeffs set_coeff]. apply Nat.eqb_neq in Z. rewrite Z. reflexivity.
    - intros r j J. cbn [coeffs set_coeff]. rewrite Nat.eqb_refl. apply SO. exact J.
    - intros j k J _. cbv beta. destruct (k =? i)%nat; [apply V0; exact J|reflexivity].
  Qed.

  Lemma build_columns s m : (0 < K)%nat -> nu_ s = isotropic 1 -> coeffs s (d_ptr c) = zero_coeff -> forall n, (n <= N)%nat ->
    exists s' m', foldM (build_column K N c) (seq 0 n) (s, m) = Some (s', m')
      /\ nu_ s' = isotropic 1
      /\ (forall p, p <> d_ptr c -> coeffs s' p = coeffs s p)
      /\ (forall r j, (j < N)%nat -> coeffs s' (d_ptr c) r j = before n r j)
      /\ (forall j k, (j < N)%nat -> (k < n)%nat -> m' j k = entry j k).
  Proof.
    intros K0 Nu Z. induction n as [|n IH]; intros L.
    - exists s, m. split; [reflexivity|]. split; [exact Nu|]. split; [reflexivity|]. split; [|intros; lia].
      intros r j J. rewrite Z. reflexivity.
    - destruct IH as (s1 & m1 & E1 & N1 & O1 & B1 & M1); [lia|].
      destruct (build_column_some s1 m1 n K0 N1 ltac:(lia) B1) as (s2 & m2 & E2 & N2 & O2 & B2 & M2).
      exists s2, m2. split.
      { rewrite seq_S. assert (FA : forall l x st, foldM (build_column K N c) (l ++ [x]) st
            = bind (foldM (build_column K N c) l st) (fun st => build_column K N c st x)).
        { induction l as [|y l IHl]; intros x st; cbn [foldM app bind].
          - destruct (build_column K N c st x); reflexivity.
          - destruct (build_column K N c st y); cbn [bind]; [apply IHl|reflexivity]. }
        rewrite FA, E1. cbn [bind]. exact E2. }
      split; [exact N2|]. split; [intros p P; rewrite O2, O1 by exact P; reflexivity|]. split; [exact B2|].
      intros j k J Kk. rewrite M2 by lia. destruct (Nat.eqb_spec k n) as [->|X]; [reflexivity|]. apply M1; lia.
  Qed.
End Cell.

(** ** The cells of the schemes are linear *)
Section Schemes.
  Variables K N : nat.

  Lemma address_0 j r : address K N 0 j r = (K * j + r)%nat.
  Proof. unfold address. lia. Qed.
  Lemma meffect_0 g E : meffect K N g E -> exists m, g (fun _ => 0) = Some m
    /\ forall r j, (r < K)%nat -> (j < N)%nat -> m (K * j + r)%nat = E 0%nat j r.
  Proof.
    intros H. destruct (H (fun _ => 0)) as (m & E1 & V1). exists m. split; [exact E1|]. intros r j R J.
    rewrite <- address_0, V1 by assumption. ring.
  Qed.
  Lemma if_id_0 x : if_id 0 0 x = x.
  Proof. reflexivity. Qed.

  Lemma add_effect_0 x : mem_effect K N (AddCoeffTo K N x 0) (fun i j k => if_id 0 i (x k j)).
  Proof. pose proof (add_effect K N x 0) as P. rewrite Nat.mul_0_r in P. exact P. Qed.
  Lemma minus_effect_0 v b : (b < N)%nat -> meffect K N (MinusValue K N v 0 b) (fun i j k => if_id 0 i (if (b =? j)%nat then - v k else 0)).
  Proof. intros B. pose proof (minus_value_effect K N v 0 b B) as P. rewrite Nat.mul_0_r in P. exact P. Qed.

  Definition dg_G (c : cell) (q i : nat) : vec := c_gradients c (c_coord c q) i.
  Definition dg_W (c : cell) (q j : nat) : vec := vscale (c_weight c q) (c_gradients c (c_coord c q) j).
  Lemma dg_linear ptr adj c : linear_cell K N (dg_cell K N ptr adj c) (dg_G c) (dg_W c).
  Proof.
    split.
    - intros u q Q. eexists. split; [reflexivity|]. intros r w. cbv beta. rewrite dot_sum3. apply rsum_ext. intros i _.
      unfold dg_G, dot. cbn [vx vy vz]. ring.
    - intros F. cbn [d_divergence dg_cell d_points].
      destruct (meffect_0 (fun m => Some (AddFluxDivergence_cell K N (with_flux c F) 0 m))
        (fun i j k => rsum (c_points c) (fun q => if_id 0 i (dot (vscale (c_weight c q) (F q k)) (c_gradients c (c_coord c q) j))))) as (m & E & V1).
      + apply meffect_total. unfold AddFluxDivergence_cell.
        apply (for_q_effect K N (c_points c) _ (fun q i j k => if_id 0 i (dot (vscale (c_weight c q) (F q k)) (c_gradients c (c_coord c q) j)))).
        intros q. cbn [c_coord c_weight c_flux c_gradients with_flux c_points]. apply add_effect_0.
      + exists m. split; [exact E|]. intros r j R J. rewrite V1 by assumption. apply rsum_ext. intros q _. rewrite if_id_0.
        unfold dg_W. destruct (F q r) as [x1 x2 x3], (c_gradients c (c_coord c q) j) as [y1 y2 y3]. unfold dot, vscale. cbn [vx vy vz]. ring.
  Qed.

  Lemma gradients_some b q : (2 <= length (b_x b) -> 2 <= length (b_y b) -> 2 <= length (b_z b) ->
    exists rows, basis_local_gradients b q = Some rows)%nat.
  Proof.
    intros X Y Z. unfold basis_local_gradients, GetDerivatives_at, GetDerivatives, orders_ok.
    destruct (Nat.ltb_spec 1 (length (b_x b))); [|lia]. destruct (Nat.ltb_spec 1 (length (b_y b))); [|lia].
    destruct (Nat.ltb_spec 1 (length (b_z b))); [|lia].
    destruct (Nat.ltb_spec 0 (length (b_x b))); [|lia]. destruct (Nat.ltb_spec 0 (length (b_y b))); [|lia].
    destruct (Nat.ltb_spec 0 (length (b_z b))); [|lia]. cbn. eexists. reflexivity.
  Qed.

  (** the gradient at point [q] of the function number [i] *)
  Definition local_rows (p : Nodal) (q i : nat) : vec :=
    match basis_local_gradients (n_basis p) q with Some rows => column3 rows i | None => v0 end.
  Definition nodal_G (kLocal : bool) (p : Nodal) (q i : nat) : vec :=
    if kLocal then
      vscale (/ (jacobian_det p q * jacobian_det p q)) (mcol (jacobian_det_inv p q)
        (vsub (local_rows p q i) (vscale (if (i =? q)%nat then / jacobian_det p q else 0) (jacobian_det_grad p q))))
    else mcol (minv (jacobian p (point p q))) (local_rows p q i).
  Definition lobatto_W (kLocal : bool) (w : nat -> R) (p : Nodal) (q j : nat) : vec :=
    if kLocal then vscale (w q) (mcol (jacobian_det_inv p q) (local_rows p q j))
    else vscale (w q * jacobian_det p q) (mcol (minv (jacobian p (point p q))) (local_rows p q j)).
  Definition fr_W (p : Nodal) (q j : nat) : vec := vneg (mcol (jacobian_det_inv p q) (local_rows p j q)).

  Lemma dot_mcol m v w : dot (mcol m v) w = dot v (rmul w m).
  Proof. destruct v as [v1 v2 v3], m as [[a1 a2 a3] [b1 b2 b3] [c1 c2 c3]], w as [w1 w2 w3]. unfold dot, rmul, mcol, vadd, vscale, dot. cbn [r0 r1 r2 vx vy vz]. ring. Qed.

  Lemma nodal_linear_gradient (kLocal : bool) (p : Nodal) (u : coeff) q : two_points N p -> (q < N)%nat ->
    exists g : gradient, (if kLocal then nodal_gradient p else nodal_gradient_global p) u q = Some g
      /\ forall r w, dot (g r) w = rsum N (fun i => u r i * dot (nodal_G kLocal p q i) w).
  Proof.
    intros ((X & Y & Z) & EN) Q. destruct (gradients_some (n_basis p) q X Y Z) as (rows & ER). unfold nodal_G, local_rows.
    destruct kLocal.
    - unfold nodal_gradient. cbn [n_basis with_coeff]. rewrite ER. cbn [option_map]. eexists. split; [reflexivity|].
      intros r w. unfold GetGlobalGradient_with, GetValue. cbn [n_coeff with_coeff].
      change (jacobian_det (with_coeff p u) q) with (jacobian_det p q).
      change (jacobian_det_inv (with_coeff p u) q) with (jacobian_det_inv p q).
      change (jacobian_det_grad (with_coeff p u) q) with (jacobian_det_grad p q).
      set (J := jacobian_det p q). set (g := jacobian_det_grad p q). set (A := jacobian_det_inv p q).
      rewrite dot_mcol. set (w' := rmul w A).
      rewrite (rsum_ext N _ (fun i => u r i * dot (vscale (/ (J * J)) (column3 rows i)) w'
                 + (if (i =? q)%nat then u r i * - (/ (J * J) * / J * dot g w') else 0))).
      2:{ intros i _. replace (dot (vscale (/ (J * J)) (mcol A (vsub (column3 rows i) (vscale (if (i =? q)%nat then / J else 0) g)))) w)
            with (/ (J * J) * dot (vsub (column3 rows i) (vscale (if (i =? q)%nat then / J else 0) g)) w')
            by (unfold w'; rewrite <- dot_mcol; generalize (mcol A (vsub (column3 rows i) (vscale (if (i =? q)%nat then / J else 0) g)));
                intros [x1 x2 x3]; unfold dot, vscale; cbn [vx vy vz]; ring).
          destruct (i =? q)%nat; destruct (column3 rows i) as [x1 x2 x3], g as [y1 y2 y3], w' as [z1 z2 z3]; unfold dot, vsub, vscale; cbn [vx vy vz]; ring. }
      rewrite rsum_add. rewrite (rsum_single N q (fun i => if (i =? q)%nat then u r i * - (/ (J * J) * / J * dot g w') else 0)) by
        (try exact Q; intros i _ D; apply Nat.eqb_neq in D; rewrite D; reflexivity).
      rewrite Nat.eqb_refl. unfold sum_columns. cbn [n_basis with_coeff n_coeff]. rewrite EN.
      rewrite (rsum_ext N (fun i => u r i * dot (vscale (/ (J * J)) (column3 rows i)) w')
        (fun i => / (J * J) * dot (V (vx (column3 rows i) * u r i) (vy (column3 rows i) * u r i) (vz (column3 rows i) * u r i)) w')).
      2:{ intros i _. unfold dot, vscale. cbn [vx vy vz]. ring. }
      rewrite rsum_mul_l, <- dot_sum3. generalize (V (rsum N (fun abc => vx (column3 rows abc) * u r abc))
        (rsum N (fun abc => vy (column3 rows abc) * u r abc)) (rsum N (fun abc => vz (column3 rows abc) * u r abc))).
      intros s. destruct s as [x1 x2 x3], g as [y1 y2 y3], w' as [z1 z2 z3]. unfold dot, vsub, vscale, Rdiv. cbn [vx vy vz]. ring.
    - unfold nodal_gradient_global, basis_global_gradients. cbn [n_basis with_coeff]. rewrite ER. cbn [option_map]. eexists. split; [reflexivity|].
      intros r w. cbn [n_coeff with_coeff]. rewrite EN. rewrite dot_sum3. apply rsum_ext. intros i _.
      unfold LocalGradientsToGlobalGradients. change (jacobian (with_coeff p u) (point (with_coeff p u) q)) with (jacobian p (point p q)).
      generalize (mcol (minv (jacobian p (point p q))) (column3 rows i)). intros [x1 x2 x3]. unfold dot. cbn [vx vy vz]. ring.
  Qed.

  Lemma lobatto_linear kLocal ptr adj id w p : two_points N p ->
    linear_cell K N (lobatto_cell K N kLocal ptr adj id w p) (nodal_G kLocal p) (lobatto_W kLocal w p).
  Proof.
    intros T. split.
    - intros u q Q. cbn [lobatto_cell d_points d_gradient] in *. apply (nodal_linear_gradient kLocal p u q T).
      destruct T as (_ & <-). exact Q.
    - intros F. cbn [d_divergence lobatto_cell d_points].
      set (c := nodal_cell kLocal id w p).
      destruct (meffect_0 (fun m => DGL_divergence K N kLocal (fun _ => F) c 0 m)
        (fun i j k => rsum (nc_points c) (fun q => if_id 0 i (dot (GetWeightedFluxMatrix kLocal (fun _ => F) c q k) (nc_gradients c q j))))) as (m & E & V1).
      + apply meffect_total.
        apply (for_q_effect K N (nc_points c) _ (fun q i j k => if_id 0 i (dot (GetWeightedFluxMatrix kLocal (fun _ => F) c q k) (nc_gradients c q j)))).
        intros q. apply add_effect_0.
      + exists m. split; [exact E|]. intros r j R J. rewrite V1 by assumption.
        assert (NP : nc_points c = b_N (n_basis p)) by (unfold c, nodal_cell; destruct kLocal; reflexivity).
        rewrite NP. apply rsum_ext. intros q Q. rewrite if_id_0. destruct T as ((X & Y & Z) & EN).
        destruct (gradients_some (n_basis p) q X Y Z) as (rows & ER).
        unfold c, nodal_cell, GetWeightedFluxMatrix, GetWeight, lobatto_W, local_rows. destruct kLocal.
        * cbn [hexa_cell nc_local_weight nc_associated nc_gradients]. rewrite ER.
          replace (dot (vscale (w q) (rmul (F q r) (jacobian_det_inv p q))) (column3 rows j))
            with (w q * dot (rmul (F q r) (jacobian_det_inv p q)) (column3 rows j))
            by (unfold dot, vscale; cbn [vx vy vz]; ring).
          rewrite dot_rmul. unfold dot, vscale; cbn [vx vy vz]; ring.
        * cbn [hexa_cell_global nc_global_weight nc_gradients]. unfold basis_global_gradients. rewrite ER. cbn [option_map].
          unfold LocalGradientsToGlobalGradients. generalize (mcol (minv (jacobian p (point p q))) (column3 rows j)).
          intros v. unfold dot, vscale; cbn [vx vy vz]; ring.
  Qed.

  Lemma fold_sum (f : nat -> R) n x : fold_left (fun v k => v + f k) (seq 1 n) x = x + rsum n (fun k => f (S k)).
  Proof.
    induction n as [|n IH]; [cbn; ring|]. rewrite seq_S, fold_left_app, IH. cbn [fold_left rsum]. replace (1 + n)%nat with (S n) by lia. ring.
  Qed.
  Lemma fr_linear ptr adj id w p : two_points N p ->
    linear_cell K N (fr_cell K N ptr adj id w p) (nodal_G true p) (fr_W p).
  Proof.
    intros T. split.
    - intros u q Q. cbn [fr_cell d_points d_gradient] in *. apply (nodal_linear_gradient true p u q T).
      destruct T as (_ & <-). exact Q.
    - intros F. cbn [d_divergence fr_cell d_points].
      set (c := hexa_cell id w p). set (fl := fun q r => rmul (F q r) (nc_associated c q)).
      set (v := fun q r => fold_left (fun v k => v + dot (fl k r) (nc_gradients c q k)) (seq 1 (nc_points c - 1)) (dot (fl 0%nat r) (nc_gradients c q 0%nat))).
      pose proof T as ((X & Y & Z) & EN).
      assert (NP : nc_points c = N) by exact EN.
      destruct (meffect_0 (fun m => FR_AddFluxDivergence K N c F 0 m)
        (fun i j k => rsum (nc_points c) (fun q => if_id 0 i (if (q =? j)%nat then - v q k else 0)))) as (m & E & V1).
      + unfold FR_AddFluxDivergence. apply (meffect_seq K N (fun m q => MinusValue K N (v q) 0 q m) (nc_points c)).
        intros q Q. apply minus_effect_0. rewrite <- NP. exact Q.
      + exists m. split; [exact E|]. intros r j R J. rewrite V1 by assumption.
        rewrite NP. rewrite (rsum_single N j) by (try exact J; intros k _ D; apply Nat.eqb_neq in D; rewrite D; reflexivity).
        rewrite if_id_0, Nat.eqb_refl. unfold v. rewrite fold_sum. rewrite NP.
        rewrite EN. rewrite <- (rsum_first (N - 1) (fun k => dot (fl k r) (nc_gradients c j k))).
        replace (S (N - 1)) with N by lia. rewrite <- rsum_opp. apply rsum_ext. intros q Q.
        unfold fl, c, fr_W, local_rows. cbn [hexa_cell nc_associated nc_gradients].
        destruct (gradients_some (n_basis p) j X Y Z) as (rows & ER). rewrite ER. rewrite dot_rmul.
        unfold dot, vneg; cbn [vx vy vz]; ring.
  Qed.

  Lemma scheme_linear d : scheme_cell K N d -> exists G W, linear_cell K N d G W.
  Proof.
    intros [(ptr & adj & c & ->)|[(kL & ptr & adj & id & w & p & -> & T)|(ptr & adj & id & w & p & -> & T)]].
    - eexists _, _. apply dg_linear.
    - eexists _, _. apply lobatto_linear. exact T.
    - eexists _, _. apply fr_linear. exact T.
  Qed.
End Schemes.
