From Coq Require Import Reals List Arith Lia Lra.
From Verif Require Import Vec3 Arrays RSum Model_Geometry Model_Basis Model_Nodal Model_Dofs Model_DG Model_Diffusive Model_Schemes
  Model_Damping Spec_Basis Spec_Nodal Spec_Damping Proof_Lagrange Proof_Chain Proof_Vincent Proof_Geometry Proof_NodalBasis Proof_Nodal Proof_FRMain Proof_Damping.
Import ListNotations.
Open Scope R_scope.

Section Build.
  Variables K N : nat.
  Hypothesis K0 : (0 < K)%nat.

  Lemma zero_adj l : forall s p, coeffs (fold_left (fun s neighbor => set_coeff s neighbor zero_coeff) l s) p
    = if existsb (Nat.eqb p) l then zero_coeff else coeffs s p.
  Proof.
    induction l as [|a l IH]; intros s p; [reflexivity|]. cbn [fold_left existsb]. rewrite IH. cbn [coeffs set_coeff].
    destruct (existsb (Nat.eqb p) l); [rewrite Bool.orb_true_r; reflexivity|]. rewrite Bool.orb_false_r. reflexivity.
  Qed.
  Lemma zero_adj_nu l : forall s, nu_ (fold_left (fun s neighbor => set_coeff s neighbor zero_coeff) l s) = nu_ s.
  Proof. induction l as [|a l IH]; intros s; [reflexivity|]. cbn [fold_left]. rewrite IH. reflexivity. Qed.
  Lemma existsb_in p l : existsb (Nat.eqb p) l = true <-> In p l.
  Proof.
    rewrite existsb_exists. split; [intros (x & I & E); apply Nat.eqb_eq in E; subst; exact I|].
    intros I. exists p. split; [exact I|apply Nat.eqb_refl].
  Qed.

  (** the coefficients after the matrix of a cell has been built *)
  Definition touched (c : dcell) (p : nat) : Prop := p = d_ptr c \/ In p (d_adj c).
  Definition left_by (c : dcell) (s s' : state) : Prop :=
    (forall r j, (j < N)%nat -> coeffs s' (d_ptr c) r j = if (S j =? N)%nat then 1 else 0)
    /\ (forall p, In p (d_adj c) -> p <> d_ptr c -> coeffs s' p = zero_coeff)
    /\ (forall p, ~ touched c p -> coeffs s' p = coeffs s p).

  Lemma build_matrix_some s ms c : scheme_cell K N c -> nu_ s = isotropic 1 -> (d_id c < List.length ms)%nat ->
    exists s' D, build_matrix K N (s, ms) c = Some (s', upd ms (d_id c) D)
      /\ nu_ s' = isotropic 1 /\ left_by c s s' /\ damps K N c D.
  Proof.
    intros S Nu L. destruct (scheme_linear K N c S) as (G & W & H). unfold build_matrix.
    set (s1 := fold_left (fun s neighbor => set_coeff s neighbor zero_coeff) (d_adj c) s).
    destruct (nth_error_lt_some ms (d_id c) L) as (m & Em). rewrite Em. cbn [bind].
    destruct (build_columns K N c G W H (set_coeff s1 (d_ptr c) zero_coeff) m K0) with (n := N) as (s' & D & E & N' & O & B & M).
    - cbn [nu_ set_coeff]. unfold s1. rewrite zero_adj_nu. exact Nu.
    - cbn [coeffs set_coeff]. rewrite Nat.eqb_refl. reflexivity.
    - lia.
    - rewrite E. cbn [bind fst snd]. unfold upd_opt. apply Nat.ltb_lt in L. rewrite L. cbn [bind].
      exists s', D. split; [reflexivity|]. split; [exact N'|]. split; [split; [|split]|].
      + intros r j J. rewrite B by exact J. reflexivity.
      + intros p I X. rewrite O by exact X. cbn [coeffs set_coeff]. apply Nat.eqb_neq in X. rewrite X.
        unfold s1. rewrite zero_adj. apply existsb_in in I. rewrite I. reflexivity.
      + intros p T. assert (X : p <> d_ptr c) by (intros Z; apply T; left; exact Z). rewrite O by exact X.
        cbn [coeffs set_coeff]. apply Nat.eqb_neq in X. rewrite X. unfold s1. rewrite zero_adj.
        destruct (existsb (Nat.eqb p) (d_adj c)) eqn:I; [|reflexivity]. elim T. right. apply existsb_in. exact I.
      + intros u. destruct (entry_damps K N c G W H u) as (r & D1 & D2). exists r. split; [exact D1|].
        intros k j Kk J. rewrite D2 by assumption. apply rsum_ext. intros i I. rewrite M by assumption. reflexivity.
  Qed.

  Definition out_of_touch (l : list dcell) (p : nat) : Prop := forall c, In c l -> ~ touched c p.

  Lemma build_all : forall cells s ms, (forall c, In c cells -> scheme_cell K N c) -> NoDup (map d_id cells) ->
    nu_ s = isotropic 1 -> (forall c, In c cells -> (d_id c < List.length ms)%nat) ->
    exists s' ms', foldM (build_matrix K N) cells (s, ms) = Some (s', ms')
      /\ nu_ s' = isotropic 1 /\ List.length ms' = List.length ms
      /\ (forall c, In c cells -> exists D, nth_error ms' (d_id c) = Some D /\ damps K N c D)
      /\ (forall i, ~ In i (map d_id cells) -> nth_error ms' i = nth_error ms i)
      /\ (forall p, out_of_touch cells p -> coeffs s' p = coeffs s p)
      /\ (forall l1 c l2 p, cells = l1 ++ c :: l2 -> out_of_touch l2 p -> touched c p ->
            forall r j, (j < N)%nat -> coeffs s' p r j = if ((p =? d_ptr c) && (S j =? N))%nat%bool then 1 else 0).
  Proof.
    induction cells as [|c cells IH]; intros s ms S ND Nu L.
    - exists s, ms. split; [reflexivity|]. split; [exact Nu|]. split; [reflexivity|]. split; [contradiction|].
      split; [reflexivity|]. split; [reflexivity|]. intros [|a l1] c l2 p E; discriminate.
    - cbn [map] in ND. apply NoDup_cons_iff in ND. destruct ND as [ND1 ND2].
      destruct (build_matrix_some s ms c) as (s1 & D & E1 & N1 & (B1 & B2 & B3) & DM);
        [apply S; left; reflexivity|exact Nu|apply L; left; reflexivity|].
      destruct (IH s1 (upd ms (d_id c) D)) as (s' & ms' & E & N' & Len & Ds & Os & Un & La).
      { intros x I. apply S. right. exact I. } { exact ND2. } { exact N1. }
      { intros x I. rewrite upd_length. apply L. right. exact I. }
      exists s', ms'. split; [cbn [foldM]; rewrite E1; exact E|]. split; [exact N'|].
      split; [rewrite Len; apply upd_length|]. split; [|split; [|split]].
      + intros x [<-|I]; [|apply Ds; exact I]. exists D. split; [|exact DM]. rewrite Os by exact ND1.
        apply nth_error_upd_same. apply L. left. reflexivity.
      + intros i I. rewrite Os by (intros Z; apply I; right; exact Z). apply nth_error_upd_other.
        intros Z. apply I. left. exact Z.
      + intros p O. rewrite Un by (intros x I; apply O; right; exact I). apply B3. apply O. left. reflexivity.
      + intros [|a l1] c' l2 p El O T r j J; cbn [app] in El.
        * injection El as <- <-. rewrite Un by exact O. destruct (Nat.eqb_spec p (d_ptr c)) as [->|X].
          -- rewrite B1 by exact J. reflexivity.
          -- destruct T as [T|T]; [contradiction|]. rewrite B2 by assumption. reflexivity.
        * injection El as <- El. exact (La l1 c' l2 p El O T r j J).
  Qed.

  Lemma build_total garbage cells s : cells_ok K N cells ->
    exists s' ms, BuildDampingMatrices K N garbage cells s = Some (s', ms)
      /\ nu_ s' = V 1 1 1 /\ List.length ms = List.length cells
      /\ (forall c, In c cells -> exists D, nth_error ms (d_id c) = Some D /\ damps K N c D)
      /\ (forall p, out_of_touch cells p -> coeffs s' p = coeffs s p)
      /\ (forall l1 c l2 p, cells = l1 ++ c :: l2 -> out_of_touch l2 p -> touched c p ->
            forall r j, (j < N)%nat -> coeffs s' p r j = if ((p =? d_ptr c) && (S j =? N))%nat%bool then 1 else 0).
  Proof.
    intros [S I]. unfold BuildDampingMatrices.
    destruct (build_all cells (State (coeffs s) (isotropic 1)) (repeat garbage (List.length cells)) S)
      as (s' & ms & E & N' & Len & Ds & _ & Un & La).
    - rewrite I. apply seq_NoDup.
    - reflexivity.
    - intros c C. rewrite repeat_length. apply (in_map d_id) in C. rewrite I in C. apply in_seq in C. lia.
    - exists s', ms. split; [exact E|]. split; [exact N'|]. split; [rewrite Len; apply repeat_length|].
      split; [exact Ds|]. split; [exact Un|exact La].
  Qed.

  Lemma damps_unique c D D' : scheme_cell K N c -> damps K N c D -> damps K N c D' ->
    forall j i, (j < N)%nat -> (i < N)%nat -> D j i = D' j i.
  Proof.
    intros S A B j i J I. destruct (scheme_linear K N c S) as (G & W & H).
    rewrite (damps_entry K N c G W H D j i K0 A J I). symmetry. exact (damps_entry K N c G W H D' j i K0 B J I).
  Qed.

  (** ** Energy *)
  Section Energy.
    Variables (c : dcell) (G W : nat -> nat -> vec) (weight : nat -> R).
    Hypothesis H : linear_cell K N c G W.
    Hypothesis S : forall q j, (q < d_points c)%nat -> (j < N)%nat -> W q j = vscale (weight q) (G q j).
    Variable D : nat -> nat -> R.
    Hypothesis A : damps K N c D.

    Lemma entry_weighted j i : (j < N)%nat -> (i < N)%nat -> D j i = - rsum (d_points c) (fun q => weight q * dot (G q i) (G q j)).
    Proof.
      intros J I. rewrite (damps_entry K N c G W H D j i K0 A J I). unfold entry. f_equal. apply rsum_ext. intros q Q.
      rewrite S by assumption. unfold dot, vscale. cbn [vx vy vz]. ring.
    Qed.
    Lemma symmetric j i : (j < N)%nat -> (i < N)%nat -> D j i = D i j.
    Proof.
      intros J I. rewrite !entry_weighted by assumption. f_equal. apply rsum_ext. intros q _. unfold dot. ring.
    Qed.
    Lemma dissipates u r g : (forall q, (q < d_points c)%nat -> d_gradient c u q = Some (g q)) ->
      quadratic N D (u r) = - energy (d_points c) weight (fun q => g q r).
    Proof.
      intros Eg. unfold quadratic, energy. rewrite <- rsum_opp.
      rewrite (rsum_ext N _ (fun j => rsum (d_points c) (fun q => - (weight q * (u r j * dot (G q j) (g q r)))))).
      - rewrite rsum_swap. apply rsum_ext. intros q Q. rewrite rsum_opp. f_equal. rewrite rsum_mul_l. f_equal.
        pose proof H as [Hg _]. destruct (Hg u q Q) as (g' & E1 & E2). rewrite (Eg q Q) in E1. injection E1 as <-.
        rewrite <- E2. reflexivity.
      - intros j J. rewrite (rsum_ext N _ (fun i => rsum (d_points c) (fun q => - (weight q * (u r i * dot (G q i) (G q j)))))).
        + rewrite rsum_swap. rewrite <- rsum_mul_l. apply rsum_ext. intros q Q. rewrite rsum_opp, rsum_mul_l.
          pose proof H as [Hg _]. destruct (Hg u q Q) as (g' & E1 & E2). rewrite (Eg q Q) in E1. injection E1 as <-.
          rewrite <- E2. unfold dot. ring.
        + intros i I. rewrite entry_weighted by assumption. rewrite rsum_opp.
          rewrite (rsum_ext _ (fun q => weight q * (u r i * dot (G q i) (G q j))) (fun q => weight q * dot (G q i) (G q j) * u r i))
            by (intros; ring). rewrite rsum_mul_r. ring.
    Qed.
  End Energy.

  Lemma gradient_free c D u r : scheme_cell K N c -> damps K N c D -> (r < K)%nat ->
    (forall q, (q < d_points c)%nat -> exists g, d_gradient c u q = Some g /\ g r = v0) ->
    forall j, (j < N)%nat -> rsum N (fun i => D j i * u r i) = 0.
  Proof.
    intros S A R Z j J. destruct (scheme_linear K N c S) as (G & W & H).
    destruct (A u) as (m & (F & Fg & E) & V1). rewrite <- (V1 r j R J). pose proof H as [_ Hd].
    destruct (Hd F) as (m' & E' & V'). rewrite E in E'. injection E' as <-. rewrite V' by assumption.
    apply rsum_zero. intros q Q. destruct (Fg q Q) as (g & Eg & Fr). destruct (Z q Q) as (g' & Eg' & Zr).
    rewrite Eg in Eg'. injection Eg' as <-. rewrite Fr, Zr. unfold dot, vneg, v0. cbn [vx vy vz]. ring.
  Qed.

  Lemma dg_energy ptr adj c D : damps K N (dg_cell K N ptr adj c) D ->
    (forall j i, (j < N)%nat -> (i < N)%nat -> D j i = D i j)
    /\ (forall u r g, (forall q, (q < c_points c)%nat -> d_gradient (dg_cell K N ptr adj c) u q = Some (g q)) ->
          quadratic N D (u r) = - energy (c_points c) (c_weight c) (fun q => g q r))
    /\ ((forall x, c_gradients c x 0%nat = v0) -> forall i, (0 < N)%nat -> (i < N)%nat -> D 0%nat i = 0).
  Proof.
    intros A. pose proof (dg_linear K N ptr adj c) as H.
    assert (S : forall q j, (q < d_points (dg_cell K N ptr adj c))%nat -> (j < N)%nat -> dg_W c q j = vscale (c_weight c q) (dg_G c q j)) by reflexivity.
    split; [|split].
    - exact (symmetric _ _ _ _ H S D A).
    - exact (dissipates _ _ _ _ H S D A).
    - intros Z i N0 I. rewrite (entry_weighted _ _ _ _ H S D A 0 i N0 I). unfold dg_G. rewrite rsum_zero; [ring|].
      intros q _. rewrite Z. unfold dot, v0. cbn [vx vy vz]. ring.
  Qed.

  (** ** Sums of the gradients of Lagrange polynomials *)
  Lemma values_sum p x y z : well_built p -> two_points N p -> rsum N (fun n => dB (n_basis p) 0 0 0 n x y z) = 1.
  Proof.
    intros (_ & _ & Dx & Dy & Dz & Mx & My & Mz) ((X & Y & Z) & <-). set (b := n_basis p) in *. unfold b_N.
    rewrite rsum_blocks, rsum_blocks.
    rewrite (rsum_ext _ _ (fun i => Line_value (b_x b) x i)).
    - apply Line_unity; [exact Dx|lia].
    - intros i I.
      rewrite (rsum_ext _ _ (fun j => Line_value (b_x b) x i * Line_value (b_y b) y j)).
      + rewrite rsum_mul_l, Line_unity by (try exact Dy; lia). ring.
      + intros j J. rewrite (rsum_ext _ _ (fun k => Line_value (b_x b) x i * Line_value (b_y b) y j * Line_value (b_z b) z k)).
        * rewrite rsum_mul_l, Line_unity by (try exact Dz; lia). ring.
        * intros k Kk. unfold dB.
          assert (E : Hexa_index_inv (length (b_y b)) (length (b_z b)) ((i * length (b_y b) + j) * length (b_z b) + k) = (i, j, k)).
          { replace ((i * length (b_y b) + j) * length (b_z b) + k)%nat with (Hexa_index (length (b_y b)) (length (b_z b)) i j k) by (unfold Hexa_index; ring).
            apply (Hexa_inv_index (length (b_x b))); assumption. }
          rewrite E. rewrite !dL_0 by assumption. reflexivity.
  Qed.
  Lemma derivative_zero (f : R -> R) d x : (forall t, f t = 1) -> derivable_pt_lim f x d -> d = 0.
  Proof.
    intros F A. apply (uniqueness_limite (fct_cte 1) x).
    - apply (derivable_ext f); [intros t; rewrite F; reflexivity|exact A].
    - apply derivable_pt_lim_const.
  Qed.
  Lemma gradients_sum p q : well_built p -> two_points N p -> (forall w, rsum N (fun j => dot (local_rows p q j) w) = 0).
  Proof.
    intros WB T w. pose proof T as ((X & Y & Z) & EN). set (l := local_coord (n_basis p) q).
    assert (E : forall j, (j < N)%nat -> local_rows p q j = V (dB (n_basis p) 1 0 0 j (vx l) (vy l) (vz l))
      (dB (n_basis p) 0 1 0 j (vx l) (vy l) (vz l)) (dB (n_basis p) 0 0 1 j (vx l) (vy l) (vz l))).
    { intros j J. unfold local_rows, basis_local_gradients, GetDerivatives_at, GetDerivatives, orders_ok. fold l.
      destruct (Nat.ltb_spec 1 (length (b_x (n_basis p)))); [|lia]. destruct (Nat.ltb_spec 1 (length (b_y (n_basis p)))); [|lia].
      destruct (Nat.ltb_spec 1 (length (b_z (n_basis p)))); [|lia].
      destruct (Nat.ltb_spec 0 (length (b_x (n_basis p)))); [|lia]. destruct (Nat.ltb_spec 0 (length (b_y (n_basis p)))); [|lia].
      destruct (Nat.ltb_spec 0 (length (b_z (n_basis p)))); [|lia]. cbn [andb]. unfold column3.
      rewrite !Hexa_GetDerivatives_nth by (rewrite EN; exact J). reflexivity. }
    rewrite (rsum_ext N _ (fun j => dB (n_basis p) 1 0 0 j (vx l) (vy l) (vz l) * vx w + dB (n_basis p) 0 1 0 j (vx l) (vy l) (vz l) * vy w
      + dB (n_basis p) 0 0 1 j (vx l) (vy l) (vz l) * vz w)) by (intros j J; rewrite E by exact J; reflexivity).
    rewrite !rsum_add, !rsum_mul_r.
    assert (Z1 : rsum N (fun j => dB (n_basis p) 1 0 0 j (vx l) (vy l) (vz l)) = 0).
    { apply (derivative_zero (fun t => rsum N (fun j => dB (n_basis p) 0 0 0 j t (vy l) (vz l))) _ (vx l)).
      - intros t. apply values_sum; assumption.
      - apply (derivable_rsum N (fun j t => dB (n_basis p) 0 0 0 j t (vy l) (vz l))). intros j J.
        refine (dB_partial (n_basis p) 0 0 0 0 j _ _ _ _ _ (vx l) (vy l) (vz l)); [rewrite EN; exact J|..]; cbn; lia. }
    assert (Z2 : rsum N (fun j => dB (n_basis p) 0 1 0 j (vx l) (vy l) (vz l)) = 0).
    { apply (derivative_zero (fun t => rsum N (fun j => dB (n_basis p) 0 0 0 j (vx l) t (vz l))) _ (vy l)).
      - intros t. apply values_sum; assumption.
      - apply (derivable_rsum N (fun j t => dB (n_basis p) 0 0 0 j (vx l) t (vz l))). intros j J.
        refine (dB_partial (n_basis p) 0 0 0 1 j _ _ _ _ _ (vx l) (vy l) (vz l)); [rewrite EN; exact J|..]; cbn; lia. }
    assert (Z3 : rsum N (fun j => dB (n_basis p) 0 0 1 j (vx l) (vy l) (vz l)) = 0).
    { apply (derivative_zero (fun t => rsum N (fun j => dB (n_basis p) 0 0 0 j (vx l) (vy l) t)) _ (vz l)).
      - intros t. apply values_sum; assumption.
      - apply (derivable_rsum N (fun j t => dB (n_basis p) 0 0 0 j (vx l) (vy l) t)). intros j J.
        refine (dB_partial (n_basis p) 0 0 0 2 j _ _ _ _ _ (vx l) (vy l) (vz l)); [rewrite EN; exact J|..]; cbn; lia. }
    rewrite Z1, Z2, Z3. ring.
  Qed.

  (** the weights of the energy *)
  Definition lobatto_weight (kLocal : bool) (w : nat -> R) (p : Nodal) (q : nat) : R :=
    if kLocal then w q * (jacobian_det p q * jacobian_det p q) else w q * jacobian_det p q.
  Lemma lobatto_energy kLocal ptr adj id w p D : two_points N p -> damps K N (lobatto_cell K N kLocal ptr adj id w p) D ->
    (kLocal = true -> forall q, (q < N)%nat -> jacobian_det p q <> 0 /\ jacobian_det_grad p q = v0) ->
    (forall j i, (j < N)%nat -> (i < N)%nat -> D j i = D i j)
    /\ (forall u r g, (forall q, (q < N)%nat -> d_gradient (lobatto_cell K N kLocal ptr adj id w p) u q = Some (g q)) ->
          quadratic N D (u r) = - energy N (lobatto_weight kLocal w p) (fun q => g q r)).
  Proof.
    intros T A F. pose proof (lobatto_linear K N kLocal ptr adj id w p T) as H. pose proof T as (_ & EN).
    assert (S : forall q j, (q < d_points (lobatto_cell K N kLocal ptr adj id w p))%nat -> (j < N)%nat ->
      lobatto_W kLocal w p q j = vscale (lobatto_weight kLocal w p q) (nodal_G kLocal p q j)).
    { intros q j Q J. cbn [d_points lobatto_cell] in Q. rewrite EN in Q. unfold lobatto_W, lobatto_weight, nodal_G. destruct kLocal; [|reflexivity].
      destruct (F eq_refl q Q) as (F1 & ->).
      replace (vsub (local_rows p q j) (vscale (if (j =? q)%nat then / jacobian_det p q else 0) v0)) with (local_rows p q j)
        by (destruct (local_rows p q j) as [x1 x2 x3]; unfold vsub, vscale, v0; cbn [vx vy vz]; f_equal; ring).
      generalize (Model_Nodal.mcol (jacobian_det_inv p q) (local_rows p q j)). intros v. unfold vscale. cbn [vx vy vz]. f_equal; field; exact F1. }
    split.
    - exact (symmetric _ _ _ _ H S D A).
    - intros u r g Eg. pose proof (dissipates _ _ _ _ H S D A u r g) as P. cbn [d_points lobatto_cell] in P. rewrite EN in P. apply P. exact Eg.
  Qed.
  Lemma lobatto_conserves kLocal ptr adj id w p D : well_built p -> two_points N p -> damps K N (lobatto_cell K N kLocal ptr adj id w p) D ->
    forall i, (i < N)%nat -> rsum N (fun j => D j i) = 0.
  Proof.
    intros WB T A i I. pose proof (lobatto_linear K N kLocal ptr adj id w p T) as H.
    rewrite (rsum_ext N _ (fun j => - rsum (d_points (lobatto_cell K N kLocal ptr adj id w p)) (fun q => dot (nodal_G kLocal p q i) (lobatto_W kLocal w p q j)))).
    2:{ intros j J. exact (damps_entry K N _ _ _ H D j i K0 A J I). }
    rewrite rsum_opp, rsum_swap. rewrite rsum_zero; [ring|]. intros q _. unfold lobatto_W. destruct kLocal.
    - rewrite (rsum_ext N _ (fun j => dot (local_rows p q j) (rmul (vscale (w q) (nodal_G true p q i)) (jacobian_det_inv p q)))).
      + apply gradients_sum; assumption.
      + intros j _. rewrite <- dot_mcol. unfold dot, vscale. cbn [vx vy vz]. ring.
    - rewrite (rsum_ext N _ (fun j => dot (local_rows p q j) (rmul (vscale (w q * jacobian_det p q) (nodal_G false p q i)) (minv (jacobian p (point p q)))))).
      + apply gradients_sum; assumption.
      + intros j _. rewrite <- dot_mcol. unfold dot, vscale. cbn [vx vy vz]. ring.
  Qed.
End Build.
