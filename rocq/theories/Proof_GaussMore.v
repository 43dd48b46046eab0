(** From moments to polynomials, for the rules with decimal constants, and for segments. *)
From Coq Require Import Reals QArith Qreals ZArith List Lia Lra Bool.
From Coquelicot Require Import Coquelicot.
From Verif Require Import RSum Vec3 Spec_Gauss Proof_Integral Model_Gauss Proof_Gauss Proof_GaussTable.
Import ListNotations.
Open Scope R_scope.

Lemma exactly_unique {F} (over : F -> R -> Prop) f q : (forall I J, over f I -> over f J -> I = J) -> over f q -> exactly over f q.
Proof. intros U H I. split; [intros; apply U; auto|intros ->; auto]. Qed.
Lemma exactly_line a b f q : is_RInt (V := R_NormedModule) f a b q -> exactly (from_to a b) f q.
Proof. intros H. apply exactly_unique; auto. intros I J. apply is_RInt_eq. Qed.
Lemma exactly_2 a0 b0 a b f q : integral2 a0 b0 a b f q -> exactly (integral2 a0 b0 a b) f q.
Proof. intros H. apply exactly_unique; auto. intros I J. apply integral2_unique. Qed.
Lemma exactly_3 a0 b0 a b a' b' f q : integral3 a0 b0 a b a' b' f q -> exactly (integral3 a0 b0 a b a' b') f q.
Proof. intros H. apply exactly_unique; auto. intros I J. apply integral3_unique. Qed.

Lemma err_rsum n f g s eps : (forall i, (i < n)%nat -> Rabs (f i - g i) <= eps * s i) -> Rabs (rsum n f - rsum n g) <= eps * rsum n s.
Proof.
  induction n; intros H; cbn [rsum].
  - rewrite Rminus_0_r, Rabs_R0. lra.
  - replace (rsum n f + f n - (rsum n g + g n)) with ((rsum n f - rsum n g) + (f n - g n)) by ring.
    rewrite Rmult_plus_distr_l. eapply Rle_trans; [apply Rabs_triang|]. apply Rplus_le_compat; [apply IHn; intros; apply H; lia|apply H; lia].
Qed.
Lemma err_scal c q M eps : Rabs (q - M) <= eps -> Rabs (c * q - c * M) <= eps * Rabs c.
Proof.
  intros H. replace (c * q - c * M) with (c * (q - M)) by ring. rewrite Rabs_mult, Rmult_comm. apply Rmult_le_compat_r; [apply Rabs_pos|auto].
Qed.

Lemma triangle_within n d c : In n tri_sizes -> d = tri_deg n ->
  within over_triangle (total2 d c) (quad (fun p => total2 d c (vx p) (vy p)) (Triangle_coords_R n) (Triangle_weights_R n)) (Q2R eps20 * size2 d c).
Proof.
  intros I ->. eexists. split; [apply exactly_2, total2_int|]. unfold total2. rewrite (quad_sum2 _ _ (S (tri_deg n)) (fun i => S (tri_deg n - i))).
  apply err_rsum. intros i Hi. apply err_rsum. intros j Hj. apply err_scal. apply tri_moment; auto. lia.
Qed.
Lemma tetrahedron_within n d c : In n tet_sizes -> d = tet_deg n ->
  within over_tetrahedron (total3 d c) (quad (fun p => total3 d c (vx p) (vy p) (vz p)) (Tetrahedron_coords_R n) (Tetrahedron_weights_R n)) (Q2R (tet_eps n) * size3 d c).
Proof.
  intros I ->. eexists. split.
  { apply exactly_3. apply (sum3_int _ _ _ _ _ _ (S (tet_deg n)) (fun i => S (tet_deg n - i)) (fun i j => S (tet_deg n - i - j)) c _ tetrahedron_monomial). }
  unfold total3. rewrite (quad_sum3 _ _ (S (tet_deg n)) (fun i => S (tet_deg n - i)) (fun i j => S (tet_deg n - i - j))).
  apply err_rsum. intros i Hi. apply err_rsum. intros j Hj. apply err_rsum. intros k Hk. apply err_scal. apply tet_moment; auto. lia.
Qed.
Lemma legendre6_within c : within (from_to (-1) 1) (poly1 11 c) (quad (poly1 11 c) (Legendre_points 6) (Legendre_weights 6)) (Q2R eps15 * size1 11 c).
Proof.
  eexists. split; [apply exactly_line, poly1_int|]. rewrite quad_poly1. apply err_rsum. intros i Hi. apply err_scal, leg6_moment. lia.
Qed.

(** ** Wedges *)
Lemma moment_bound k : Rabs (moment k) <= 2.
Proof.
  unfold moment. rewrite pow1. unfold Rdiv. rewrite Rabs_mult. assert (1 <= INR (S k)) by (rewrite S_INR; pose proof (pos_INR k); lra).
  assert (Rabs (/ INR (S k)) <= 1).
  { rewrite Rabs_pos_eq by (apply Rlt_le, Rinv_0_lt_compat; lra). rewrite <- Rinv_1. apply Rinv_le_contravar; lra. }
  assert (Rabs (1 - (-1) ^ S k) <= 2).
  { eapply Rle_trans; [apply Rabs_triang|]. rewrite Rabs_R1, Rabs_Ropp, pow_1_abs. lra. }
  pose proof (Rabs_pos (1 - (-1) ^ S k)). pose proof (Rabs_pos (/ INR (S k))). nra.
Qed.
Lemma quad_wedge i j k pt wt pz wz : length pz = length wz ->
  quad (fun p => vx p ^ i * vy p ^ j * vz p ^ k) (Wedge_coords pt pz) (Wedge_weights wt wz)
  = quad (fun p => vx p ^ i * vy p ^ j) pt wt * quad (fun z => z ^ k) pz wz.
Proof.
  intros L. unfold Wedge_coords, Wedge_weights. rewrite (quad_product _ (fun p z => V (vx p) (vy p) z)) by auto. cbn [vx vy vz].
  rewrite (quad_ext _ (fun p => quad (fun z => z ^ k) pz wz * (vx p ^ i * vy p ^ j))); [rewrite quad_mul; ring|].
  intros p. rewrite quad_mul. ring.
Qed.
Lemma eps20_pos : 0 <= Q2R eps20.
Proof. unfold Q2R. cbn [Qnum Qden eps20]. apply Rmult_le_pos; [lra|]. apply Rlt_le, Rinv_0_lt_compat, IZR_lt. reflexivity. Qed.
Lemma wedge_within n d pz wz dz c : In n tri_sizes -> d = tri_deg n -> has_moments pz wz dz ->
  within over_wedge (prism3 d dz c)
    (quad (fun p => prism3 d dz c (vx p) (vy p) (vz p)) (Wedge_coords (Triangle_coords_R n) pz) (Wedge_weights (Triangle_weights_R n) wz))
    (2 * Q2R eps20 * prism_size d dz c).
Proof.
  intros I -> [L H]. eexists. split.
  { apply exactly_3. apply (sum3_int _ _ _ _ _ _ (S (tri_deg n)) (fun i => S (tri_deg n - i)) (fun i j => S dz) c _ wedge_monomial). }
  unfold prism3. rewrite (quad_sum3 _ _ (S (tri_deg n)) (fun i => S (tri_deg n - i)) (fun i j => S dz)).
  apply err_rsum. intros i Hi. apply err_rsum. intros j Hj. apply err_rsum. intros k Hk. apply err_scal.
  rewrite quad_wedge, H by (auto; lia). rewrite <- Rmult_minus_distr_r, Rabs_mult.
  pose proof (tri_moment n i j I ltac:(lia)). pose proof (moment_bound k). rewrite Rmult_comm.
  apply Rmult_le_compat; auto using Rabs_pos.
Qed.

(** ** Pyramids *)
Lemma pyramid_weights wx wy pz wz :
  Pyramid_weights wx wy pz wz = Hexahedron_weights wx wy (map (fun zc => snd zc * / (1 - fst zc) ^ 2) (combine pz wz)).
Proof.
  unfold Pyramid_weights, Hexahedron_weights. apply flat_map_ext. intros a. apply flat_map_ext. intros b. rewrite map_map. apply map_ext. intros. ring.
Qed.
Lemma quad_jacobi f pz : forall wz, (forall z, In z pz -> z < 1) ->
  quad (fun z => (1 - z) ^ 2 * f z) pz (map (fun zc => snd zc * / (1 - fst zc) ^ 2) (combine pz wz)) = quad f pz wz.
Proof.
  induction pz as [|z pz IH]; intros [|w wz] H; cbn [combine map quad fst snd]; auto. rewrite IH by (intros; apply H; right; auto). f_equal.
  assert (z < 1) by (apply H; left; auto). field. lra.
Qed.
Lemma jacobi_below n z : In z (map Q2R (Jacobi_points n)) -> z < 1.
Proof.
  intros I. apply in_map_iff in I as [q [<- I]].
  assert (forallb (fun q => (Qnum q <? QDen q)%Z) (Jacobi_points n) = true) as B by (destruct n as [|[|[|[|[|[|n]]]]]]; reflexivity).
  rewrite forallb_forall in B. specialize (B q I). apply Z.ltb_lt, IZR_lt in B. unfold Q2R.
  assert (0 < IZR (QDen q)) by (apply IZR_lt; lia). apply (Rmult_lt_reg_r (IZR (QDen q))); auto. rewrite Rmult_assoc, Rinv_l, Rmult_1_r; lra.
Qed.
Lemma jacobi_lengths n : length (map Q2R (Jacobi_points n)) = length (map Q2R (Jacobi_weights n)).
Proof. destruct n as [|[|[|[|[|[|n]]]]]]; reflexivity. Qed.
Lemma jacobi_int k : is_RInt (V := R_NormedModule) (fun z => (1 - z) ^ 2 * z ^ k) (-1) 1 (moment k - 2 * moment (k + 1) + moment (k + 2)).
Proof.
  apply (is_RInt_fun (fun z => z ^ k + -2 * z ^ (k + 1) + z ^ (k + 2))).
  - intros z. rewrite !pow_add. ring.
  - eapply is_RInt_val; [apply is_RInt_add; [apply is_RInt_add|]; [|apply is_RInt_mul|]; apply moment_int|ring].
Qed.
Lemma pyramid_within n px wx dx py wy dy c : (1 <= n <= 5)%nat -> has_moments px wx dx -> has_moments py wy dy ->
  within over_cube (fun x y z => (1 - z) ^ 2 * poly3 dx dy (2 * n - 1) c x y z)
    (quad (fun p => (1 - vz p) ^ 2 * poly3 dx dy (2 * n - 1) c (vx p) (vy p) (vz p))
      (Hexahedron_coords px py (map Q2R (Jacobi_points n)))
      (Pyramid_weights wx wy (map Q2R (Jacobi_points n)) (map Q2R (Jacobi_weights n))))
    (4 * Q2R eps15 * box_size dx dy (2 * n - 1) c).
Proof.
  intros Hn [Lx Hx] [Ly Hy]. set (dz := (2 * n - 1)%nat).
  exists (rsum (S dx) (fun i => rsum (S dy) (fun j => rsum (S dz) (fun k => c i j k * (moment i * moment j * (moment k - 2 * moment (k + 1) + moment (k + 2))))))).
  assert (forall i j k, over_cube (fun x y z => (1 - z) ^ 2 * (x ^ i * y ^ j * z ^ k)) (moment i * moment j * (moment k - 2 * moment (k + 1) + moment (k + 2)))) as M.
  { intros i j k. set (m := moment k - 2 * moment (k + 1) + moment (k + 2)). exists (fun x y => x ^ i * y ^ j * m). split.
    - intros x y. apply (is_RInt_fun (fun z => x ^ i * y ^ j * ((1 - z) ^ 2 * z ^ k))); [intros; ring|]. apply is_RInt_mul, jacobi_int.
    - apply (integral2_fun _ _ _ _ (fun x y => m * (x ^ i * y ^ j))); [intros; ring|].
      eapply integral2_val; [apply integral2_mul, square_monomial|ring]. }
  split.
  - apply exactly_3. destruct (integral3_rsum (-1) 1 (fun _ => -1) (fun _ => 1) (fun _ _ => -1) (fun _ _ => 1) (S dx)
      (fun i x y z => rsum (S dy) (fun j => rsum (S dz) (fun k => c i j k * ((1 - z) ^ 2 * (x ^ i * y ^ j * z ^ k)))))
      (fun i => rsum (S dy) (fun j => rsum (S dz) (fun k => c i j k * (moment i * moment j * (moment k - 2 * moment (k + 1) + moment (k + 2))))))) as [g [Hg Hi]].
    { intros i _. apply (integral3_rsum _ _ _ _ _ _ (S dy) (fun j x y z => rsum (S dz) (fun k => c i j k * ((1 - z) ^ 2 * (x ^ i * y ^ j * z ^ k))))). intros j _.
      apply (integral3_rsum _ _ _ _ _ _ (S dz) (fun k x y z => c i j k * ((1 - z) ^ 2 * (x ^ i * y ^ j * z ^ k)))). intros k _. apply integral3_mul, M. }
    exists g. split; [|exact Hi]. intros x y. eapply is_RInt_fun; [|apply Hg]. intros z. cbv beta. unfold poly3.
    rewrite <- rsum_mul_l. apply rsum_ext. intros i _. rewrite <- rsum_mul_l. apply rsum_ext. intros j _. rewrite <- rsum_mul_l. apply rsum_ext. intros k _. ring.
  - rewrite (quad_ext _ (fun p => rsum (S dx) (fun i => rsum (S dy) (fun j => rsum (S dz) (fun k => c i j k * ((1 - vz p) ^ 2 * (vx p ^ i * vy p ^ j * vz p ^ k))))))).
    2:{ intros p. unfold poly3. rewrite <- rsum_mul_l. apply rsum_ext. intros i _. rewrite <- rsum_mul_l. apply rsum_ext. intros j _. rewrite <- rsum_mul_l. apply rsum_ext. intros k _. ring. }
    rewrite pyramid_weights. set (pz := map Q2R (Jacobi_points n)). set (wz := map Q2R (Jacobi_weights n)).
    set (wz' := map (fun zc => snd zc * / (1 - fst zc) ^ 2) (combine pz wz)).
    rewrite (quad_rsum (S dx) (fun i p => rsum (S dy) (fun j => rsum (S dz) (fun k => c i j k * ((1 - vz p) ^ 2 * (vx p ^ i * vy p ^ j * vz p ^ k)))))).
    apply err_rsum. intros i Hi.
    rewrite (quad_rsum (S dy) (fun j p => rsum (S dz) (fun k => c i j k * ((1 - vz p) ^ 2 * (vx p ^ i * vy p ^ j * vz p ^ k))))).
    apply err_rsum. intros j Hj.
    rewrite (quad_rsum (S dz) (fun k p => c i j k * ((1 - vz p) ^ 2 * (vx p ^ i * vy p ^ j * vz p ^ k)))).
    apply err_rsum. intros k Hk. rewrite quad_mul. apply err_scal.
    assert (length pz = length wz) as Lz by apply jacobi_lengths.
    rewrite cube_quad; [|auto|unfold wz'; rewrite map_length, combine_length, <- Lz, Nat.min_id; reflexivity]. cbn [vx vy vz].
    rewrite (quad_ext _ (fun x => quad (fun y => y ^ j) py wy * quad (fun z => z ^ k) pz wz * x ^ i)).
    + rewrite quad_mul, Hx, Hy by lia.
      replace (moment j * quad (fun z => z ^ k) pz wz * moment i - moment i * moment j * (moment k - 2 * moment (k + 1) + moment (k + 2)))
        with (moment i * moment j * (quad (fun z => z ^ k) pz wz - (moment k - 2 * moment (k + 1) + moment (k + 2)))) by ring.
      rewrite Rabs_mult. apply Rmult_le_compat; auto using Rabs_pos; [|apply jacobi_moment; auto; lia].
      rewrite Rabs_mult. pose proof (moment_bound i). pose proof (moment_bound j). pose proof (Rabs_pos (moment i)). pose proof (Rabs_pos (moment j)). nra.
    + intros x. rewrite (quad_ext _ (fun y => x ^ i * quad (fun z => z ^ k) pz wz * y ^ j)); [rewrite quad_mul; ring|].
      intros y. unfold wz'.
      rewrite (quad_jacobi (fun z => x ^ i * y ^ j * z ^ k)) by (apply jacobi_below). rewrite quad_mul. ring.
Qed.

(** ** Segments *)
Lemma affine_power u v i : exists a, (forall k, (i < k)%nat -> a k = 0) /\ forall x, (u * x + v) ^ i = poly1 i a x.
Proof.
  induction i as [|i [a [Z H]]].
  - exists (fun k => match k with O => 1 | _ => 0 end). split; [intros [|k]; [lia|auto]|]. intros x. unfold poly1. cbn. ring.
  - exists (fun k => v * a k + match k with O => 0 | S k => u * a k end). split.
    + intros [|k] L; [lia|]. rewrite !Z by lia. ring.
    + intros x. cbn [pow]. rewrite H. unfold poly1.
      rewrite (rsum_ext (S (S i)) _ (fun k => v * (a k * x ^ k) + (match k with O => 0 | S k => u * a k end) * x ^ k)) by (intros; ring).
      rewrite rsum_add, (rsum_first (S i) (fun k => match k with O => 0 | S k => u * a k end * x ^ k)).
      rewrite (rsum_mul_l (S (S i)) v). cbn [rsum]. rewrite (Z (S i)) by lia.
      change (rsum i (fun k => a k * x ^ k) + a i * x ^ i) with (rsum (S i) (fun k => a k * x ^ k)).
      change (rsum i (fun k => u * a k * x ^ S k) + u * a i * x ^ S i) with (rsum (S i) (fun k => u * a k * x ^ S k)).
      rewrite (rsum_ext (S i) (fun k => u * a k * x ^ S k) (fun k => u * x * (a k * x ^ k))) by (intros; cbn [pow]; ring).
      rewrite rsum_mul_l. ring.
Qed.
Lemma exact_affine_power xs ws d u v i : has_moments xs ws d -> (i <= d)%nat ->
  is_RInt (V := R_NormedModule) (fun x => (u * x + v) ^ i) (-1) 1 (quad (fun x => (u * x + v) ^ i) xs ws).
Proof.
  intros [L H] I. destruct (affine_power u v i) as [a [_ E]].
  rewrite (quad_ext _ (poly1 i a)) by auto. apply (is_RInt_fun (poly1 i a)); [auto|]. apply exact1_int. split; auto. intros. apply H. lia.
Qed.
Lemma exact_affine xs ws d c u v : has_moments xs ws d ->
  is_RInt (V := R_NormedModule) (fun x => poly1 d c (u * x + v)) (-1) 1 (quad (fun x => poly1 d c (u * x + v)) xs ws).
Proof.
  intros H. unfold poly1. rewrite (quad_rsum (S d) (fun i x => c i * (u * x + v) ^ i)).
  apply (is_RInt_rsum (S d) (fun i x => c i * (u * x + v) ^ i)). intros i Hi. rewrite quad_mul. apply is_RInt_mul. apply (exact_affine_power xs ws d); auto. lia.
Qed.
Lemma quad_scaled_weights {A} (f : A -> R) k xs : forall ws, quad f xs (map (fun w => w * k) ws) = k * quad f xs ws.
Proof. induction xs; intros [|w ws]; cbn; try ring. rewrite IHxs. ring. Qed.
Lemma poly1_any d c a b : exists I, is_RInt (V := R_NormedModule) (poly1 d c) a b I.
Proof.
  eexists. unfold poly1. apply (is_RInt_rsum (S d) (fun i x => c i * x ^ i)). intros. apply is_RInt_mul, is_RInt_pow.
Qed.
Lemma line_quad xs ws d c p q : has_moments xs ws d ->
  is_RInt (V := R_NormedModule) (poly1 d c) p q ((q - p) / 2 * quad (fun x => poly1 d c (Line_LocalToGlobal p q x)) xs ws).
Proof.
  intros H. destruct (poly1_any d c p q) as [I HI]. set (u := (q - p) / 2). set (v := (p + q) / 2).
  assert (is_RInt (V := R_NormedModule) (fun y => u * poly1 d c (u * y + v)) (-1) 1 I) as K.
  { pose proof (is_RInt_comp_lin (V := R_NormedModule) (poly1 d c) u v (-1) 1 I) as S. apply S.
    replace (u * -1 + v) with p by (subst u v; field). replace (u * 1 + v) with q by (subst u v; field). exact HI. }
  rewrite (quad_ext _ (fun x => poly1 d c (u * x + v))).
  - replace (u * quad (fun x => poly1 d c (u * x + v)) xs ws) with I; auto.
    apply (is_RInt_eq _ _ _ _ _ K). apply is_RInt_mul, exact_affine, H.
  - intros x. f_equal. unfold Line_LocalToGlobal. subst u v. field.
Qed.
Lemma line_exact xs ws d c p q : has_moments xs ws d -> p <= q ->
  exactly (from_to p q) (poly1 d c) (quad (poly1 d c) (Line_coords p q xs) (Line_weights p q ws))
  /\ exactly (from_to p q) (poly1 d c) (quad (poly1 d c) (Line_coords q p xs) (Line_weights q p ws)).
Proof.
  intros H L. unfold Line_coords, Line_weights. rewrite !quad_map_points, !quad_scaled_weights. split; apply exactly_line.
  - eapply is_RInt_val; [apply (line_quad xs ws); eauto|]. f_equal. rewrite Rabs_left1 by lra. field.
  - eapply is_RInt_val; [apply (is_RInt_swap (V := R_NormedModule)), (line_quad xs ws); eauto|].
    change opp with Ropp. cbv beta. rewrite Rabs_pos_eq by lra. rewrite Ropp_mult_distr_l. f_equal. field.
Qed.
