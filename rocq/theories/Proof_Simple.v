(** Proofs about the simple Riemann solvers. *)
From Coq Require Import Reals Lra Psatz Lia.
From Verif Require Import Model_Simple Spec_Simple.
Open Scope R_scope.

(** ** Godunov fluxes *)

Lemma godunov_consistent f F : godunov f F -> consistent f F.
Proof.
  intros G u. destruct (G u u) as [H _]. destruct (H (Rle_refl u)) as [[x [Hx E]] _].
  assert (x = u) by lra. subst. congruence.
Qed.

Lemma godunov_left f F : godunov f F -> forall l l' r, l <= l' -> F l r <= F l' r.
Proof.
  intros G l l' r Hl. destruct (G l r) as [G1 G2]. destruct (G l' r) as [G3 G4].
  destruct (Rle_dec l r) as [Hlr|Hlr].
  - destruct (G1 Hlr) as [_ B].
    destruct (Rle_dec l' r) as [Hr|Hr].
    + destruct (G3 Hr) as [[x [Hx <-]] _]. apply B. lra.
    + destruct G4 as [_ B']; [lra|]. apply Rle_trans with (f r); [apply B|apply B']; lra.
  - destruct G2 as [[x [Hx <-]] _]; [lra|]. destruct G4 as [_ B']; [lra|]. apply B'. lra.
Qed.

Lemma godunov_right f F : godunov f F -> forall l r r', r' <= r -> F l r <= F l r'.
Proof.
  intros G l r r' Hr. destruct (G l r) as [G1 G2]. destruct (G l r') as [G3 G4].
  destruct (Rle_dec l r') as [Hlr|Hlr].
  - destruct (G3 Hlr) as [[x [Hx <-]] _]. destruct G1 as [_ B]; [lra|]. apply B. lra.
  - destruct G4 as [_ B']; [lra|].
    destruct (Rle_dec l r) as [H|H].
    + destruct (G1 H) as [_ B]. apply Rle_trans with (f l); [apply B|apply B']; lra.
    + destruct G2 as [[x [Hx <-]] _]; [lra|]. apply B'. lra.
Qed.

Lemma godunov_monotone f F : godunov f F -> monotone F.
Proof.
  intros G l l' r r' H1 H2. eapply Rle_trans; [apply (godunov_left f F G _ _ _ H1)|].
  apply (godunov_right f F G); auto.
Qed.

Lemma Single_godunov a : godunov (Single_GetFlux a) (Single_GetFluxUpwind a).
Proof.
  intros l r. unfold Single_GetFluxUpwind, Single_GetFlux. destruct (Rlt_dec 0 a).
  - split; intro; (split; [exists l; split; [lra|reflexivity]|intros; nra]).
  - split; intro; (split; [exists r; split; [lra|reflexivity]|intros; nra]).
Qed.

Lemma scale_le k x y : 0 <= k * (y - x) -> x * k / 2 <= y * k / 2.
Proof. lra. Qed.

Ltac burgers l r x := apply scale_le;
  first [ apply Rmult_le_pos; [lra|]; first [lra | nra | 
             assert (0 <= (x - l) * (r - x)) by (apply Rmult_le_pos; lra); nra]
        | rewrite <- Rmult_opp_opp; apply Rmult_le_pos; [lra|]; nra ].

Lemma Burgers_godunov k : godunov (Burgers_GetFlux k) (Burgers_GetFluxUpwind k).
Proof.
  intros l r. unfold Burgers_GetFluxUpwind, Burgers_GetFlux. destruct (Req_EM_T k 0) as [->|Hk].
  { split; intro; (split; [exists l; split; [lra|lra]|intros; lra]). }
  destruct (Rge_dec (k * l) (k * r)) as [H|H].
  - destruct (Rle_dec 0 ((k * l + k * r) / 2)) as [H1|H1].
    + split; intro.
      * split; [exists l; split; [lra|reflexivity]|]. intros x Hx.
        assert (k < 0 \/ 0 < k) as [K|K] by lra.
        { assert (l + r <= 0) by nra. burgers l r x. }
        { assert (l = r) by nra. assert (x = l) by lra. subst. lra. }
      * split; [exists l; split; [lra|reflexivity]|]. intros x Hx.
        assert (k < 0 \/ 0 < k) as [K|K] by lra.
        { assert (l = r) by nra. assert (x = l) by lra. subst. lra. }
        { assert (l + r >= 0) by nra. burgers l r x. }
    + assert (k < 0 \/ 0 < k) as [K|K] by lra;
        (destruct (Rge_dec 0 ((k * l + k * r) / 2)) as [H2|H2]; [|lra]); split; intro.
      * split; [exists r; split; [lra|reflexivity]|]. intros x Hx.
        assert (l + r >= 0) by nra. burgers l r x.
      * split; [exists r; split; [lra|reflexivity]|]. intros x Hx.
        assert (l = r) by nra. assert (x = l) by lra. subst. lra.
      * split; [exists r; split; [lra|reflexivity]|]. intros x Hx.
        assert (l = r) by nra. assert (x = l) by lra. subst. lra.
      * split; [exists r; split; [lra|reflexivity]|]. intros x Hx.
        assert (l + r <= 0) by nra. burgers l r x.
  - assert (k < 0 \/ 0 < k) as [K|K] by lra.
    + assert (r < l) by nra. split; [lra|intros _].
      destruct (Rle_dec 0 (k * l)) as [H1|H1]; [|destruct (Rge_dec 0 (k * r)) as [H2|H2]].
      * split; [exists l; split; [lra|reflexivity]|]. intros x Hx. assert (l <= 0) by nra. burgers l r x.
      * split; [exists r; split; [lra|reflexivity]|]. intros x Hx. assert (0 <= r) by nra. burgers l r x.
      * assert (0 < l) by nra. assert (r < 0) by nra. replace (0 / k) with 0 by (field; auto).
        split; [exists 0; split; [lra|reflexivity]|]. intros x Hx. nra.
    + assert (l < r) by nra. split; [intros _|lra].
      destruct (Rle_dec 0 (k * l)) as [H1|H1]; [|destruct (Rge_dec 0 (k * r)) as [H2|H2]].
      * split; [exists l; split; [lra|reflexivity]|]. intros x Hx. assert (0 <= l) by nra. burgers l r x.
      * split; [exists r; split; [lra|reflexivity]|]. intros x Hx. assert (r <= 0) by nra. burgers l r x.
      * assert (l < 0) by nra. assert (0 < r) by nra. replace (0 / k) with 0 by (field; auto).
        split; [exists 0; split; [lra|reflexivity]|]. intros x Hx. nra.
Qed.

(** ** Two equations *)

Lemma GetEigenValues_spec a l0 l1 : eigenvalues2 a l0 l1 -> GetEigenValues a = (l0, l1).
Proof.
  intros [H [S P]]. unfold GetEigenValues. rewrite <- S, <- P.
  replace ((l0 + l1) * (l0 + l1) - 4 * (l0 * l1)) with ((l1 - l0) * (l1 - l0)) by ring.
  rewrite sqrt_square by lra. f_equal; field.
Qed.

Lemma repeated_eigenvalue a l : 2 * l = m00 a + m11 a -> l * l = m00 a * m11 a - m01 a * m10 a ->
  GetEigenValues a = (l, l).
Proof.
  intros S P. unfold GetEigenValues. rewrite <- S, <- P.
  replace (2 * l * (2 * l) - 4 * (l * l)) with 0 by ring.
  rewrite sqrt_0. f_equal; field.
Qed.

Definition det2 (m : Mat2) : R := m00 m * m11 m - m01 m * m10 m.

Lemma eigenvector_spec a l0 l1 : eigenvalues2 a l0 l1 ->
  mul2 a (GetEigenVector a l0) = (l0 * fst (GetEigenVector a l0), l0 * snd (GetEigenVector a l0)) /\
  mul2 a (GetEigenVector a l1) = (l1 * fst (GetEigenVector a l1), l1 * snd (GetEigenVector a l1)).
Proof.
  destruct a as [p q r s]. intros [H [S P]]. cbn in S, P.
  assert (forall l, (p - l) * (s - l) = q * r ->
    mul2 (mat2 p q r s) (GetEigenVector (mat2 p q r s) l) =
    (l * fst (GetEigenVector (mat2 p q r s) l), l * snd (GetEigenVector (mat2 p q r s) l))) as G.
  { intros l E. unfold GetEigenVector, mul2. cbn.
    destruct (Req_EM_T (p - l) 0) as [E0|E0]; [destruct (Req_EM_T q 0) as [Q|Q]|]; cbn; f_equal; nra. }
  split; apply G; nra.
Qed.

Lemma GetEigenVectors_det a l0 l1 : eigenvalues2 a l0 l1 -> det2 (GetEigenVectors a) <> 0.
Proof.
  intros H. unfold GetEigenVectors. rewrite (GetEigenValues_spec _ _ _ H).
  destruct a as [p q r s]. destruct H as [H [S P]]. cbn in S, P.
  unfold GetEigenVector, det2. cbn.
  destruct (Req_EM_T (p - l0) 0) as [E0|E0]; [|destruct (Req_EM_T (p - l1) 0) as [E1|E1]].
  - destruct (Req_EM_T (p - l1) 0) as [E1|E1]; [lra|].
    destruct (Req_EM_T q 0) as [Q|Q]; cbn.
    + subst q. replace s with l1 by lra. nra.
    + nra.
  - destruct (Req_EM_T q 0) as [Q|Q]; cbn.
    + subst q. replace s with l0 by lra. nra.
    + nra.
  - cbn. assert (q <> 0). { intro; subst q. assert ((p - l0) * (p - l1) = 0) by nra.
      apply Rmult_integral in H0. tauto. }
    nra.
Qed.

Lemma mul2_inj_cols a b r : det2 r <> 0 ->
  mul2 a (m00 r, m10 r) = mul2 b (m00 r, m10 r) -> mul2 a (m01 r, m11 r) = mul2 b (m01 r, m11 r) -> a = b.
Proof.
  destruct a as [p q u v], b as [p' q' u' v'], r as [r0 r1 r2 r3]. unfold mul2, det2. cbn.
  intros D E F. injection E as E1 E2. injection F as F1 F2.
  assert (forall x y, x * r0 + y * r2 = 0 -> x * r1 + y * r3 = 0 -> x = 0 /\ y = 0) as K.
  { intros x y X Y. split.
    - apply (Rmult_eq_reg_r (r0 * r3 - r1 * r2)); [|auto].
      transitivity ((x * r0 + y * r2) * r3 - (x * r1 + y * r3) * r2); [ring|]. rewrite X, Y. ring.
    - apply (Rmult_eq_reg_r (r0 * r3 - r1 * r2)); [|auto].
      transitivity ((x * r1 + y * r3) * r0 - (x * r0 + y * r2) * r1); [ring|]. rewrite X, Y. ring. }
  destruct (K (p - p') (q - q')) as [A B]; [lra|lra|].
  destruct (K (u - u') (v - v')) as [C G]; [lra|lra|].
  f_equal; lra.
Qed.

(** the matrix [r diag(g0, g1) l] *)
Definition compose2 (r : Mat2) (g0 g1 : R) (l : Mat2) : Mat2 :=
  mat2 (m00 r * g0 * m00 l + m01 r * g1 * m10 l) (m00 r * g0 * m01 l + m01 r * g1 * m11 l)
       (m10 r * g0 * m00 l + m11 r * g1 * m10 l) (m10 r * g0 * m01 l + m11 r * g1 * m11 l).

Lemma compose2_spectral a l0 l1 g : eigenvalues2 a l0 l1 ->
  compose2 (Double_R a) (g l0) (g l1) (Double_L a) = spectral g a l0 l1.
Proof.
  intros H. pose proof (GetEigenVectors_det _ _ _ H) as D.
  apply (mul2_inj_cols _ _ (GetEigenVectors a) D).
  - pose proof (proj1 (eigenvector_spec _ _ _ H)) as E. unfold mul2 in E. injection E as E1 E2.
    revert E1 E2 D. unfold Double_L, Double_R, GetEigenVectors. rewrite (GetEigenValues_spec _ _ _ H).
    destruct (GetEigenVector a l0) as [x0 y0], (GetEigenVector a l1) as [x1 y1].
    unfold det2, mul2, compose2, GetInverseEigenVectors, spectral. cbn. intros E1 E2 D.
    destruct H as [H _]. f_equal.
    + transitivity (g l0 * x0); [field; auto|].
      transitivity (g l0 / (l0 - l1) * (m00 a * x0 + m01 a * y0 - l1 * x0)
        + g l1 / (l1 - l0) * (m00 a * x0 + m01 a * y0 - l0 * x0)); [|ring].
      rewrite E1. field. lra.
    + transitivity (g l0 * y0); [field; auto|].
      transitivity (g l0 / (l0 - l1) * (m10 a * x0 + m11 a * y0 - l1 * y0)
        + g l1 / (l1 - l0) * (m10 a * x0 + m11 a * y0 - l0 * y0)); [|ring].
      rewrite E2. field. lra.
  - pose proof (proj2 (eigenvector_spec _ _ _ H)) as E. unfold mul2 in E. injection E as E1 E2.
    revert E1 E2 D. unfold Double_L, Double_R, GetEigenVectors. rewrite (GetEigenValues_spec _ _ _ H).
    destruct (GetEigenVector a l0) as [x0 y0], (GetEigenVector a l1) as [x1 y1].
    unfold det2, mul2, compose2, GetInverseEigenVectors, spectral. cbn. intros E1 E2 D.
    destruct H as [H _]. f_equal.
    + transitivity (g l1 * x1); [field; auto|].
      transitivity (g l0 / (l0 - l1) * (m00 a * x1 + m01 a * y1 - l1 * x1)
        + g l1 / (l1 - l0) * (m00 a * x1 + m01 a * y1 - l0 * x1)); [|ring].
      rewrite E1. field. lra.
    + transitivity (g l1 * y1); [field; auto|].
      transitivity (g l0 / (l0 - l1) * (m10 a * x1 + m11 a * y1 - l1 * y1)
        + g l1 / (l1 - l0) * (m10 a * x1 + m11 a * y1 - l0 * y1)); [|ring].
      rewrite E2. field. lra.
Qed.

Lemma spectral_id a l0 l1 : eigenvalues2 a l0 l1 -> spectral (fun x => x) a l0 l1 = a.
Proof.
  intros [H _]. destruct a. unfold spectral. cbn. f_equal; field; lra.
Qed.

Lemma spectral_ext f g a l0 l1 : f l0 = g l0 -> f l1 = g l1 -> spectral f a l0 l1 = spectral g a l0 l1.
Proof. intros E F. unfold spectral. rewrite E, F. reflexivity. Qed.

Lemma spectral_zero f a l0 l1 v : f l0 = 0 -> f l1 = 0 -> l0 < l1 -> mul2 (spectral f a l0 l1) v = (0, 0).
Proof.
  intros E F H. unfold spectral, mul2. rewrite E, F. cbn. f_equal; field; lra.
Qed.

Theorem Double_upwind a l0 l1 : eigenvalues2 a l0 l1 -> forall left right,
  Double_GetFluxUpwind a left right =
  add2 (mul2 (spectral positive a l0 l1) left) (mul2 (spectral negative a l0 l1) right).
Proof.
  intros H left right. pose proof (proj1 H) as HL.
  unfold Double_GetFluxUpwind. rewrite (GetEigenValues_spec _ _ _ H).
  destruct (Rle_dec 0 l0) as [H0|H0]; [|destruct (Rge_dec 0 l1) as [H1|H1]].
  - rewrite (spectral_ext positive (fun x => x)) by (unfold positive; apply Rmax_left; lra).
    rewrite (spectral_zero negative) by (auto; unfold negative; apply Rmin_right; lra).
    rewrite spectral_id by auto. unfold add2, Double_GetFlux. cbn. rewrite !Rplus_0_r. reflexivity.
  - rewrite (spectral_ext negative (fun x => x)) by (unfold negative; apply Rmin_left; lra).
    rewrite (spectral_zero positive) by (auto; unfold positive; apply Rmax_right; lra).
    rewrite spectral_id by auto. unfold add2, Double_GetFlux. cbn. rewrite !Rplus_0_l. reflexivity.
  - rewrite <- !(compose2_spectral _ _ _ _ H). unfold FluxInsideSector.
    rewrite (GetEigenValues_spec _ _ _ H). 
    change (GetInverseEigenVectors (GetEigenVectors a)) with (Double_L a).
    change (GetEigenVectors a) with (Double_R a).
    generalize (Double_L a) (Double_R a). intros L0 R0.
    unfold positive, negative. rewrite (Rmax_right l0) by lra. rewrite (Rmax_left l1) by lra.
    rewrite (Rmin_left l0) by lra. rewrite (Rmin_right l1) by lra.
    unfold compose2, add2, mul2. cbn. f_equal; ring.
Qed.

Lemma positive_negative x : positive x + negative x = x.
Proof. unfold positive, negative. destruct (Rle_dec x 0); [rewrite Rmax_right, Rmin_left|rewrite Rmax_left, Rmin_right]; lra. Qed.

Lemma Double_consistent a l0 l1 : eigenvalues2 a l0 l1 ->
  forall u, Double_GetFluxUpwind a u u = Double_GetFlux a u.
Proof.
  intros H u. rewrite (Double_upwind _ _ _ H). unfold Double_GetFlux.
  transitivity (mul2 (spectral (fun x => positive x + negative x) a l0 l1) u).
  - unfold add2, mul2, spectral. cbn. destruct H. f_equal; field; lra.
  - rewrite (spectral_ext _ (fun x => x)) by apply positive_negative. rewrite spectral_id; auto.
Qed.

Theorem Double_repeated a l : 2 * l = m00 a + m11 a -> l * l = m00 a * m11 a - m01 a * m10 a ->
  forall left right,
  Double_GetFluxUpwind a left right = if Rle_dec 0 l then mul2 a left else mul2 a right.
Proof.
  intros S P left right. unfold Double_GetFluxUpwind. rewrite (repeated_eigenvalue _ _ S P).
  destruct (Rle_dec 0 l); [reflexivity|]. destruct (Rge_dec 0 l); [reflexivity|lra].
Qed.

Lemma real_eigenvalues a : 0 <= (m00 a + m11 a) * (m00 a + m11 a) - 4 * (m00 a * m11 a - m01 a * m10 a) ->
  (exists l0 l1, eigenvalues2 a l0 l1) \/
  (exists l, 2 * l = m00 a + m11 a /\ l * l = m00 a * m11 a - m01 a * m10 a).
Proof.
  set (t := m00 a + m11 a). set (d := m00 a * m11 a - m01 a * m10 a). intros H.
  destruct H as [H|H].
  - left. pose proof (sqrt_lt_R0 _ H). pose proof (sqrt_sqrt _ (Rlt_le _ _ H)).
    exists ((t - sqrt (t * t - 4 * d)) / 2), ((t + sqrt (t * t - 4 * d)) / 2).
    unfold eigenvalues2. fold t d. set (s := sqrt (t * t - 4 * d)) in *. repeat split; [lra|field|].
    replace ((t - s) / 2 * ((t + s) / 2)) with ((t * t - s * s) / 4) by field. rewrite H1. field.
  - right. exists (t / 2). split; [field|]. nra.
Qed.

Lemma Double_consistent' a :
  0 <= (m00 a + m11 a) * (m00 a + m11 a) - 4 * (m00 a * m11 a - m01 a * m10 a) ->
  forall u, Double_GetFluxUpwind a u u = Double_GetFlux a u.
Proof.
  intros H u. destruct (real_eigenvalues a H) as [[l0 [l1 E]]|[l [S P]]].
  - apply (Double_consistent _ _ _ E).
  - rewrite (Double_repeated _ _ S P). destruct (Rle_dec 0 l); reflexivity.
Qed.

(** ** Any number of equations *)

Lemma sum_ext n f g : (forall i, (i < n)%nat -> f i = g i) -> sum n f = sum n g.
Proof. induction n; intros H; cbn; [reflexivity|]. rewrite IHn, H by auto. reflexivity. Qed.

Lemma sum_add n f g : sum n (fun i => f i + g i) = sum n f + sum n g.
Proof. induction n; cbn; [ring|]. rewrite IHn. ring. Qed.

Lemma sum_mul_l n c f : sum n (fun i => c * f i) = c * sum n f.
Proof. induction n; cbn; [ring|]. rewrite IHn. ring. Qed.

Lemma sum_mul_r n c f : sum n (fun i => f i * c) = sum n f * c.
Proof. induction n; cbn; [ring|]. rewrite IHn. ring. Qed.

Lemma sum_0 n : sum n (fun _ => 0) = 0.
Proof. induction n; cbn; [ring|]. rewrite IHn. ring. Qed.

Lemma sum_swap n m f : sum n (fun i => sum m (fun j => f i j)) = sum m (fun j => sum n (fun i => f i j)).
Proof.
  induction n; cbn; [rewrite sum_0; reflexivity|]. rewrite IHn, <- sum_add. reflexivity.
Qed.

Lemma sum_single n i f : (i < n)%nat -> sum n (fun j => if Nat.eq_dec i j then f j else 0) = f i.
Proof.
  induction n; intros H; cbn; [lia|]. destruct (Nat.eq_dec i n) as [->|N].
  - rewrite (sum_ext _ _ (fun _ => 0)); [rewrite sum_0; ring|].
    intros j Hj. destruct (Nat.eq_dec n j); [lia|reflexivity].
  - rewrite IHn by lia. ring.
Qed.

Lemma spectralK_id K a values V W : eigen_contract K a values V W -> forall i j, (i < K)%nat -> (j < K)%nat ->
  spectralK (fun x => x) K values V W i j = a i j.
Proof.
  intros [H1 [H2 H3]] i j Hi Hj. unfold spectralK.
  rewrite (sum_ext _ _ (fun k => sum K (fun m => a i m * V m k * W k j))).
  2:{ intros k Hk. rewrite <- H1 by auto. rewrite <- sum_mul_r. reflexivity. }
  rewrite sum_swap. rewrite (sum_ext _ _ (fun m => if Nat.eq_dec j m then a i m else 0)).
  - apply (sum_single _ j (fun m => a i m)). auto.
  - intros m Hm. rewrite (sum_ext _ _ (fun k => a i m * (V m k * W k j))) by (intros; ring).
    rewrite sum_mul_l, H2 by auto. destruct (Nat.eq_dec m j), (Nat.eq_dec j m); try congruence; ring.
Qed.

Theorem Multiple_upwind K values V W left right i : 
  Multiple_GetFluxUpwind K values V W left right i =
  mulMV K (spectralK positive K values V W) left i + mulMV K (spectralK negative K values V W) right i.
Proof.
  assert (forall g v, mulMV K (spectralK g K values V W) v i =
    sum K (fun k => V i k * g (values k) * sum K (fun j => W k j * v j))) as E.
  { intros g v. unfold mulMV, spectralK.
    rewrite (sum_ext K _ (fun j => sum K (fun k => V i k * g (values k) * (W k j * v j)))).
    - rewrite sum_swap. apply sum_ext. intros k Hk. apply sum_mul_l.
    - intros j Hj. rewrite <- sum_mul_r. apply sum_ext. intros. ring. }
  rewrite !E, <- sum_add. unfold Multiple_GetFluxUpwind. apply sum_ext. intros k Hk. cbv zeta.
  unfold positive, negative.
  destruct (Rgt_dec (values k) 0).
  - rewrite Rmax_left, Rmin_right by lra. ring.
  - rewrite Rmax_right, Rmin_left by lra. ring.
Qed.

Lemma Multiple_consistent K a values V W : eigen_contract K a values V W -> forall u i, (i < K)%nat ->
  Multiple_GetFluxUpwind K values V W u u i = Multiple_GetFlux K a u i.
Proof.
  intros H u i Hi. rewrite Multiple_upwind. unfold Multiple_GetFlux, mulMV. rewrite <- sum_add.
  apply sum_ext. intros j Hj. rewrite <- (spectralK_id K a values V W H i j Hi Hj).
  unfold spectralK. rewrite <- Rmult_plus_distr_r, <- sum_add. f_equal. apply sum_ext. intros k Hk.
  rewrite <- (positive_negative (values k)) at 3. ring.
Qed.

(** ** Rotation *)

Lemma rotated_single c nu u :
  Single_GetFluxUpwind (normal_coefficient c nu) u u = times1 (Simple_GetFluxMatrix1 c u) nu.
Proof.
  rewrite (godunov_consistent _ _ (Single_godunov _)).
  destruct c as [[cx cy] cz], nu as [[nx ny] nz]. unfold Single_GetFlux, times1. cbn. ring.
Qed.

Lemma rotated_burgers c nu u :
  Burgers_GetFluxUpwind (normal_coefficient c nu) u u = times1 (Burgers_GetFluxMatrix c u) nu.
Proof.
  rewrite (godunov_consistent _ _ (Burgers_godunov _)).
  destruct c as [[cx cy] cz], nu as [[nx ny] nz]. unfold Burgers_GetFlux, times1. cbn. field.
Qed.

Lemma rotated_double c nu u : let a := normal_mat2 c nu in
  0 <= (m00 a + m11 a) * (m00 a + m11 a) - 4 * (m00 a * m11 a - m01 a * m10 a) ->
  Double_GetFluxUpwind a u u = times2 (Simple_GetFluxMatrix2 c u) nu.
Proof.
  intros a H. rewrite Double_consistent' by auto. subst a. clear H.
  destruct c as [[cx cy] cz], nu as [[nx ny] nz]. unfold Double_GetFlux, mul2, times2. cbn. f_equal; ring.
Qed.

Lemma rotated_multiple K c nu values V W : eigen_contract K (normal_mat c nu) values V W ->
  forall u i, (i < K)%nat ->
  Multiple_GetFluxUpwind K values V W u u i = timesK (Simple_GetFluxMatrixK K c u) nu i.
Proof.
  intros H u i Hi. rewrite (Multiple_consistent _ _ _ _ _ H) by auto. clear H.
  destruct c as [[cx cy] cz], nu as [[nx ny] nz]. unfold Multiple_GetFlux, timesK, mulMV. cbn.
  unfold mulMV. rewrite <- !sum_mul_r, <- !sum_add. apply sum_ext. intros. ring.
Qed.

(** ** The accessors [L] and [R] *)

Definition diag2 (l a r : Mat2) (x y : R) : Prop :=
  mul2 l (mul2 a (m00 r, m10 r)) = (x, 0) /\ mul2 l (mul2 a (m01 r, m11 r)) = (0, y).

Lemma Double_LR a l0 l1 : eigenvalues2 a l0 l1 -> diag2 (Double_L a) a (Double_R a) l0 l1.
Proof.
  intros H. pose proof (GetEigenVectors_det _ _ _ H) as D.
  destruct (eigenvector_spec _ _ _ H) as [E0 E1]. revert D.
  unfold diag2, Double_L, Double_R, GetEigenVectors. rewrite (GetEigenValues_spec _ _ _ H).
  unfold det2. cbn [m00 m01 m10 m11]. intros D.
  rewrite <- !surjective_pairing, E0, E1.
  destruct (GetEigenVector a l0) as [x0 y0], (GetEigenVector a l1) as [x1 y1].
  unfold mul2, GetInverseEigenVectors. cbn in *. split; f_equal; field; auto.
Qed.
