(** Proofs about the WENO limiters. *)
From Coq Require Import Reals List Arith Lia Lra.
From Verif Require Import Vec3 RSum Model_Basis Model_Projection Spec_Basis Spec_Projection Proof_Vincent Proof_Ortho Proof_Projection.
Import ListNotations.
Open Scope R_scope.

Definition none : Value := fun _ : nat => 0.

(** ** Weights *)

Lemma weights_sum_rsum (ws : list Value) r : weights_sum ws r = rsum (length ws) (fun i => nth i ws none r).
Proof.
  unfold weights_sum. induction ws as [|w ws IH]; [reflexivity|]. cbn [fold_left length].
  rewrite (fold_sum (A := Value) (fun w => w r)). rewrite rsum_first. cbn [nth]. rewrite <- IH. ring.
Qed.

Lemma linear_weights_length w0 n : length (linear_weights w0 n) = S n.
Proof. unfold linear_weights. rewrite app_length, repeat_length. cbn. lia. Qed.
Lemma linear_weights_pos w0 n i : 0 < w0 -> w0 * INR n < 1 -> (i < S n)%nat -> 0 < nth i (linear_weights w0 n) 0.
Proof.
  intros P L I. unfold linear_weights. destruct (Nat.lt_ge_cases i n).
  - rewrite app_nth1 by (rewrite repeat_length; lia). rewrite (nth_indep _ 0 w0) by (rewrite repeat_length; lia).
    rewrite nth_repeat. exact P.
  - rewrite app_nth2 by (rewrite repeat_length; lia). rewrite repeat_length. replace (i - n)%nat with 0%nat by lia. cbn [nth]. lra.
Qed.

Lemma nth_map {A B} (f : A -> B) l i d d' : (i < length l)%nat -> nth i (map f l) d' = f (nth i l d).
Proof. intros L. rewrite (nth_indep _ d' (f d)) by (rewrite map_length; exact L). apply map_nth. Qed.

Section Weights.
Variables (w0 eps : R) (n : nat) (betas : list Value).
Hypothesis W0 : 0 < w0.
Hypothesis W1 : w0 * INR n < 1.
Hypothesis E0 : 0 < eps.
Hypothesis Len : length betas = S n.
Hypothesis Beta : forall i r, (i < S n)%nat -> 0 <= nth i betas none r.

Lemma smooth_weights_length : length (smooth_weights w0 eps n betas) = S n.
Proof. unfold smooth_weights. rewrite map_length, combine_length, linear_weights_length, Len. lia. Qed.
Lemma smooth_weights_nth i r : (i < S n)%nat -> nth i (smooth_weights w0 eps n betas) none r =
  nth i (linear_weights w0 n) 0 / ((nth i betas none r + eps) * (nth i betas none r + eps)).
Proof.
  intros I. unfold smooth_weights. rewrite (nth_map _ _ i (0, none)) by (rewrite combine_length, linear_weights_length, Len; lia).
  rewrite combine_nth by (rewrite linear_weights_length; symmetry; exact Len). reflexivity.
Qed.
Lemma smooth_weights_pos i r : (i < S n)%nat -> 0 < nth i (smooth_weights w0 eps n betas) none r.
Proof.
  intros I. rewrite smooth_weights_nth by exact I. apply Rdiv_lt_0_compat; [apply linear_weights_pos; assumption|].
  specialize (Beta i r I). nra.
Qed.
Lemma smooth_weights_sum_pos r : 0 < weights_sum (smooth_weights w0 eps n betas) r.
Proof. rewrite weights_sum_rsum, smooth_weights_length. apply rsum_pos; [lia|]. intros i I. apply smooth_weights_pos, I. Qed.
Lemma nonlinear_weights_length : length (nonlinear_weights w0 eps n betas) = S n.
Proof. unfold nonlinear_weights. rewrite map_length. apply smooth_weights_length. Qed.
Lemma nonlinear_weights_nth i r : (i < S n)%nat -> nth i (nonlinear_weights w0 eps n betas) none r =
  nth i (smooth_weights w0 eps n betas) none r / weights_sum (smooth_weights w0 eps n betas) r.
Proof.
  intros I. unfold nonlinear_weights. rewrite (nth_map _ _ i none) by (rewrite smooth_weights_length; exact I). reflexivity.
Qed.
Lemma nonlinear_weights_pos i r : (i < S n)%nat -> 0 < nth i (nonlinear_weights w0 eps n betas) none r.
Proof.
  intros I. rewrite nonlinear_weights_nth by exact I. apply Rdiv_lt_0_compat; [apply smooth_weights_pos, I|apply smooth_weights_sum_pos].
Qed.
Lemma nonlinear_weights_sum r : rsum (S n) (fun i => nth i (nonlinear_weights w0 eps n betas) none r) = 1.
Proof.
  pose proof (smooth_weights_sum_pos r) as P.
  rewrite (rsum_ext _ _ (fun i => nth i (smooth_weights w0 eps n betas) none r * / weights_sum (smooth_weights w0 eps n betas) r))
    by (intros i I; apply nonlinear_weights_nth, I).
  rewrite rsum_mul_r. rewrite weights_sum_rsum, smooth_weights_length in P |- *. apply Rinv_r. lra.
Qed.
End Weights.

(** ** The smoothness indicator is not negative *)

Lemma Taylor3_GetSmoothness_nonneg k integral volume : 0 < volume -> (forall c, 0 <= integral c) ->
  0 <= Taylor3_GetSmoothness k integral volume.
Proof.
  intros V I. assert (0 < Rpower volume (2 / 3 - 1)) as P1 by apply exp_pos. assert (0 < Rpower volume (4 / 3 - 1)) as P2 by apply exp_pos.
  destruct k as [|[|[|k]]]; unfold Taylor3_GetSmoothness; cbv zeta;
    repeat (apply Rplus_le_le_0_compat); try apply I; try apply Rle_refl;
    try (apply Rmult_le_pos; [repeat apply Rplus_le_le_0_compat; apply I|lra]).
Qed.
Lemma GetSmoothness_nonneg k N taylor p r : ready N taylor (p_basis p) -> positive_weights (o_gauss (p_basis p)) -> 0 <= GetSmoothness k p r.
Proof.
  intros B W. apply Taylor3_GetSmoothness_nonneg.
  - rewrite (Measure_volume _ _ _ B). apply (volume_pos _ _ _ B).
  - intros c. apply Integrate_nonneg; [exact W|]. intros. apply Rle_0_sqr.
Qed.

(** ** Combination of candidates *)

Lemma fold_accumulate cs : forall ws init, length cs = length ws ->
  let q := fold_left (fun acc pw => accumulate (scale_rows (snd pw) (fst pw)) acc) (combine cs ws) init in
  p_basis q = p_basis init /\
  forall d r c, p_coeff q r c = p_coeff init r c + rsum (length cs) (fun i => p_coeff (nth i cs d) r c * nth i ws none r).
Proof.
  induction cs as [|p cs IH]; intros [|w ws] init L; try discriminate L; cbn [combine fold_left length] in *.
  - split; [reflexivity|]. intros. cbn [rsum]. ring.
  - destruct (IH ws (accumulate (scale_rows w p) init) ltac:(lia)) as (B & C). split; [exact B|].
    intros d r c. cbn [fst snd]. rewrite (C d). rewrite rsum_first. cbn [nth accumulate scale_rows p_coeff]. ring.
Qed.

Lemma nth_firstn {A} (l : list A) n i d : (i < n)%nat -> nth i (firstn n l) d = nth i l d.
Proof.
  revert n i; induction l as [|x l IH]; intros [|n] [|i] L; try lia; try reflexivity. cbn [firstn nth]. apply IH. lia.
Qed.

Lemma combine_candidates_coeff n cs ws d : length cs = S n -> length ws = S n ->
  p_basis (combine_candidates cs ws d) = p_basis (nth n cs d) /\
  forall r c, p_coeff (combine_candidates cs ws d) r c = rsum (S n) (fun i => p_coeff (nth i cs d) r c * nth i ws none r).
Proof.
  intros L M. unfold combine_candidates. rewrite L. cbv zeta. replace (S n - 1)%nat with n by lia.
  destruct (fold_accumulate (firstn n cs) (firstn n ws) (scale_rows (nth n ws none) (nth n cs d))) as (B & C).
  { rewrite !firstn_length. lia. }
  split; [exact B|]. intros r c. rewrite (C d). rewrite firstn_length, L. replace (Nat.min n (S n)) with n by lia.
  cbn [rsum scale_rows p_coeff]. rewrite Rplus_comm. f_equal. apply rsum_ext. intros i I. rewrite !nth_firstn by exact I. reflexivity.
Qed.

Lemma coeff_value N taylor (p : nat -> Projection) (w : nat -> R) n q r b :
  (forall i, (i < n)%nat -> p_basis (p i) = b) -> p_basis q = b ->
  (forall c, p_coeff q r c = rsum n (fun i => p_coeff (p i) r c * w i)) ->
  forall x, GlobalToValue N taylor q x r = rsum n (fun i => GlobalToValue N taylor (p i) x r * w i).
Proof.
  intros B Q C x. unfold GlobalToValue. rewrite Q.
  rewrite (rsum_ext n _ (fun i => rsum N (fun c => p_coeff (p i) r c * w i * nth c (OrthoNormal_at N taylor b x) 0))).
  - rewrite rsum_swap. apply rsum_ext. intros c _. rewrite C, rsum_mul_r. reflexivity.
  - intros i I. rewrite (B i I), <- rsum_mul_r. apply rsum_ext. intros. ring.
Qed.

(** ** Candidates *)

(** a polynomial of degree at most 3 about one point is one about any other *)
Definition translate (a b d : R) (c : nat -> R) (j : nat) : R :=
  match j with
  | 0%nat => poly3 c a b d
  | 1%nat => poly3 (dX c) a b d | 2%nat => poly3 (dY c) a b d | 3%nat => poly3 (dZ c) a b d
  | 4%nat => poly3 (dX (dX c)) a b d / 2 | 5%nat => poly3 (dY (dX c)) a b d | 6%nat => poly3 (dZ (dX c)) a b d
  | 7%nat => poly3 (dY (dY c)) a b d / 2 | 8%nat => poly3 (dZ (dY c)) a b d | 9%nat => poly3 (dZ (dZ c)) a b d / 2
  | _ => c j
  end.
Lemma poly3_translate a b d c x y z : poly3 c (x + a) (y + b) (z + d) = poly3 (translate a b d c) x y z.
Proof. unfold poly3 at 1 2. cbn [translate]. unfold poly3, dX, dY, dZ. field. Qed.
Lemma translate_cut k a b d c j : (components k <= j < 20)%nat -> translate a b d (cut k c) j = 0.
Proof.
  intros L. destruct k as [|[|[|k]]]; cbn [components] in L; try lia.
  - do 20 (destruct j as [|j]; [try lia; cbn [translate]; unfold poly3, dX, dY, dZ, cut; cbn [Nat.ltb Nat.leb components]; field|]); lia.
  - do 20 (destruct j as [|j]; [try lia; cbn [translate]; unfold poly3, dX, dY, dZ, cut; cbn [Nat.ltb Nat.leb components]; field|]); lia.
  - do 20 (destruct j as [|j]; [try lia; cbn [translate]; unfold poly3, dX, dY, dZ, cut; cbn [Nat.ltb Nat.leb components]; field|]); lia.
Qed.
Lemma poly3_ext c c' x y z : (forall j, (j < 20)%nat -> c j = c' j) -> poly3 c x y z = poly3 c' x y z.
Proof. intros E. unfold poly3. rewrite !E by lia. reflexivity. Qed.
Lemma combination_translate k a b d c x y z :
  combination k c (x + a) (y + b) (z + d) = combination k (translate a b d (cut k c)) x y z.
Proof.
  rewrite <- !combination_poly3, poly3_translate. apply poly3_ext. intros j J. unfold cut at 2.
  destruct (Nat.ltb_spec j (components k)); [reflexivity|]. apply translate_cut. lia.
Qed.

(** the projection of a neighbour on the basis of this cell is the same polynomial *)
Lemma borrow_value k b a x r : (k <= 3)%nat -> ready (Taylor3_N k) (taylor3 k) b ->
  GlobalToValue (Taylor3_N k) (taylor3 k) (Project (Taylor3_N k) (taylor3 k) b (GlobalToValue (Taylor3_N k) (taylor3 k) a)) x r =
  GlobalToValue (Taylor3_N k) (taylor3 k) a x r.
Proof.
  intros K B. set (o := o_center b). set (q := o_center (p_basis a)).
  apply (project_polynomial _ _ _ B _ (fun r => translate (vx o - vx q) (vy o - vy q) (vz o - vz q) (cut k (GetCoeffOnTaylorBasis (Taylor3_N k) a r)))).
  intros y s. rewrite value_combination by exact K. fold q.
  replace (vx y - vx q) with (vx y - vx o + (vx o - vx q)) by ring.
  replace (vy y - vy q) with (vy y - vy o + (vy o - vy q)) by ring.
  replace (vz y - vz q) with (vz y - vz o + (vz o - vz q)) by ring.
  rewrite combination_translate.
  destruct (combination_values k (translate (vx o - vx q) (vy o - vy q) (vz o - vz q) (cut k (GetCoeffOnTaylorBasis (Taylor3_N k) a s)))
    (vx y - vx o) (vy y - vy o) (vz y - vz o) K) as (_ & ->).
  fold o. unfold taylor3. destruct y as [y1 y2 y3], o as [o1 o2 o3]. reflexivity.
Qed.

(** the mean over a cell by its quadrature *)
Definition mean (g : Gauss) (f : vec -> R) : R := Integrate f g / Integrate (fun _ => 1) g.

Section Cell.
Variables (k : nat) (mine : Projection) (adj : list Projection).
Let N := Taylor3_N k.
Let T := taylor3 k.
Hypothesis K : (k <= 3)%nat.
Hypothesis Rd : ready N T (p_basis mine).
Hypothesis Wt : positive_weights (o_gauss (p_basis mine)).

Lemma Borrow_length : length (Borrow k mine adj) = S (length adj).
Proof. unfold Borrow. rewrite app_length, map_length. cbn. lia. Qed.
Lemma Borrow_last d : nth (length adj) (Borrow k mine adj) d = mine.
Proof. unfold Borrow. rewrite app_nth2; rewrite map_length; [|lia]. rewrite Nat.sub_diag. reflexivity. Qed.
Lemma Borrow_nth i d : (i < length adj)%nat -> nth i (Borrow k mine adj) d =
  let p := Project N T (p_basis mine) (GlobalToValue N T (nth i adj mine)) in
  shift (fun r => average mine r - average p r) p.
Proof.
  intros I. unfold Borrow. rewrite app_nth1 by (rewrite map_length; exact I).
  rewrite (nth_map _ _ i mine) by exact I. reflexivity.
Qed.
Lemma Borrow_basis i d : (i < S (length adj))%nat -> p_basis (nth i (Borrow k mine adj) d) = p_basis mine.
Proof.
  intros I. destruct (Nat.eq_dec i (length adj)) as [->|D]; [rewrite Borrow_last; reflexivity|]. rewrite Borrow_nth by lia. reflexivity.
Qed.
Lemma Borrow_average i d r : (i < S (length adj))%nat -> average (nth i (Borrow k mine adj) d) r = average mine r.
Proof.
  intros I. destruct (Nat.eq_dec i (length adj)) as [->|D]; [rewrite Borrow_last; reflexivity|]. rewrite Borrow_nth by lia. cbv zeta.
  rewrite (shift_average _ _ _ Rd) by reflexivity. ring.
Qed.
Lemma Borrow_value i d x r : (i < length adj)%nat ->
  GlobalToValue N T (nth i (Borrow k mine adj) d) x r =
  GlobalToValue N T (nth i adj mine) x r +
    (average mine r - mean (o_gauss (p_basis mine)) (fun y => GlobalToValue N T (nth i adj mine) y r)).
Proof.
  intros I. rewrite Borrow_nth by exact I. cbv zeta. rewrite (shift_value _ _ _ Rd) by reflexivity.
  unfold N, T. rewrite borrow_value by assumption. f_equal. f_equal. rewrite (project_average _ _ _ Rd). reflexivity.
Qed.
Lemma betas_ok (f : Projection -> Projection) : (forall p, p_basis (f p) = p_basis p) ->
  forall i r, (i < S (length adj))%nat ->
  0 <= nth i (map (GetSmoothness k) (map f (Borrow k mine adj))) none r.
Proof.
  intros B i r I. rewrite map_map. rewrite (nth_indep _ none (GetSmoothness k (f mine))) by (rewrite map_length, Borrow_length; exact I).
  rewrite (map_nth (fun p => GetSmoothness k (f p))).
  apply (GetSmoothness_nonneg k N T); rewrite B, Borrow_basis by exact I; assumption.
Qed.

Section Limited.
Variables (w0 eps : R).
Hypothesis W0 : 0 < w0.
Hypothesis W1 : w0 * INR (length adj) < 1.
Hypothesis E0 : 0 < eps.

Definition lazy_weights := nonlinear_weights w0 eps (length adj) (map (GetSmoothness k) (Borrow k mine adj)).

Lemma lazy_betas i r : (i < S (length adj))%nat -> 0 <= nth i (map (GetSmoothness k) (Borrow k mine adj)) none r.
Proof. intros I. rewrite <- (map_id (Borrow k mine adj)). apply (betas_ok (fun p => p)); [reflexivity|exact I]. Qed.

Lemma lazy_combination :
  length lazy_weights = S (length adj) /\
  (forall i r, (i < S (length adj))%nat -> 0 < nth i lazy_weights none r) /\
  (forall r, rsum (S (length adj)) (fun i => nth i lazy_weights none r) = 1) /\
  p_basis (Lazy_call k w0 eps mine adj) = p_basis mine /\
  (forall r c, p_coeff (Lazy_call k w0 eps mine adj) r c =
     rsum (S (length adj)) (fun i => p_coeff (nth i (Borrow k mine adj) mine) r c * nth i lazy_weights none r)).
Proof.
  assert (length (map (GetSmoothness k) (Borrow k mine adj)) = S (length adj)) as LB by (rewrite map_length; apply Borrow_length).
  pose proof (nonlinear_weights_length w0 eps (length adj) _ LB) as LW. fold lazy_weights in LW.
  destruct (combine_candidates_coeff (length adj) (Borrow k mine adj) lazy_weights mine Borrow_length LW) as (B & C).
  split; [exact LW|]. split; [|split; [|split]].
  - intros i r I. apply nonlinear_weights_pos; try assumption. intros; apply lazy_betas; assumption.
  - intros r. apply nonlinear_weights_sum; try assumption. intros; apply lazy_betas; assumption.
  - rewrite Borrow_last in B. exact B.
  - exact C.
Qed.

Lemma lazy_average r : average (Lazy_call k w0 eps mine adj) r = average mine r.
Proof.
  destruct lazy_combination as (_ & _ & S1 & B & C). unfold average at 1. rewrite B, C, <- rsum_mul_r.
  rewrite (rsum_ext _ _ (fun i => average mine r * nth i lazy_weights none r)).
  - rewrite rsum_mul_l, S1. ring.
  - intros i I. rewrite <- (Borrow_average i mine r I). unfold average. rewrite Borrow_basis by exact I. ring.
Qed.

(** *** Eigen *)

Variable Kc : nat.

Definition face_weights (face : FaceData) :=
  nonlinear_weights w0 eps (length adj) (map (GetSmoothness k) (map (LeftMultiply Kc (f_L face (average mine))) (Borrow k mine adj))).

Lemma face_combination face :
  length (face_weights face) = S (length adj) /\
  (forall i r, (i < S (length adj))%nat -> 0 < nth i (face_weights face) none r) /\
  (forall r, rsum (S (length adj)) (fun i => nth i (face_weights face) none r) = 1) /\
  p_basis (ReconstructOnFace k Kc w0 eps mine (Borrow k mine adj) face) = p_basis mine /\
  (forall r c, p_coeff (ReconstructOnFace k Kc w0 eps mine (Borrow k mine adj) face) r c =
     rsum Kc (fun m => f_R face (average mine) r m *
       rsum (S (length adj)) (fun i =>
         rsum Kc (fun l => f_L face (average mine) m l * p_coeff (nth i (Borrow k mine adj) mine) l c) * nth i (face_weights face) none m))
     * f_volume face).
Proof.
  set (rot := map (LeftMultiply Kc (f_L face (average mine))) (Borrow k mine adj)).
  assert (length rot = S (length adj)) as LR by (unfold rot; rewrite map_length; apply Borrow_length).
  assert (length (map (GetSmoothness k) rot) = S (length adj)) as LB by (rewrite map_length; exact LR).
  pose proof (nonlinear_weights_length w0 eps (length adj) _ LB) as LW.
  assert (forall i r, (i < S (length adj))%nat -> 0 <= nth i (map (GetSmoothness k) rot) none r) as BN
    by (intros; apply betas_ok; [reflexivity|assumption]).
  destruct (combine_candidates_coeff (length adj) rot (face_weights face) mine LR LW) as (B & C).
  assert (forall i, (i < S (length adj))%nat -> nth i rot mine = LeftMultiply Kc (f_L face (average mine)) (nth i (Borrow k mine adj) mine)) as NR.
  { intros i I. unfold rot. rewrite (nth_indep _ mine (LeftMultiply Kc (f_L face (average mine)) mine)) by (rewrite map_length, Borrow_length; exact I).
    apply map_nth. }
  split; [exact LW|]. split; [|split; [|split]].
  - intros i r I. apply nonlinear_weights_pos; assumption.
  - intros r. apply nonlinear_weights_sum; assumption.
  - unfold ReconstructOnFace. cbv zeta. cbn [pscale LeftMultiply p_basis]. rewrite Borrow_length.
    replace (S (length adj) - 1)%nat with (length adj) by lia. fold rot. unfold face_weights in B. fold rot in B. rewrite B, NR by lia.
    cbn [LeftMultiply p_basis]. rewrite Borrow_basis by lia. reflexivity.
  - intros r c. unfold ReconstructOnFace. cbv zeta. cbn [pscale LeftMultiply p_coeff]. rewrite Borrow_length.
    replace (S (length adj) - 1)%nat with (length adj) by lia. fold rot. f_equal. apply rsum_ext. intros m M. f_equal.
    unfold face_weights in C. fold rot in C. rewrite C. apply rsum_ext. intros i I. rewrite NR by exact I. reflexivity.
Qed.

(** R times L leaves the first [Kc] components alone *)
Definition inverse_pair (r l : MatNxN) : Prop := forall i j, (i < Kc)%nat -> (j < Kc)%nat ->
  rsum Kc (fun m => r i m * l m j) = if Nat.eqb i j then 1 else 0.

Lemma face_average face r : (r < Kc)%nat -> inverse_pair (f_R face (average mine)) (f_L face (average mine)) ->
  average (ReconstructOnFace k Kc w0 eps mine (Borrow k mine adj) face) r = average mine r * f_volume face.
Proof.
  intros Lr Inv. destruct (face_combination face) as (_ & _ & S1 & B & C).
  unfold average at 1. rewrite B, C. set (a := o_coeff (p_basis mine) 0%nat 0%nat).
  set (Rm := f_R face (average mine)) in *. set (Lm := f_L face (average mine)) in *.
  replace (rsum Kc _) with (rsum Kc (fun m => Rm r m * rsum Kc (fun l => Lm m l * p_coeff mine l 0%nat))).
  - rewrite (rsum_ext Kc _ (fun m => rsum Kc (fun l => Rm r m * Lm m l * p_coeff mine l 0%nat))).
    2: { intros m M. rewrite <- rsum_mul_l. apply rsum_ext. intros. ring. }
    rewrite rsum_swap. rewrite (rsum_ext Kc _ (fun l => (if Nat.eqb r l then 1 else 0) * p_coeff mine l 0%nat)).
    2: { intros l Ll. rewrite rsum_mul_r, (Inv r l Lr Ll). reflexivity. }
    rewrite (rsum_single Kc r); [|exact Lr|].
    + rewrite Nat.eqb_refl. unfold average. fold a. ring.
    + intros l _ D. destruct (Nat.eqb_spec r l); [congruence|ring].
  - apply rsum_ext. intros m M. f_equal.
    rewrite (rsum_ext (S (length adj)) _ (fun i => rsum Kc (fun l => Lm m l * p_coeff mine l 0%nat) * nth i (face_weights face) none m)).
    + rewrite rsum_mul_l, S1. ring.
    + intros i I. f_equal. apply rsum_ext. intros l Ll. f_equal.
      pose proof (Borrow_average i mine l I) as A. unfold average in A. rewrite Borrow_basis in A by exact I.
      apply (Rmult_eq_reg_r (o_coeff (p_basis mine) 0%nat 0%nat)); [exact A|apply Rgt_not_eq, (a00_pos _ _ _ Rd)].
Qed.

Lemma fold_faces (F : FaceData -> Projection) faces : forall init,
  let q := fold_left (fun acc face => accumulate (F face) acc) faces init in
  p_basis q = p_basis init /\
  forall r c, p_coeff q r c = p_coeff init r c + fold_left (fun s face => s + p_coeff (F face) r c) faces 0.
Proof.
  induction faces as [|f faces IH]; intros init; cbn [fold_left].
  - split; [reflexivity|]. intros. ring.
  - destruct (IH (accumulate (F f) init)) as (B & C). split; [exact B|]. intros r c. cbv zeta in C. rewrite C.
    cbn [accumulate p_coeff]. rewrite (fold_sum (fun face => p_coeff (F face) r c) faces (0 + _)). ring.
Qed.
Lemma fold_linear {A} (f g : A -> R) c l : (forall x, In x l -> f x * c = g x) ->
  fold_left (fun s x => s + f x) l 0 * c = fold_left (fun s x => s + g x) l 0.
Proof.
  induction l as [|x l IH]; intros E; cbn [fold_left]; [ring|].
  rewrite (fold_sum f), (fold_sum g), <- IH, <- (E x); [ring|left; reflexivity|]. intros y Y. apply E. right. exact Y.
Qed.
Lemma fold_positive {A} (f : A -> R) l : l <> [] -> (forall x, In x l -> 0 < f x) -> 0 < fold_left (fun s x => s + f x) l 0.
Proof.
  induction l as [|x l IH]; intros NE P; [congruence|]. cbn [fold_left]. rewrite (fold_sum f).
  assert (0 < f x) by (apply P; left; reflexivity). destruct l as [|y l]; [cbn [fold_left]; lra|].
  assert (0 < fold_left (fun s x => s + f x) (y :: l) 0) by (apply IH; [discriminate|intros z Z; apply P; right; exact Z]). lra.
Qed.

Lemma eigen_average faces : faces <> [] -> (forall f, In f faces -> 0 < f_volume f) ->
  (forall f, In f faces -> inverse_pair (f_R f (average mine)) (f_L f (average mine))) ->
  exists q, Eigen_call k Kc w0 eps mine adj faces = Some q /\ p_basis q = p_basis mine /\
    forall r, (r < Kc)%nat -> average q r = average mine r.
Proof.
  intros NE V Inv. unfold Eigen_call. cbv zeta.
  pose proof (fold_positive f_volume faces NE V) as P.
  destruct (Req_EM_T _ 0) as [Z|_]; [lra|]. eexists. split; [reflexivity|].
  destruct (fold_faces (ReconstructOnFace k Kc w0 eps mine (Borrow k mine adj)) faces (mkProjection (fun _ _ => 0) (p_basis mine))) as (B & C).
  cbv zeta in B, C. split; [exact B|]. intros r Lr. unfold average at 1. cbn [unscale p_coeff p_basis]. rewrite B, C. cbn [p_coeff p_basis].
  set (F := ReconstructOnFace k Kc w0 eps mine (Borrow k mine adj)) in *.
  set (a := o_coeff (p_basis mine) 0%nat 0%nat).
  assert (E : fold_left (fun s face => s + p_coeff (F face) r 0%nat) faces 0 * a = average mine r * fold_left (fun v face => v + f_volume face) faces 0).
  { rewrite (fold_linear (fun face => p_coeff (F face) r 0%nat) (fun face => f_volume face * average mine r) a).
    - rewrite <- (fold_linear f_volume (fun face => f_volume face * average mine r) (average mine r)); [ring|reflexivity].
    - intros f I. pose proof (face_average f r Lr (Inv f I)) as A. unfold average at 1 in A.
      destruct (face_combination f) as (_ & _ & _ & Bf & _). rewrite Bf in A. fold F in A. fold a in A. rewrite A. ring. }
  unfold Rdiv. rewrite Rplus_0_l. rewrite (Rmult_comm (fold_left _ faces 0) (/ _)), Rmult_assoc, E. field. lra.
Qed.

(** the values: a combination in the characteristic variables of each face *)
Lemma candidates_value cs ws x r : length cs = S (length adj) -> length ws = S (length adj) ->
  (forall i, (i < S (length adj))%nat -> p_basis (nth i cs mine) = p_basis mine) ->
  GlobalToValue N T (combine_candidates cs ws mine) x r =
  rsum (S (length adj)) (fun i => GlobalToValue N T (nth i cs mine) x r * nth i ws none r).
Proof.
  intros L M B. destruct (combine_candidates_coeff (length adj) cs ws mine L M) as (Bq & C).
  apply (coeff_value N T (fun i => nth i cs mine) (fun i => nth i ws none r) _ _ r (p_basis mine) B).
  - rewrite Bq. apply B. lia.
  - intros c. apply C.
Qed.
Lemma face_value face x r :
  GlobalToValue N T (ReconstructOnFace k Kc w0 eps mine (Borrow k mine adj) face) x r =
  rsum Kc (fun m => f_R face (average mine) r m * rsum (S (length adj)) (fun i =>
    nth i (face_weights face) none m *
    rsum Kc (fun l => f_L face (average mine) m l * GlobalToValue N T (nth i (Borrow k mine adj) mine) x l))) * f_volume face.
Proof.
  unfold ReconstructOnFace. cbv zeta. rewrite pscale_value, LeftMultiply_value, Borrow_length.
  replace (S (length adj) - 1)%nat with (length adj) by lia. f_equal. apply rsum_ext. intros m M. f_equal.
  set (rot := map (LeftMultiply Kc (f_L face (average mine))) (Borrow k mine adj)).
  assert (forall i, (i < S (length adj))%nat -> nth i rot mine = LeftMultiply Kc (f_L face (average mine)) (nth i (Borrow k mine adj) mine)) as NR
    by (intros i I; unfold rot; rewrite (nth_map _ _ i mine) by (rewrite Borrow_length; exact I); reflexivity).
  destruct (face_combination face) as (LW & _).
  rewrite candidates_value.
  - apply rsum_ext. intros i I. rewrite NR by exact I. rewrite LeftMultiply_value. unfold face_weights, rot. ring.
  - unfold rot. rewrite map_length. apply Borrow_length.
  - exact LW.
  - intros i I. rewrite NR by exact I. cbn [LeftMultiply p_basis]. apply Borrow_basis, I.
Qed.
Lemma fold_faces_value (F : FaceData -> Projection) faces x r : (forall f, p_basis (F f) = p_basis mine) ->
  forall init, p_basis init = p_basis mine ->
  GlobalToValue N T (fold_left (fun acc face => accumulate (F face) acc) faces init) x r =
  GlobalToValue N T init x r + fold_left (fun s face => s + GlobalToValue N T (F face) x r) faces 0.
Proof.
  intros B. induction faces as [|f faces IH]; intros init I; cbn [fold_left]; [ring|].
  rewrite IH by exact I. rewrite accumulate_value by (rewrite I; apply B).
  rewrite (fold_sum (fun face => GlobalToValue N T (F face) x r) faces (0 + _)). ring.
Qed.
Lemma eigen_value faces q x r : Eigen_call k Kc w0 eps mine adj faces = Some q ->
  GlobalToValue N T q x r =
  fold_left (fun s face => s + GlobalToValue N T (ReconstructOnFace k Kc w0 eps mine (Borrow k mine adj) face) x r) faces 0 /
  fold_left (fun s face => s + f_volume face) faces 0.
Proof.
  unfold Eigen_call. cbv zeta. destruct (Req_EM_T _ 0) as [Z|NZ]; [discriminate|]. intros E. injection E as <-.
  rewrite unscale_value. f_equal. rewrite fold_faces_value; [|intros f; apply (face_combination f)|reflexivity].
  unfold GlobalToValue at 1. cbn [p_coeff]. rewrite rsum_zero by (intros; ring). ring.
Qed.

Lemma lazy_value x r : GlobalToValue N T (Lazy_call k w0 eps mine adj) x r =
  rsum (S (length adj)) (fun i => GlobalToValue N T (nth i (Borrow k mine adj) mine) x r * nth i lazy_weights none r).
Proof.
  apply candidates_value; [apply Borrow_length| |intros; apply Borrow_basis; assumption].
  destruct lazy_combination as (L & _). exact L.
Qed.

End Limited.
End Cell.
