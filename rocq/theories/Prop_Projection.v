(** Property theorems C46, C52, C54: orthonormal bases, projections and limiters. *)
From Coq Require Import Reals List Arith Lia Lra.
From Verif Require Import Model_Euler Spec_Euler Proof_Rotated Proof_EigenInverse
  Vec3 RSum Model_Basis Model_Projection Model_WenoEuler Spec_Basis Spec_Projection Proof_Vincent Proof_Ortho Proof_Projection Proof_Weno.
Import ListNotations.
Open Scope R_scope.

(** ** C46 *)

(** The functions of the basis become orthonormal with respect to the quadrature; the new ones are
    combinations of the old ones by a lower triangular matrix with a positive diagonal; the centre stays. *)
Theorem C46_orthonormalize : forall N taylor b gauss, (0 < N)%nat ->
  (forall i j, (i < j)%nat -> l_coeff b i j = 0) -> positive_weights gauss -> independent N (Linear_at N taylor b) gauss ->
  let b' := OrthoNormalize N taylor b gauss in
  l_center b' = l_center b /\
  orthonormal N (Linear_at N taylor b') gauss /\
  (forall i j, (i < j)%nat -> l_coeff b' i j = 0) /\
  exists s : nat -> nat -> R,
    (forall i j, (i < N)%nat -> (i < j)%nat -> s i j = 0) /\ (forall i, (i < N)%nat -> 0 < s i i) /\
    (forall i x, (i < N)%nat ->
       nth i (Linear_at N taylor b' x) 0 = rsum N (fun j => s i j * nth j (Linear_at N taylor b x) 0)) /\
    (forall i j, (i < N)%nat -> l_coeff b' i j = rsum N (fun k => s i k * l_coeff b k j)).
Proof.
  intros N taylor b g P L W I b'. split; [reflexivity|]. split; [apply ortho_orthonormal; assumption|].
  split; [exact (Transform_lower_triangular N _ _ L)|].
  destruct (ortho_done N taylor b g P W I) as (T & D & _). eexists. split; [exact T|]. split; [exact D|]. split.
  - intros i x Li. unfold b'. rewrite OrthoNormalize_at by assumption. apply rsum_ext. intros j _.
    rewrite lower_s by assumption. reflexivity.
  - intros i j Li. apply ortho_coeff; assumption.
Qed.
Print Assumptions C46_orthonormalize.

(** The basis that the constructor of OrthoNormal builds from the Taylor functions: it is orthonormal, its
    matrix is lower triangular with a positive diagonal, and its first function is a positive constant. *)
Theorem C46_orthonormal_basis : forall N taylor gauss center, (0 < N)%nat -> (forall x, nth 0 (taylor x) 0 = 1) ->
  (forall x, length (taylor x) = N) -> positive_weights gauss -> independent N (fun x => taylor (vsub x center)) gauss ->
  let b := OrthoNormal_new N taylor gauss center in
  o_gauss b = gauss /\ o_center b = center /\
  orthonormal N (OrthoNormal_at N taylor b) gauss /\
  (forall i j, (i < j)%nat -> o_coeff b i j = 0) /\ (forall i, (i < N)%nat -> 0 < o_coeff b i i) /\
  (forall x, nth 0 (OrthoNormal_at N taylor b x) 0 = o_coeff b 0%nat 0%nat) /\
  (forall i x, (i < N)%nat ->
     nth i (OrthoNormal_at N taylor b x) 0 = rsum N (fun j => o_coeff b i j * nth j (taylor (vsub x center)) 0)) /\
  Measure b = quadrature (fun _ => 1) gauss.
Proof.
  intros N taylor g center P F L W I b. pose proof (OrthoNormal_new_ready N taylor g center P F L W I) as Rd. fold b in Rd.
  split; [reflexivity|]. split; [reflexivity|]. split; [exact (r_orthonormal _ _ _ Rd)|]. split; [exact (r_lower _ _ _ Rd)|].
  split; [exact (r_diagonal _ _ _ Rd)|]. split; [exact (first_function _ _ _ Rd)|]. split.
  - intros i x Li. apply (OrthoNormal_at_nth N taylor b x i Li).
  - rewrite (Measure_volume _ _ _ Rd), Integrate_quadrature. reflexivity.
Qed.
Print Assumptions C46_orthonormal_basis.

(** two points on a line: the second function is 2x - 1 *)
Definition line_gauss : Gauss := [(1 / 2, V 0 0 0); (1 / 2, V 1 0 0)].
Definition line_taylor (x : vec) : list R := [1; vx x].
Example C46_nonvacuous : positive_weights line_gauss /\
  independent 2 (Linear_at 2 line_taylor (Linear_new v0)) line_gauss /\
  Linear_at 2 line_taylor (OrthoNormalize 2 line_taylor (Linear_new v0) line_gauss) (V 3 7 7) = [1; 5].
Proof.
  assert (forall x, Linear_at 2 line_taylor (Linear_new v0) x = [1; vx x]) as E.
  { intros [x y z]. rewrite Linear_at_new by reflexivity. unfold line_taylor, v0. cbn [vsub vx vy vz]. f_equal. f_equal. ring. }
  split; [|split].
  - intros p [<-|[<-|[]]]; cbn [fst]; lra.
  - intros c H i L. pose proof (H _ (or_introl eq_refl)) as H0. pose proof (H _ (or_intror (or_introl eq_refl))) as H1.
    rewrite E in H0, H1. cbn [rsum snd nth vx] in H0, H1. destruct i as [|[|i]]; [lra|lra|lia].
  - assert (forall i j, gram (Linear_at 2 line_taylor (Linear_new v0)) line_gauss i j =
        nth i [1; 0] 0 * nth j [1; 0] 0 * (1 / 2) + nth i [1; 1] 0 * nth j [1; 1] 0 * (1 / 2)) as A.
    { intros i j. unfold gram, Integrate, line_gauss. cbn [fold_left fst snd]. rewrite !E. cbn [vx]. ring. }
    set (a := gram (Linear_at 2 line_taylor (Linear_new v0)) line_gauss) in *.
    assert (a 0%nat 0%nat = 1) as A00 by (rewrite A; cbn [nth]; field).
    assert (a 0%nat 1%nat = 1 / 2) as A01 by (rewrite A; cbn [nth]; field).
    assert (a 1%nat 1%nat = 1 / 2) as A11 by (rewrite A; cbn [nth]; field).
    assert (ortho_matrix a 1 0%nat 0%nat = 1) as S00.
    { cbn [ortho_matrix Nat.eqb andb]. rewrite A00, sqrt_1. field. }
    assert (forall l, ortho_matrix a 1 1%nat l = ortho_row a (ortho_matrix a 0) 1 l) as S1 by reflexivity.
    assert (forall l, ortho_step a (ortho_matrix a 0) 1 (identity 1%nat) 0 l = if Nat.eqb l 0 then - 1 / 2 else identity 1%nat l) as ST.
    { intros l. unfold ortho_step. cbn [rsum ortho_matrix Nat.eqb andb]. rewrite A00, A01, sqrt_1.
      destruct l as [|l]; cbn [Nat.leb Nat.eqb andb]; [unfold identity; cbn [Nat.eqb]; field|reflexivity]. }
    assert (ortho_norm_sq a 1 (ortho_step a (ortho_matrix a 0) 1 (identity 1%nat) 0) = (1 / 2) * (1 / 2)) as NS.
    { unfold ortho_norm_sq. cbv zeta. cbn [rsum]. rewrite !ST, A00, A01, A11. unfold identity. cbn [Nat.eqb]. field. }
    assert (sqrt ((1 / 2) * (1 / 2)) = 1 / 2) as SQ by (apply sqrt_square; lra).
    assert (ortho_matrix a 1 1%nat 0%nat = -1) as S10.
    { rewrite S1. unfold ortho_row. cbn [seq fold_left]. rewrite NS, SQ, ST. cbn [Nat.eqb]. field. }
    assert (ortho_matrix a 1 1%nat 1%nat = 2) as S11.
    { rewrite S1. unfold ortho_row. cbn [seq fold_left]. rewrite NS, SQ, ST. unfold identity. cbn [Nat.eqb]. field. }
    apply (nth_ext _ _ 0 0); [reflexivity|]. intros i Li. change (i < 2)%nat in Li.
    rewrite OrthoNormalize_at by (exact Li || apply identity_lower). fold a. cbn [Nat.sub].
    rewrite E. cbn [rsum vx]. unfold lower. destruct i as [|[|i]]; [| |lia]; cbn [Nat.leb nth].
    + rewrite S00. ring.
    + rewrite S10, S11. ring.
Qed.

(** ** C52 *)

(** [b] is the basis that the constructor builds from the Taylor functions (C46) *)
Definition built (N : nat) (taylor : vec -> list R) (gauss : Gauss) (center : vec) (b : OrthoNormal) : Prop :=
  b = OrthoNormal_new N taylor gauss center /\ (0 < N)%nat /\ (forall x, nth 0 (taylor x) 0 = 1) /\
  (forall x, length (taylor x) = N) /\ positive_weights gauss /\ independent N (fun x => taylor (vsub x center)) gauss.

Lemma built_ready N taylor gauss center b : built N taylor gauss center b -> ready N taylor b.
Proof. intros (-> & P & F & L & W & I). apply OrthoNormal_new_ready; assumption. Qed.

(** The projection reproduces, at every point, every function that is a combination of the Taylor functions
    about the centre, or of the basis functions; projecting again changes nothing; the average is the mean of
    the projected function and of the projection; and the error is orthogonal to the basis. *)
Theorem C52_projection : forall N taylor gauss center b, built N taylor gauss center b ->
  (forall f c, (forall x r, f x r = rsum N (fun j => c r j * nth j (taylor (vsub x center)) 0)) ->
     forall x r, GlobalToValue N taylor (Project N taylor b f) x r = f x r) /\
  (forall f c, (forall x r, f x r = rsum N (fun j => c r j * nth j (OrthoNormal_at N taylor b x) 0)) ->
     (forall x r, GlobalToValue N taylor (Project N taylor b f) x r = f x r) /\
     forall r j, (j < N)%nat -> p_coeff (Project N taylor b f) r j = c r j) /\
  (forall f r j, (j < N)%nat ->
     p_coeff (Project N taylor b (GlobalToValue N taylor (Project N taylor b f))) r j = p_coeff (Project N taylor b f) r j) /\
  (forall f r, average (Project N taylor b f) r = qmean gauss (fun x => f x r)) /\
  (forall p r, p_basis p = b -> average p r = qmean gauss (fun x => GlobalToValue N taylor p x r)) /\
  (forall f r j, (j < N)%nat ->
     quadrature (fun x => (f x r - GlobalToValue N taylor (Project N taylor b f) x r) * nth j (OrthoNormal_at N taylor b x) 0) gauss = 0).
Proof.
  intros N taylor g center b B. pose proof (built_ready _ _ _ _ _ B) as Rd. destruct B as (E & _).
  assert (o_gauss b = g) as G by (rewrite E; reflexivity). assert (o_center b = center) as C by (rewrite E; reflexivity).
  assert (forall f r j, (j < N)%nat -> p_coeff (Project N taylor b (GlobalToValue N taylor (Project N taylor b f))) r j = p_coeff (Project N taylor b f) r j) as Idem
    by (intros; apply project_idempotent; assumption).
  split; [|split; [|split; [exact Idem|split; [|split]]]].
  - intros f c F. apply (project_polynomial _ _ _ Rd f c). rewrite C. exact F.
  - intros f c F. split; [apply (project_span_value _ _ _ Rd f c F)|apply (project_span _ _ _ Rd f c F)].
  - intros f r. rewrite (project_average _ _ _ Rd), G. unfold qmean. rewrite <- !Integrate_quadrature. reflexivity.
  - intros p r P. rewrite (average_mean _ _ _ Rd p r P), G. unfold qmean. rewrite <- !Integrate_quadrature. reflexivity.
  - intros f r j J. rewrite <- Integrate_quadrature, <- G.
    rewrite (Integrate_ext _ (fun x => f x r * nth j (OrthoNormal_at N taylor b x) 0
      + -1 * (GlobalToValue N taylor (Project N taylor b f) x r * nth j (OrthoNormal_at N taylor b x) 0))) by (intros; ring).
    rewrite Integrate_add, Integrate_mul. pose proof (Idem f r j J) as I. cbn [Project p_coeff] in I |- *.
    cbn [Project p_coeff] in I. rewrite I. ring.
Qed.
Print Assumptions C52_projection.

(** The operations of ProjectionWrapper on the represented functions, and on averages. *)
Theorem C52_wrapper : forall N taylor gauss center b p q, built N taylor gauss center b -> p_basis p = b -> p_basis q = b ->
  (forall offset x r, GlobalToValue N taylor (shift offset p) x r = GlobalToValue N taylor p x r + offset r) /\
  (forall offset r, average (shift offset p) r = average p r + offset r) /\
  (forall ratio x r, GlobalToValue N taylor (pscale ratio p) x r = GlobalToValue N taylor p x r * ratio) /\
  (forall ratio x r, GlobalToValue N taylor (unscale ratio p) x r = GlobalToValue N taylor p x r / ratio) /\
  (forall ratio x r, GlobalToValue N taylor (scale_rows ratio p) x r = GlobalToValue N taylor p x r * ratio r) /\
  (forall x r, GlobalToValue N taylor (accumulate q p) x r = GlobalToValue N taylor p x r + GlobalToValue N taylor q x r) /\
  (forall K left x r, GlobalToValue N taylor (LeftMultiply K left p) x r = rsum K (fun k => left r k * GlobalToValue N taylor p x k)).
Proof.
  intros N taylor g center b p q B P Q. pose proof (built_ready _ _ _ _ _ B) as Rd.
  split; [intros; apply (shift_value _ _ _ Rd); exact P|]. split; [intros; apply (shift_average _ _ _ Rd); exact P|].
  split; [intros; apply pscale_value|]. split; [intros; apply unscale_value|]. split; [intros; apply scale_rows_value|].
  split; [intros; apply accumulate_value; congruence|]. intros; apply LeftMultiply_value.
Qed.
Print Assumptions C52_wrapper.

(** GetGlobalGradient is the gradient of the represented function (three-dimensional Taylor bases). *)
Theorem C52_gradient : forall k p r x y z, (k <= 3)%nat ->
  let u x y z := GlobalToValue (Taylor3_N k) (taylor3 k) p (V x y z) r in
  let du axis := GlobalGradient (Taylor3_N k) (grad3 k) p (V x y z) axis r in
  is_partial [AX] u x y z (du 0%nat) /\ is_partial [AY] u x y z (du 1%nat) /\ is_partial [AZ] u x y z (du 2%nat).
Proof.
  intros k p r x y z K u du. split; [|split]; [apply (gradient_value k p r x y z AX K)|apply (gradient_value k p r x y z AY K)|apply (gradient_value k p r x y z AZ K)].
Qed.
Print Assumptions C52_gradient.

Lemma line_built : built 2 line_taylor line_gauss v0 (OrthoNormal_new 2 line_taylor line_gauss v0).
Proof.
  destruct C46_nonvacuous as (W & I & _). split; [reflexivity|]. split; [lia|]. split; [reflexivity|]. split; [reflexivity|]. split; [exact W|].
  intros c H. apply I. intros p P. etransitivity; [|exact (H p P)]. apply rsum_ext. intros i _. rewrite Linear_at_new by reflexivity. reflexivity.
Qed.
(** 3x + 2 is reproduced far outside the points; x^2 has the average 1/2 of its values 0 and 1 *)
Example C52_nonvacuous : let b := OrthoNormal_new 2 line_taylor line_gauss v0 in
  GlobalToValue 2 line_taylor (Project 2 line_taylor b (fun x _ => 3 * vx x + 2)) (V 10 0 0) 0%nat = 32 /\
  average (Project 2 line_taylor b (fun x _ => vx x * vx x)) 0%nat = 1 / 2.
Proof.
  intros b. destruct (C52_projection _ _ _ _ _ line_built) as (P & _ & _ & A & _). fold b in P, A. split.
  - rewrite (P _ (fun _ j => nth j [2; 3] 0)); [cbn [vx]; ring|]. intros [x y z] r. cbn [rsum nth line_taylor vsub v0 vx vy vz]. ring.
  - rewrite A. unfold qmean, quadrature, line_gauss. cbn [length rsum nth fst snd vx]. field.
Qed.

(** ** C54 *)

(** The Lazy limiter, with [n] neighbours: at every point the limited value is a combination, with positive
    weights that sum to one, of the cell's own polynomial and of the neighbours' polynomials, each shifted to
    have the mean of this cell; so the mean over the cell is kept. *)
Theorem C54_lazy_keeps_average : forall k w0 eps gauss center mine adj, (k <= 3)%nat ->
  built (Taylor3_N k) (taylor3 k) gauss center (p_basis mine) ->
  0 < w0 -> w0 * INR (length adj) < 1 -> 0 < eps ->
  let value p x r := GlobalToValue (Taylor3_N k) (taylor3 k) p x r in
  let mean p r := qmean gauss (fun x => value p x r) in
  let n := length adj in
  let new := Lazy_call k w0 eps mine adj in
  p_basis new = p_basis mine /\
  (forall r, average new r = average mine r) /\ (forall r, mean new r = mean mine r) /\
  exists ws : nat -> nat -> R,
    (forall i r, (i <= n)%nat -> 0 < ws i r) /\ (forall r, rsum (S n) (fun i => ws i r) = 1) /\
    forall x r, value new x r =
      rsum n (fun i => ws i r * (value (nth i adj mine) x r + (mean mine r - mean (nth i adj mine) r))) + ws n r * value mine x r.
Proof.
  intros k w0 eps g center mine adj K B W0 W1 E0 value mean n new. pose proof (built_ready _ _ _ _ _ B) as Rd.
  assert (o_gauss (p_basis mine) = g) as G by (destruct B as (-> & _); reflexivity).
  assert (positive_weights (o_gauss (p_basis mine))) as Wt by (rewrite G; apply B).
  destruct (C52_projection _ _ _ _ _ B) as (_ & _ & _ & _ & AM & _).
  destruct (lazy_combination k mine adj K Rd Wt w0 eps W0 W1 E0) as (_ & Pos & Sum & Bas & _). fold new in Bas.
  pose proof (lazy_average k mine adj K Rd Wt w0 eps W0 W1 E0) as AV. fold new in AV.
  split; [exact Bas|]. split; [exact AV|]. split; [intros r; unfold mean, value; rewrite <- !AM by (exact Bas || reflexivity); apply AV|].
  exists (fun i r => nth i (lazy_weights k mine adj w0 eps) none r). split; [intros i r I; apply Pos; unfold n in I; lia|].
  split; [exact Sum|]. intros x r. unfold value at 1, new. rewrite (lazy_value k mine adj K Rd Wt w0 eps W0 W1 E0). cbn [rsum].
  rewrite Borrow_last by exact K. fold n. f_equal; [|apply Rmult_comm]. apply rsum_ext. intros i I. rewrite Borrow_value by assumption.
  rewrite Rmult_comm. f_equal. unfold value, mean. f_equal. f_equal; [apply AM; reflexivity|].
  rewrite G. unfold Proof_Weno.mean, qmean. rewrite <- !Integrate_quadrature. reflexivity.
Qed.
Print Assumptions C54_lazy_keeps_average.

(** The weights of both limiters: those of the neighbours start from [w0] and the cell's own from the rest, each is
    divided by the square of its smoothness, and they are scaled to sum to one; between equally smooth candidates
    they are the starting ones. *)
Theorem C54_weights : forall w0 eps n betas, 0 < w0 -> w0 * INR n < 1 -> 0 < eps -> length betas = S n ->
  (forall i r, (i < S n)%nat -> 0 <= nth i betas none r) ->
  let d i := if (i <? n)%nat then w0 else 1 - INR n * w0 in
  let a i r := d i / (nth i betas none r + eps) ^ 2 in
  let w i r := nth i (nonlinear_weights w0 eps n betas) none r in
  (forall i r, (i <= n)%nat -> w i r = a i r / rsum (S n) (fun j => a j r)) /\
  forall i r, (i <= n)%nat -> (forall j, (j <= n)%nat -> nth j betas none r = nth 0 betas none r) -> w i r = d i.
Proof.
  intros w0 eps n betas W0 W1 E0 Len Beta d a w.
  assert (forall i, (i <= n)%nat -> nth i (linear_weights w0 n) 0 = d i) as D.
  { intros i I. unfold d, linear_weights. destruct (Nat.ltb_spec i n).
    - rewrite app_nth1 by (rewrite repeat_length; lia). rewrite (nth_indep _ 0 w0) by (rewrite repeat_length; lia). apply nth_repeat.
    - rewrite app_nth2 by (rewrite repeat_length; lia). rewrite repeat_length. replace (i - n)%nat with 0%nat by lia. cbn [nth]. ring. }
  assert (forall i r, (i <= n)%nat -> w i r = a i r / rsum (S n) (fun j => a j r)) as H.
  { intros i r I. unfold w. rewrite nonlinear_weights_nth by (assumption || lia). rewrite weights_sum_rsum, smooth_weights_length by assumption.
    assert (forall j, (j < S n)%nat -> nth j (smooth_weights w0 eps n betas) none r = a j r) as S.
    { intros j J. rewrite smooth_weights_nth by assumption. rewrite D by lia. unfold a. f_equal. ring. }
    rewrite S by lia. rewrite (rsum_ext _ _ (fun j => a j r)) by exact S. reflexivity. }
  split; [exact H|]. intros i r I Eq. rewrite H by exact I.
  set (q := (nth 0 betas none r + eps) ^ 2).
  assert (0 < q) as Q. { unfold q. pose proof (Beta 0%nat r ltac:(lia)). apply pow_lt. lra. }
  assert (forall j, (j < S n)%nat -> a j r = d j * / q) as S. { intros j J. unfold a, q. rewrite Eq by lia. reflexivity. }
  rewrite (rsum_ext _ _ (fun j => d j * / q)) by exact S. rewrite S by lia. rewrite rsum_mul_r.
  assert (rsum (Datatypes.S n) d = 1) as Sum.
  { cbn [rsum]. rewrite (rsum_ext _ _ (fun _ => w0)). 2: { intros j J. unfold d. destruct (Nat.ltb_spec j n); [reflexivity|lia]. }
    rewrite rsum_const. unfold d. rewrite Nat.ltb_irrefl. ring. }
  rewrite Sum. field. lra.
Qed.
Print Assumptions C54_weights.

Example C54_weights_nonvacuous :
  nth 0 (nonlinear_weights (1 / 4) 1 2 [(fun _ => 0); (fun _ => 0); (fun _ => 0)]) none 0%nat = 1 / 4 /\
  nth 2 (nonlinear_weights (1 / 4) 1 2 [(fun _ => 0); (fun _ => 0); (fun _ => 0)]) none 0%nat = 1 / 2.
Proof.
  destruct (C54_weights (1 / 4) 1 2 [(fun _ => 0); (fun _ => 0); (fun _ => 0)]) as (_ & H); cbn [INR]; try lra; try reflexivity.
  - intros [|[|[|i]]] r I; cbn; lra || lia.
  - split; rewrite H; try lia; try (intros [|[|[|j]]] J; cbn; reflexivity || lia); cbn; lra.
Qed.

(** The Eigen limiter, with one face for each neighbour and matrices R, L with R L = 1: the limited value is
    the mean, weighted by the volumes of the neighbours, over the faces, of combinations taken in the
    characteristic variables of the face; the mean over the cell is kept. *)
Theorem C54_eigen_keeps_average : forall k K w0 eps gauss center mine adj faces, (k <= 3)%nat ->
  built (Taylor3_N k) (taylor3 k) gauss center (p_basis mine) ->
  0 < w0 -> w0 * INR (length adj) < 1 -> 0 < eps ->
  faces <> [] -> (forall f, In f faces -> 0 < f_volume f) ->
  (forall f i j, In f faces -> (i < K)%nat -> (j < K)%nat ->
     rsum K (fun m => f_R f (average mine) i m * f_L f (average mine) m j) = if Nat.eqb i j then 1 else 0) ->
  let value p x r := GlobalToValue (Taylor3_N k) (taylor3 k) p x r in
  let mean p r := qmean gauss (fun x => value p x r) in
  let n := length adj in
  exists new, Eigen_call k K w0 eps mine adj faces = Some new /\ p_basis new = p_basis mine /\
  (forall r, (r < K)%nat -> average new r = average mine r) /\ (forall r, (r < K)%nat -> mean new r = mean mine r) /\
  exists ws : FaceData -> nat -> nat -> R,
    (forall f i r, (i <= n)%nat -> 0 < ws f i r) /\ (forall f r, rsum (S n) (fun i => ws f i r) = 1) /\
    let candidate i x l := if Nat.eqb i n then value mine x l else value (nth i adj mine) x l + (mean mine l - mean (nth i adj mine) l) in
    forall x r, value new x r =
      fold_left (fun s f => s + rsum K (fun m => f_R f (average mine) r m *
          rsum (S n) (fun i => ws f i m * rsum K (fun l => f_L f (average mine) m l * candidate i x l))) * f_volume f) faces 0
      / fold_left (fun s f => s + f_volume f) faces 0.
Proof.
  intros k K w0 eps g center mine adj faces Lk B W0 W1 E0 NE V Inv value mean n. pose proof (built_ready _ _ _ _ _ B) as Rd.
  assert (o_gauss (p_basis mine) = g) as G by (destruct B as (-> & _); reflexivity).
  assert (positive_weights (o_gauss (p_basis mine))) as Wt by (rewrite G; apply B).
  destruct (C52_projection _ _ _ _ _ B) as (_ & _ & _ & _ & AM & _).
  destruct (eigen_average k mine adj Lk Rd Wt w0 eps W0 W1 E0 K faces NE V) as (q & E & Bas & AV).
  { intros f I i j Li Lj. apply Inv; assumption. }
  exists q. split; [exact E|]. split; [exact Bas|]. split; [exact AV|].
  split; [intros r Lr; unfold mean, value; rewrite <- !AM by (exact Bas || reflexivity); apply AV, Lr|].
  exists (fun f i r => nth i (face_weights k mine adj w0 eps K f) none r).
  split; [intros f i r I; apply (face_combination k mine adj Lk Rd Wt w0 eps W0 W1 E0 K f); unfold n in I; lia|].
  split; [intros f r; apply (face_combination k mine adj Lk Rd Wt w0 eps W0 W1 E0 K f)|].
  intros candidate x r. unfold value at 1. rewrite (eigen_value k mine adj Lk Rd Wt w0 eps W0 W1 E0 K faces q x r E). f_equal.
  assert (forall F H : FaceData -> R, (forall f, F f = H f) -> forall l a, fold_left (fun s f => s + F f) l a = fold_left (fun s f => s + H f) l a) as FE.
  { intros F H EQ l. induction l as [|f l IH]; intros a; cbn [fold_left]; [reflexivity|]. rewrite EQ. apply IH. }
  apply FE. intros f. rewrite (face_value k mine adj Lk Rd Wt w0 eps W0 W1 E0 K). f_equal. apply rsum_ext. intros m M. f_equal. apply rsum_ext. intros i I. f_equal.
  apply rsum_ext. intros l Ll. f_equal. unfold candidate. destruct (Nat.eqb_spec i n) as [->|D].
  - unfold n. rewrite Borrow_last by exact Lk. reflexivity.
  - rewrite Borrow_value by (assumption || (unfold n in D; lia)). unfold value, mean. f_equal. f_equal; [apply AM; reflexivity|].
    rewrite G. unfold Proof_Weno.mean, qmean. rewrite <- !Integrate_quadrature. reflexivity.
Qed.
Print Assumptions C54_eigen_keeps_average.

(** For the Euler equations the matrices are inverse to each other whenever the mean state of the cell has
    positive density and pressure and the frames are orthonormal; so nothing is asked of the matrices. *)
Theorem C54_eigen_euler : forall gamma k w0 eps gauss center mine adj frames, (k <= 3)%nat -> 1 < gamma ->
  built (Taylor3_N k) (taylor3 k) gauss center (p_basis mine) ->
  0 < w0 -> w0 * INR (length adj) < 1 -> 0 < eps ->
  frames <> [] -> (forall a b c v, In (a, b, c, v) frames -> rows a b c /\ 0 < v) ->
  physicalU gamma (tuple_of (average mine)) ->
  exists new, Eigen_call k 5 w0 eps mine adj (map (fun '(a, b, c, v) => euler_face gamma a b c v) frames) = Some new /\
  forall r, (r < 5)%nat -> average new r = average mine r.
Proof.
  intros gamma k w0 eps g center mine adj frames Lk G B W0 W1 E0 NE F Ph.
  destruct (C54_eigen_keeps_average k 5 w0 eps g center mine adj (map (fun '(a, b, c, v) => euler_face gamma a b c v) frames) Lk B W0 W1 E0)
    as (q & E & _ & A & _).
  - destruct frames; [congruence|discriminate].
  - intros f I. apply in_map_iff in I. destruct I as ([[[a b] c] v] & <- & I). apply F in I. apply I.
  - intros f i j I Li Lj. apply in_map_iff in I. destruct I as ([[[a b] c] v] & <- & I). apply F in I. destruct I as (Rw & _).
    cbn [euler_face f_R f_L]. set (w := ConservativeToPrimitive gamma (tuple_of (average mine))).
    assert (physical w) as P by (apply (physicalU_C2P gamma _ G Ph)).
    pose proof (R_L_inverse gamma w a b c G P Rw i j Li Lj) as Q. unfold sum5 in Q. cbn [rsum]. unfold cell_of. unfold entry in Q.
    destruct (Nat.eqb_spec i j), (Nat.eq_dec i j); try congruence; (etransitivity; [|exact Q]); ring.
  - exists q. split; [exact E|exact A].
Qed.
Print Assumptions C54_eigen_euler.

(** Without neighbours the Eigen limiter divides by a total volume of zero. *)
Theorem C54_eigen_without_neighbours : forall k K w0 eps mine adj, Eigen_call k K w0 eps mine adj [] = None.
Proof. intros. unfold Eigen_call. cbn [fold_left]. destruct (Req_EM_T 0 0); [reflexivity|congruence]. Qed.
Print Assumptions C54_eigen_without_neighbours.

(** four points in space, degree 1 *)
Definition space_gauss : Gauss := [(1 / 4, V 0 0 0); (1 / 4, V 1 0 0); (1 / 4, V 0 1 0); (1 / 4, V 0 0 1)].
Lemma space_built : built 4 (taylor3 1) space_gauss v0 (OrthoNormal_new 4 (taylor3 1) space_gauss v0).
Proof.
  split; [reflexivity|]. split; [lia|]. split; [reflexivity|]. split; [reflexivity|]. split.
  - intros p H. unfold space_gauss in H. cbn [In] in H. destruct H as [<-|[<-|[<-|[<-|[]]]]]; cbn [fst]; lra.
  - intros c H i L.
    pose proof (H _ (or_introl eq_refl)) as H0. pose proof (H _ (or_intror (or_introl eq_refl))) as H1.
    pose proof (H _ (or_intror (or_intror (or_introl eq_refl)))) as H2. pose proof (H _ (or_intror (or_intror (or_intror (or_introl eq_refl))))) as H3.
    unfold taylor3, v0 in H0, H1, H2, H3. cbn [Taylor3_GetValue rsum snd nth vx vy vz vsub] in H0, H1, H2, H3.
    destruct i as [|[|[|[|i]]]]; [lra|lra|lra|lra|lia].
Qed.
(** a cell with the density 2 + x - y and a neighbour with another polynomial: the mean stays 2 *)
Example C54_nonvacuous : let b := OrthoNormal_new 4 (taylor3 1) space_gauss v0 in
  let mine := Project 4 (taylor3 1) b (fun x _ => 2 + vx x - vy x) in
  let other := Project 4 (taylor3 1) b (fun x _ => 5 - 3 * vz x) in
  average mine 0%nat = 2 /\ average (Lazy_call 1 (1 / 10) 1 mine [other; other]) 0%nat = 2 /\
  exists new, Eigen_call 1 1 (1 / 10) 1 mine [other] [mkFaceData (fun _ _ _ => 4) (fun _ _ _ => 1 / 4) 3] = Some new /\ average new 0%nat = 2.
Proof.
  intros b mine other. destruct (C52_projection _ _ _ _ _ space_built) as (_ & _ & _ & A & _). fold b in A.
  assert (average mine 0%nat = 2) as M.
  { unfold mine. rewrite A. unfold qmean, quadrature, space_gauss. cbn [length rsum nth fst snd vx vy]. field. }
  split; [exact M|]. split.
  - rewrite <- M. apply (C54_lazy_keeps_average 1 (1 / 10) 1 space_gauss v0 mine [other; other]); [lia|exact space_built|lra|cbn; lra|lra].
  - destruct (C54_eigen_keeps_average 1 1 (1 / 10) 1 space_gauss v0 mine [other] [mkFaceData (fun _ _ _ => 4) (fun _ _ _ => 1 / 4) 3])
      as (q & E & _ & AV & _); [lia|exact space_built|lra|cbn; lra|lra|discriminate| | |].
    + intros f [<-|[]]. cbn [f_volume]. lra.
    + intros f i j [<-|[]] Li Lj. cbn [f_R f_L rsum]. replace i with 0%nat by lia. replace j with 0%nat by lia. cbn [Nat.eqb]. field.
    + exists q. split; [exact E|]. rewrite AV by lia. exact M.
Qed.

(** A cell whose neighbours have the same values at its centre is not marked as not smooth. *)
Theorem C54_smooth_not_marked : forall P K volume my_average my_value adj,
  (forall a i, In a adj -> (i < K)%nat -> fst a i = my_value i) -> (0 < K)%nat ->
  IsNotSmooth P K volume my_average my_value adj = false.
Proof.
  intros P K volume my_average my_value adj H LK. unfold IsNotSmooth. cbv zeta.
  assert (forall i, (i < K)%nat -> fold_left (fun s a => s + Rabs (my_value i - fst a i)) adj 0 = 0) as Z.
  { intros i L. clear my_average. induction adj as [|a adj IH]; [reflexivity|]. cbn [fold_left]. rewrite (H a i) by first [exact L | left; reflexivity].
    replace (my_value i - my_value i) with 0 by ring. rewrite Rabs_R0, Rplus_0_l. apply IH. intros b j B. apply H. right. exact B. }
  assert (0 < (if Nat.ltb P 3 then 1 else 3)) as Pos by (destruct (Nat.ltb P 3); lra).
  cbn [existsb]. rewrite !Z by lia. unfold Rdiv. rewrite !Rmult_0_l.
  destruct (Rlt_dec _ 0); [lra|reflexivity].
Qed.
Print Assumptions C54_smooth_not_marked.

(** a jump of 8 against averages 1, in a cell of volume 1, is marked; a jump of 0 is not *)
Example C54_marked : IsNotSmooth 1 1 1 (fun _ => 1) (fun _ => 1) [(fun _ => 9, fun _ => 1)] = true /\
  IsNotSmooth 1 1 1 (fun _ => 1) (fun _ => 1) [(fun _ => 1, fun _ => 1)] = false.
Proof.
  split.
  - unfold IsNotSmooth. cbn [fold_left fst snd length existsb INR Nat.ltb Nat.leb].
    assert (Rpower 1 ((1 + 1) / 2 / 3) = 1) as -> by (unfold Rpower; rewrite ln_1, Rmult_0_r; apply exp_0).
    rewrite Rabs_R1. assert (Rabs (1 - 9) = 8) as -> by (rewrite Rabs_left by lra; ring).
    rewrite (Rmax_right (1 / 1000000000) 1) by lra. rewrite (Rmax_left 1 1) by lra.
    destruct (Rlt_dec 1 _) as [_|N]; [reflexivity|]. exfalso. apply N. lra.
  - apply C54_smooth_not_marked; [|lia]. intros a i [<-|[]] _. reflexivity.
Qed.

(** The smoothness is the sum over all partial derivatives (of the polynomial in Taylor form about the
    centre) of the quadrature of their squares, with weights that make it independent of the size of the
    cell; only for degree 1 the weight is missing.  It vanishes exactly for a polynomial without derivatives
    at the quadrature points. *)
Theorem C54_smoothness : forall k gauss center p r, (1 <= k <= 3)%nat ->
  built (Taylor3_N k) (taylor3 k) gauss center (p_basis p) ->
  let pdv c x := let d := vsub x center in
    nth c (Taylor3_GetPdvValue k (vx d) (vy d) (vz d) (GetCoeffOnTaylorBasis (Taylor3_N k) p r)) 0 in
  let volume := quadrature (fun _ => 1) gauss in
  let weight c := if Nat.eqb k 1 then 1 else Rpower volume (2 * INR (derivative_order c) / 3 - 1) in
  GetSmoothness k p r = rsum (Taylor3_N k - 1) (fun c => weight (S c) * quadrature (fun x => pdv (S c) x * pdv (S c) x) gauss) /\
  (GetSmoothness k p r = 0 <-> forall c q, (1 <= c < Taylor3_N k)%nat -> In q gauss -> pdv c (snd q) = 0).
Proof.
  intros k g center p r Lk B pdv volume weight. pose proof (built_ready _ _ _ _ _ B) as Rd. destruct B as (E & _ & _ & _ & W & _).
  assert (o_gauss (p_basis p) = g) as G by (rewrite E; reflexivity). assert (o_center (p_basis p) = center) as C by (rewrite E; reflexivity).
  assert (Measure (p_basis p) = volume) as M by (rewrite (Measure_volume _ _ _ Rd), Integrate_quadrature, G; reflexivity).
  assert (0 < volume) as Pos by (rewrite <- M, (Measure_volume _ _ _ Rd); apply (volume_pos _ _ _ Rd)).
  assert (GetSmoothness k p r = rsum (Taylor3_N k - 1) (fun c => weight (S c) * quadrature (fun x => pdv (S c) x * pdv (S c) x) g)) as S.
  { unfold GetSmoothness. cbv zeta. rewrite M, G, C.
    set (I := fun c => Integrate _ g). assert (forall c, I c = quadrature (fun x => pdv c x * pdv c x) g) as IE.
    { intros c. unfold I. rewrite Integrate_quadrature. reflexivity. }
    rewrite (rsum_ext _ _ (fun c => weight (S c) * I (S c))) by (intros; rewrite IE; reflexivity). clearbody I. clear IE.
    assert (Rpower volume (2 * 1 / 3 - 1) = Rpower volume (2 / 3 - 1)) as E1 by (f_equal; lra).
    assert (Rpower volume (2 * (1 + 1) / 3 - 1) = Rpower volume (4 / 3 - 1)) as E2 by (f_equal; lra).
    assert (Rpower volume (2 * (1 + 1 + 1) / 3 - 1) = volume) as E3 by (rewrite <- (Rpower_1 volume Pos) at 2; f_equal; lra).
    unfold weight. destruct k as [|[|[|[|k]]]]; try lia; cbn [Taylor3_N Nat.sub rsum Nat.eqb derivative_order Nat.leb INR];
      rewrite ?E1, ?E2, ?E3; unfold Taylor3_GetSmoothness; cbv zeta; ring. }
  split; [exact S|]. rewrite S.
  assert (forall c, 0 < weight c) as WP by (intros c; unfold weight; destruct (Nat.eqb k 1); [lra|apply exp_pos]).
  assert (forall f, 0 <= quadrature (fun x => f x * f x) g) as QN.
  { intros f. rewrite <- Integrate_quadrature. apply Integrate_nonneg; [exact W|]. intros. apply Rle_0_sqr. }
  assert (forall f, quadrature (fun x => f x * f x) g = 0 <-> forall q, In q g -> f (snd q) = 0) as QZ.
  { intros f. unfold quadrature. split.
    - intros Z q I. destruct (In_nth _ _ (0, v0) I) as (n & L & <-).
      assert (0 < fst (nth n g (0, v0))) as P by (apply W, nth_In, L).
      assert (fst (nth n g (0, v0)) * (f (snd (nth n g (0, v0))) * f (snd (nth n g (0, v0)))) = 0) as T.
      { apply (rsum_zero_each (length g) (fun q => fst (nth q g (0, v0)) * (f (snd (nth q g (0, v0))) * f (snd (nth q g (0, v0)))))); [|exact Z|exact L].
        intros i Li. apply Rmult_le_pos; [left; apply W, nth_In, Li|apply Rle_0_sqr]. }
      apply Rmult_integral in T. destruct T as [T|T]; [lra|]. apply Rmult_integral in T. destruct T; assumption.
    - intros Z. rewrite (rsum_ext _ _ (fun _ => 0)); [apply rsum_zero; reflexivity|]. intros i L. rewrite Z by (apply nth_In, L). ring. }
  split.
  - intros Z c q Lc Iq. destruct c as [|c]; [lia|].
    assert (weight (Datatypes.S c) * quadrature (fun x => pdv (Datatypes.S c) x * pdv (Datatypes.S c) x) g = 0) as T.
    { apply (rsum_zero_each (Taylor3_N k - 1) (fun c => weight (Datatypes.S c) * quadrature (fun x => pdv (Datatypes.S c) x * pdv (Datatypes.S c) x) g)); [|exact Z|lia].
      intros i _. apply Rmult_le_pos; [left; apply WP|apply QN]. }
    apply Rmult_integral in T. destruct T as [T|T]; [pose proof (WP (Datatypes.S c)); lra|]. apply (proj1 (QZ _) T _ Iq).
  - intros Z. rewrite (rsum_ext _ _ (fun _ => 0)); [apply rsum_zero; reflexivity|]. intros i L. rewrite (proj2 (QZ (pdv (Datatypes.S i)))); [ring|].
    intros q Iq. apply Z; [lia|exact Iq].
Qed.
Print Assumptions C54_smoothness.

(** A cell is marked exactly if, for its first or its last component, the mean jump at its centre, relative
    to the greatest average in the neighbourhood and to the size of the cell, exceeds the threshold. *)
Theorem C54_marking : forall P K volume my_average my_value adj,
  IsNotSmooth P K volume my_average my_value adj = true <->
  exists i biggest, (i = 0%nat \/ i = (K - 1)%nat) /\
    greatest biggest (1 / 1000000000 :: map (fun v : Value => Rabs (v i)) (my_average :: map snd adj)) /\
    (if Nat.ltb P 3 then 1 else 3) <
    total (map (fun v : Value => Rabs (my_value i - v i)) (map fst adj)) / biggest /
      (Rpower volume ((INR P + 1) / 2 / 3) * INR (length adj)).
Proof.
  intros P K volume my_average my_value adj. unfold IsNotSmooth. cbv zeta.
  assert (forall i, total (map (fun v : Value => Rabs (my_value i - v i)) (map fst adj)) = fold_left (fun s a => s + Rabs (my_value i - fst a i)) adj 0) as D.
  { intros i. enough (forall s, s + total (map (fun v : Value => Rabs (my_value i - v i)) (map fst adj)) =
      fold_left (fun s a => s + Rabs (my_value i - fst a i)) adj s) as H by (rewrite <- H; ring).
    unfold total. induction adj as [|a l IH]; intros s; cbn [map fold_left length].
    - cbn [rsum]. ring.
    - rewrite <- IH, rsum_first. cbn [nth]. rewrite Rplus_assoc. reflexivity. }
  assert (forall i, greatest (fold_left (fun m a => Rmax m (Rabs (snd a i))) adj (Rmax (1 / 1000000000) (Rabs (my_average i))))
     (1 / 1000000000 :: map (fun v : Value => Rabs (v i)) (my_average :: map snd adj))) as Mx.
  { intros i. cbn [map].
    assert (forall (l : list (Value * Value)) m pre, greatest m pre ->
      greatest (fold_left (fun m a => Rmax m (Rabs (snd a i))) l m) (pre ++ map (fun v : Value => Rabs (v i)) (map snd l))) as Gen.
    { clear. induction l as [|a l IH]; intros m pre Gm; cbn [fold_left map]; [rewrite app_nil_r; exact Gm|].
      specialize (IH (Rmax m (Rabs (snd a i))) (pre ++ [Rabs (snd a i)])). rewrite <- app_assoc in IH. apply IH. destruct Gm as (I & Le). split.
      - unfold Rmax. destruct (Rle_dec _ _); apply in_or_app; [right; left; reflexivity|left; exact I].
      - intros x H. apply in_app_or in H. destruct H as [H|[<-|[]]]; [eapply Rle_trans; [apply Le, H|apply Rmax_l]|apply Rmax_r]. }
    apply (Gen adj _ [1 / 1000000000; Rabs (my_average i)]). split.
    - unfold Rmax. destruct (Rle_dec _ _); [right; left|left]; reflexivity.
    - intros x [<-|[<-|[]]]; [apply Rmax_l|apply Rmax_r]. }
  rewrite existsb_exists. split.
  - intros (i & I & T). exists i. eexists. split; [destruct I as [<-|[<-|[]]]; auto|]. split; [apply Mx|]. rewrite D.
    destruct (Rlt_dec _ _) as [L|]; [exact L|discriminate T].
  - intros (i & b & I & Gb & L). exists i. split; [destruct I as [->| ->]; cbn; auto|].
    assert (b = fold_left (fun m a => Rmax m (Rabs (snd a i))) adj (Rmax (1 / 1000000000) (Rabs (my_average i)))) as <-.
    { destruct Gb as (I1 & L1), (Mx i) as (I2 & L2). apply Rle_antisym; [apply L2, I1|apply L1, I2]. }
    rewrite D in L. destruct (Rlt_dec _ _) as [_|N]; [reflexivity|contradiction].
Qed.
Print Assumptions C54_marking.

(** averages may be negative: a jump of 8 against averages 1 and -9, in a cell of volume 1, is not marked *)
Example C54_marking_nonvacuous : IsNotSmooth 1 1 1 (fun _ => 1) (fun _ => 1) [(fun _ => 9, fun _ => -9)] = false.
Proof.
  apply Bool.not_true_is_false. rewrite C54_marking. intros (i & b & _ & (_ & L) & T).
  assert (9 <= b) as B. { apply L. right. right. left. cbn [snd]. rewrite Rabs_left by lra. ring. }
  revert T. unfold total. cbn [map fst length rsum nth Nat.ltb Nat.leb INR].
  assert (Rpower 1 ((1 + 1) / 2 / 3) = 1) as -> by (unfold Rpower; rewrite ln_1, Rmult_0_r; apply exp_0).
  assert (Rabs (1 - 9) = 8) as -> by (rewrite Rabs_left by lra; ring). intros T.
  assert ((0 + 8) / b / (1 * 1) = 8 * / b) as Q by (field; lra). rewrite Q in T.
  assert (8 * / b < 1) by (apply (Rmult_lt_reg_r b); [lra|]; rewrite Rmult_assoc, Rinv_l by lra; lra). lra.
Qed.
(** a multiple of the last function of the basis is not constant, so its smoothness is positive *)
Example C54_smoothness_nonvacuous : let b := OrthoNormal_new 4 (taylor3 1) space_gauss v0 in
  let p := mkProjection (fun _ j => if Nat.eqb j 3 then 7 else 0) b in
  GetSmoothness 1 p 0%nat <> 0 /\ GetSmoothness 1 (mkProjection (fun _ j => if Nat.eqb j 0 then 7 else 0) b) 0%nat = 0.
Proof.
  intros b p.
  assert (forall p, p_basis p = b -> built (Taylor3_N 1) (taylor3 1) space_gauss v0 (p_basis p)) as B by (intros q ->; exact space_built).
  pose proof (r_lower _ _ _ (built_ready _ _ _ _ _ space_built)) as Lo. pose proof (r_diagonal _ _ _ (built_ready _ _ _ _ _ space_built)) as Di. fold b in Lo, Di.
  split.
  - intros Z. destruct (C54_smoothness 1 space_gauss v0 p 0%nat ltac:(lia) (B p eq_refl)) as (_ & (H & _)).
    specialize (H Z 3%nat (1 / 4, V 0 0 0) ltac:(cbn; lia) (or_introl eq_refl)). revert H.
    cbn [Taylor3_GetPdvValue nth]. unfold GetCoeffOnTaylorBasis. cbn [Taylor3_N rsum p p_coeff p_basis Nat.eqb].
    pose proof (Di 3%nat ltac:(lia)). lra.
  - set (q := mkProjection _ b). destruct (C54_smoothness 1 space_gauss v0 q 0%nat ltac:(lia) (B q eq_refl)) as (_ & (_ & H)). apply H.
    intros c g Lc _. cbn [Taylor3_N] in Lc. cbv zeta. pose proof (Lo 0%nat 1%nat ltac:(lia)). pose proof (Lo 0%nat 2%nat ltac:(lia)). pose proof (Lo 0%nat 3%nat ltac:(lia)).
    destruct c as [|[|[|[|c]]]]; try lia; cbn [Taylor3_GetPdvValue nth]; unfold GetCoeffOnTaylorBasis; cbn [Taylor3_N rsum q p_coeff p_basis Nat.eqb]; lra.
Qed.
