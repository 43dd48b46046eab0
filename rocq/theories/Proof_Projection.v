(** Proofs about orthonormal bases, projections and the WENO limiters. *)
From Coq Require Import Reals List Arith Lia Lra FunctionalExtensionality.
From Verif Require Import Vec3 RSum Model_Basis Model_Projection Spec_Basis Spec_Projection Proof_Vincent Proof_Ortho.
Import ListNotations.
Open Scope R_scope.

(** ** OrthoNormalize *)

Definition lower_triangular (a : MatNxN) : Prop := forall i j, (i < j)%nat -> a i j = 0.

Lemma Linear_at_nth N taylor b x i : (i < N)%nat ->
  nth i (Linear_at N taylor b x) 0 = rsum N (fun j => lower (l_coeff b) i j * nth j (taylor (vsub x (l_center b))) 0).
Proof. intros L. unfold Linear_at, Linear_call. apply mat_vec_nth, L. Qed.

Lemma Transform_lower_triangular N a coeff : lower_triangular coeff -> lower_triangular (Transform_lower N a coeff).
Proof. intros C i j L. unfold Transform_lower. destruct (Nat.leb_spec j i); [lia|]. apply C, L. Qed.

Lemma Transform_lower_entry N a coeff i j : (i < N)%nat -> lower_triangular coeff ->
  Transform_lower N a coeff i j = rsum N (fun k => lower a i k * coeff k j).
Proof.
  intros L C. unfold Transform_lower, mat_mul. destruct (Nat.leb_spec j i); [reflexivity|]. rewrite C by assumption. symmetry.
  apply rsum_zero. intros k K. unfold lower. destruct (Nat.leb_spec k i); [rewrite (C k j) by lia; ring|ring].
Qed.

Lemma OrthoNormalize_at N taylor b g x i : (i < N)%nat -> lower_triangular (l_coeff b) ->
  nth i (Linear_at N taylor (OrthoNormalize N taylor b g) x) 0 =
  rsum N (fun j => lower (ortho_matrix (gram (Linear_at N taylor b) g) (N - 1)) i j * nth j (Linear_at N taylor b x) 0).
Proof.
  intros L C. rewrite Linear_at_nth by exact L. unfold OrthoNormalize. cbn [l_coeff l_center].
  set (s := ortho_matrix _ _).
  rewrite (rsum_ext N (fun j => lower s i j * _) (fun k => rsum N (fun j => lower s i k * l_coeff b k j * nth j (taylor (vsub x (l_center b))) 0))).
  - rewrite rsum_swap. apply rsum_ext. intros j J. rewrite rsum_mul_r.
    rewrite (lower_id _ _ _ (Transform_lower_triangular N s _ C)), Transform_lower_entry by assumption. reflexivity.
  - intros k K. rewrite Linear_at_nth by exact K. rewrite <- rsum_mul_l. apply rsum_ext. intros j J.
    rewrite (lower_id _ _ _ C). ring.
Qed.

Section Orthonormalized.
Variables (N : nat) (taylor : vec -> list R) (b : Linear) (g : Gauss).
Hypothesis Pos : (0 < N)%nat.
Hypothesis Low : lower_triangular (l_coeff b).
Hypothesis Wei : positive_weights g.
Hypothesis Ind : independent N (Linear_at N taylor b) g.

Let s := ortho_matrix (gram (Linear_at N taylor b) g) (N - 1).

Lemma ortho_done : done N (gram (Linear_at N taylor b) g) s N.
Proof.
  pose proof (ortho_matrix_done N (gram (Linear_at N taylor b) g) (gram_symmetric _ _ _)
    (gram_definite _ _ _ Wei Ind) (N - 1) ltac:(lia)) as D.
  replace (S (N - 1)) with N in D by lia. exact D.
Qed.
Lemma lower_s i j : (i < N)%nat -> lower s i j = s i j.
Proof.
  intros L. destruct ortho_done as (T & _ & _). unfold lower. destruct (Nat.leb_spec j i); [reflexivity|].
  symmetry. apply T; assumption.
Qed.
Lemma ortho_orthonormal : orthonormal N (Linear_at N taylor (OrthoNormalize N taylor b g)) g.
Proof.
  intros i j I J. rewrite <- Integrate_quadrature. destruct ortho_done as (_ & _ & O).
  change (if Nat.eqb i j then 1 else 0) with (kronecker i j). rewrite <- (O i j I J), gram_form. apply Integrate_ext. intros p P.
  rewrite !OrthoNormalize_at by assumption. fold s.
  f_equal; apply rsum_ext; intros k K; rewrite lower_s by assumption; reflexivity.
Qed.
Lemma ortho_coeff i j : (i < N)%nat -> l_coeff (OrthoNormalize N taylor b g) i j = rsum N (fun k => s i k * l_coeff b k j).
Proof.
  intros I. unfold OrthoNormalize. cbn [l_coeff]. fold s. rewrite Transform_lower_entry by assumption.
  apply rsum_ext. intros k K. rewrite lower_s by exact I. reflexivity.
Qed.
Lemma ortho_diagonal i : (i < N)%nat -> l_coeff (OrthoNormalize N taylor b g) i i = s i i * l_coeff b i i.
Proof.
  intros I. rewrite ortho_coeff by exact I. apply (rsum_single N i (fun k => s i k * l_coeff b k i) I).
  intros k K D. destruct (Nat.lt_ge_cases i k).
  - destruct ortho_done as (T & _ & _). rewrite T by assumption. ring.
  - rewrite (Low k i) by lia. ring.
Qed.
End Orthonormalized.

Lemma identity_lower : lower_triangular identity.
Proof. intros i j L. unfold identity. destruct (Nat.eqb_spec i j); [lia|reflexivity]. Qed.

Lemma Linear_at_new N taylor center x : length (taylor (vsub x center)) = N ->
  Linear_at N taylor (Linear_new center) x = taylor (vsub x center).
Proof.
  intros L. apply (nth_ext _ _ 0 0).
  - unfold Linear_at, Linear_call, mat_vec. rewrite map_length, seq_length. symmetry. exact L.
  - intros i I. unfold Linear_at, Linear_call, mat_vec in I. rewrite map_length, seq_length in I.
    rewrite Linear_at_nth by exact I. cbn [l_coeff l_center Linear_new].
    rewrite (rsum_single N i); [|exact I|].
    + unfold lower, identity. rewrite Nat.leb_refl, Nat.eqb_refl. ring.
    + intros j _ D. unfold lower, identity. destruct (Nat.leb_spec j i), (Nat.eqb_spec i j); try congruence; ring.
Qed.

Lemma OrthoNormal_at_Linear N taylor b x : lower_triangular (o_coeff b) ->
  OrthoNormal_at N taylor b x = Linear_at N taylor (o_basis b) x.
Proof.
  intros C. unfold OrthoNormal_at, OrthoNormal_call, Linear_at, Linear_call. apply mat_vec_ext. intros i j _ _.
  symmetry. apply lower_id, C.
Qed.

(** ** Projection *)

Lemma OrthoNormal_at_nth N taylor b x i : (i < N)%nat ->
  nth i (OrthoNormal_at N taylor b x) 0 = rsum N (fun j => o_coeff b i j * nth j (taylor (vsub x (o_center b))) 0).
Proof. intros L. unfold OrthoNormal_at, OrthoNormal_call. apply mat_vec_nth, L. Qed.

(** what the constructor of OrthoNormal establishes *)
Record ready (N : nat) (taylor : vec -> list R) (b : OrthoNormal) : Prop := {
  r_size : (0 < N)%nat;
  r_first : forall x, nth 0 (taylor x) 0 = 1;
  r_lower : lower_triangular (o_coeff b);
  r_diagonal : forall i, (i < N)%nat -> 0 < o_coeff b i i;
  r_orthonormal : orthonormal N (OrthoNormal_at N taylor b) (o_gauss b) }.

Lemma OrthoNormal_new_ready N taylor g center : (0 < N)%nat -> (forall x, nth 0 (taylor x) 0 = 1) ->
  (forall x, length (taylor x) = N) -> positive_weights g -> independent N (fun x => taylor (vsub x center)) g ->
  ready N taylor (OrthoNormal_new N taylor g center).
Proof.
  intros P F L W I.
  assert (independent N (Linear_at N taylor (Linear_new center)) g) as I'.
  { intros c H. apply I. intros p Q. etransitivity; [|exact (H p Q)]. apply rsum_ext. intros i _. rewrite Linear_at_new by apply L. reflexivity. }
  assert (lower_triangular (o_coeff (OrthoNormal_new N taylor g center))) as LT
    by (apply Transform_lower_triangular, identity_lower).
  constructor; [exact P|exact F|exact LT| |].
  - intros i K. unfold o_coeff, OrthoNormal_new. cbn [o_basis].
    rewrite ortho_diagonal; [|exact P|apply identity_lower|exact W|exact I'|exact K].
    destruct (ortho_done N taylor (Linear_new center) g P W I') as (_ & D & _).
    cbn [l_coeff Linear_new]. unfold identity. rewrite Nat.eqb_refl. specialize (D i K). lra.
  - intros i j K K'. cbn [o_gauss OrthoNormal_new].
    rewrite <- (ortho_orthonormal N taylor (Linear_new center) g P identity_lower W I' i j K K').
    rewrite <- !Integrate_quadrature. apply Integrate_ext. intros p _. rewrite OrthoNormal_at_Linear by exact LT. reflexivity.
Qed.

Section Projected.
Variables (N : nat) (taylor : vec -> list R) (b : OrthoNormal).
Hypothesis H : ready N taylor b.

Lemma first_function x : nth 0 (OrthoNormal_at N taylor b x) 0 = o_coeff b 0%nat 0%nat.
Proof.
  destruct H as [P F L D O]. rewrite OrthoNormal_at_nth by exact P. rewrite (rsum_single N 0); [rewrite F; ring|exact P|].
  intros j _ J. rewrite L by lia. ring.
Qed.
Lemma a00_pos : 0 < o_coeff b 0%nat 0%nat. Proof. apply (r_diagonal _ _ _ H), (r_size _ _ _ H). Qed.
Lemma volume_a00 : o_coeff b 0%nat 0%nat * o_coeff b 0%nat 0%nat * Integrate (fun _ => 1) (o_gauss b) = 1.
Proof.
  pose proof (r_orthonormal _ _ _ H 0%nat 0%nat (r_size _ _ _ H) (r_size _ _ _ H)) as O.
  rewrite <- Integrate_quadrature in O. cbn [Nat.eqb] in O. etransitivity; [|exact O]. rewrite <- Integrate_mul. apply Integrate_ext.
  intros p _. rewrite first_function. ring.
Qed.
Lemma volume_pos : 0 < Integrate (fun _ => 1) (o_gauss b).
Proof. pose proof a00_pos. pose proof volume_a00. nra. Qed.
Lemma Measure_volume : Measure b = Integrate (fun _ => 1) (o_gauss b).
Proof. unfold Measure. pose proof a00_pos. pose proof volume_a00 as V. apply (Rmult_eq_reg_l (o_coeff b 0%nat 0%nat * o_coeff b 0%nat 0%nat)); [rewrite V; field; lra|nra]. Qed.

(** a function in the span of the basis is reproduced at every point *)
Lemma project_span (f : vec -> Value) (c : Coeff) :
  (forall x r, f x r = rsum N (fun j => c r j * nth j (OrthoNormal_at N taylor b x) 0)) ->
  forall r j, (j < N)%nat -> p_coeff (Project N taylor b f) r j = c r j.
Proof.
  intros F r j J. cbn [Project p_coeff].
  rewrite (Integrate_ext _ (fun x => rsum N (fun i => c r i * (nth i (OrthoNormal_at N taylor b x) 0 * nth j (OrthoNormal_at N taylor b x) 0)))).
  - rewrite Integrate_rsum. rewrite (rsum_single N j); [|exact J|].
    + rewrite Integrate_mul, Integrate_quadrature, (r_orthonormal _ _ _ H) by assumption. rewrite Nat.eqb_refl. ring.
    + intros i I D. rewrite Integrate_mul, Integrate_quadrature, (r_orthonormal _ _ _ H) by assumption.
      destruct (Nat.eqb_spec i j); [congruence|ring].
  - intros p _. rewrite F, <- rsum_mul_r. apply rsum_ext. intros i I. ring.
Qed.

Lemma project_span_value f c : (forall x r, f x r = rsum N (fun j => c r j * nth j (OrthoNormal_at N taylor b x) 0)) ->
  forall x r, GlobalToValue N taylor (Project N taylor b f) x r = f x r.
Proof.
  intros F x r. rewrite F. apply rsum_ext. intros j J. rewrite (project_span f c F) by exact J. reflexivity.
Qed.

(** backward substitution: every combination of the Taylor functions is one of the basis functions *)
Lemma triangular_solve (l : MatNxN) n : lower_triangular l -> (forall i, (i < n)%nat -> l i i <> 0) ->
  forall c : nat -> R, exists d : nat -> R, forall j, (j < n)%nat -> rsum n (fun i => d i * l i j) = c j.
Proof.
  intros LT. induction n as [|n IH]; intros D c; [exists (fun _ => 0); lia|].
  assert (l n n <> 0) as Dn by (apply D; lia).
  destruct (IH ltac:(intros; apply D; lia) (fun j => c j - c n / l n n * l n j)) as (d & E).
  exists (fun i => if Nat.eqb i n then c n / l n n else d i). intros j J. cbn [rsum]. rewrite Nat.eqb_refl.
  rewrite (rsum_ext n _ (fun i => d i * l i j)).
  - destruct (Nat.eq_dec j n) as [->|K]; [|rewrite E by lia; ring].
    rewrite rsum_zero; [field; exact Dn|]. intros i I. rewrite LT by exact I. ring.
  - intros i I. destruct (Nat.eqb_spec i n); [lia|reflexivity].
Qed.
Lemma project_polynomial (f : vec -> Value) (c : Coeff) :
  (forall x r, f x r = rsum N (fun j => c r j * nth j (taylor (vsub x (o_center b))) 0)) ->
  forall x r, GlobalToValue N taylor (Project N taylor b f) x r = f x r.
Proof.
  intros F x r.
  assert (forall i, (i < N)%nat -> o_coeff b i i <> 0) as NZ by (intros i I; apply Rgt_not_eq, (r_diagonal _ _ _ H), I).
  destruct (triangular_solve (o_coeff b) N (r_lower _ _ _ H) NZ (c r)) as (d & E).
  set (f1 := fun y (_ : nat) => f y r).
  assert (G : forall y r', f1 y r' = rsum N (fun j => (fun (_ : nat) j => d j) r' j * nth j (OrthoNormal_at N taylor b y) 0)).
  { intros y r'. unfold f1. rewrite F.
    rewrite (rsum_ext N _ (fun j => rsum N (fun i => d i * o_coeff b i j * nth j (taylor (vsub y (o_center b))) 0))).
    - rewrite rsum_swap. apply rsum_ext. intros i I. rewrite OrthoNormal_at_nth by exact I. rewrite <- rsum_mul_l.
      apply rsum_ext. intros j J. ring.
    - intros j J. rewrite rsum_mul_r, E by exact J. reflexivity. }
  change (f x r) with (f1 x r). rewrite <- (project_span_value f1 _ G x r). reflexivity.
Qed.

Lemma project_idempotent f r j : (j < N)%nat ->
  p_coeff (Project N taylor b (GlobalToValue N taylor (Project N taylor b f))) r j = p_coeff (Project N taylor b f) r j.
Proof. intros J. apply (project_span _ (p_coeff (Project N taylor b f))); [|exact J]. intros x s. reflexivity. Qed.

Lemma project_average f r :
  average (Project N taylor b f) r = Integrate (fun x => f x r) (o_gauss b) / Integrate (fun _ => 1) (o_gauss b).
Proof.
  unfold average. cbn [Project p_coeff p_basis].
  rewrite (Integrate_ext _ (fun x => o_coeff b 0%nat 0%nat * f x r)) by (intros p _; rewrite first_function; ring).
  rewrite Integrate_mul. pose proof volume_a00 as V. pose proof volume_pos as P.
  apply (Rmult_eq_reg_r (Integrate (fun _ => 1) (o_gauss b))); [|lra].
  unfold Rdiv. rewrite (Rmult_assoc (Integrate (fun x => f x r) (o_gauss b))), Rinv_l by lra.
  transitivity (Integrate (fun x => f x r) (o_gauss b) * (o_coeff b 0%nat 0%nat * o_coeff b 0%nat 0%nat * Integrate (fun _ => 1) (o_gauss b))); [ring|].
  rewrite V. reflexivity.
Qed.

(** the average of any projection on the basis is its mean *)
Lemma average_mean (p : Projection) r : p_basis p = b ->
  average p r = Integrate (fun x => GlobalToValue N taylor p x r) (o_gauss b) / Integrate (fun _ => 1) (o_gauss b).
Proof.
  intros E. rewrite <- (project_average (GlobalToValue N taylor p) r). unfold average. cbn [Project p_basis].
  rewrite E. f_equal. symmetry. apply (project_span (GlobalToValue N taylor p) (p_coeff p)); [|apply (r_size _ _ _ H)].
  intros x s. unfold GlobalToValue. rewrite E. reflexivity.
Qed.

(** *** The operations of the wrapper *)

Lemma shift_value offset p x r : p_basis p = b ->
  GlobalToValue N taylor (shift offset p) x r = GlobalToValue N taylor p x r + offset r.
Proof.
  intros E. unfold GlobalToValue, shift. cbn [p_coeff p_basis]. rewrite E.
  rewrite (rsum_ext N _ (fun c => p_coeff p r c * nth c (OrthoNormal_at N taylor b x) 0 +
     (if Nat.eqb c 0 then offset r / o_coeff b 0%nat 0%nat * o_coeff b 0%nat 0%nat else 0))).
  - rewrite rsum_add. f_equal. rewrite (rsum_single N 0); [|apply (r_size _ _ _ H)|].
    + cbn [Nat.eqb]. pose proof a00_pos. field. lra.
    + intros i _ I. destruct (Nat.eqb_spec i 0); [lia|reflexivity].
  - intros c C. destruct (Nat.eqb_spec c 0); [subst c; rewrite first_function|]; ring.
Qed.
Lemma shift_average offset p r : p_basis p = b -> average (shift offset p) r = average p r + offset r.
Proof. intros E. unfold average, shift. cbn [p_coeff p_basis Nat.eqb]. rewrite E. pose proof a00_pos. field. lra. Qed.
End Projected.

Lemma pscale_value N taylor ratio p x r : GlobalToValue N taylor (pscale ratio p) x r = GlobalToValue N taylor p x r * ratio.
Proof. unfold GlobalToValue. cbn [pscale p_coeff p_basis]. rewrite <- rsum_mul_r. apply rsum_ext. intros. ring. Qed.
Lemma unscale_value N taylor ratio p x r : GlobalToValue N taylor (unscale ratio p) x r = GlobalToValue N taylor p x r / ratio.
Proof. unfold GlobalToValue, Rdiv. cbn [unscale p_coeff p_basis]. rewrite <- rsum_mul_r. apply rsum_ext. intros. unfold Rdiv. ring. Qed.
Lemma scale_rows_value N taylor ratio p x r : GlobalToValue N taylor (scale_rows ratio p) x r = GlobalToValue N taylor p x r * ratio r.
Proof. unfold GlobalToValue. cbn [scale_rows p_coeff p_basis]. rewrite <- rsum_mul_r. apply rsum_ext. intros. ring. Qed.
Lemma accumulate_value N taylor q p x r : p_basis q = p_basis p ->
  GlobalToValue N taylor (accumulate q p) x r = GlobalToValue N taylor p x r + GlobalToValue N taylor q x r.
Proof. intros E. unfold GlobalToValue. cbn [accumulate p_coeff p_basis]. rewrite E, <- rsum_add. apply rsum_ext. intros. ring. Qed.
Lemma LeftMultiply_value N taylor K left p x r :
  GlobalToValue N taylor (LeftMultiply K left p) x r = rsum K (fun k => left r k * GlobalToValue N taylor p x k).
Proof.
  unfold GlobalToValue. cbn [LeftMultiply p_coeff p_basis].
  rewrite (rsum_ext K _ (fun k => rsum N (fun c => left r k * p_coeff p k c * nth c (OrthoNormal_at N taylor (p_basis p) x) 0))).
  - rewrite rsum_swap. apply rsum_ext. intros c C. rewrite rsum_mul_r. reflexivity.
  - intros k _. rewrite <- rsum_mul_l. apply rsum_ext. intros. ring.
Qed.

(** *** The gradient *)

Lemma grad_linear k x y z a n (p : nat -> R) (m : MatNxN) : (a < 3)%nat ->
  nth a (Taylor3_GetGradValue k x y z (fun j => rsum n (fun c => p c * m c j))) 0 =
  rsum n (fun c => nth a (Taylor3_GetGradValue k x y z (m c)) 0 * p c).
Proof.
  intros A. induction n as [|n IH].
  - cbn [rsum]. destruct k as [|[|[|k]]], a as [|[|[|a]]]; try lia; cbn [Taylor3_GetGradValue nth]; ring.
  - cbn [rsum]. rewrite <- IH. set (u := fun j => rsum n (fun c => p c * m c j)).
    change (fun j => rsum n (fun c => p c * m c j) + p n * m n j) with (fun j => u j + p n * m n j).
    destruct k as [|[|[|k]]], a as [|[|[|a]]]; try lia; cbn [Taylor3_GetGradValue nth]; ring.
Qed.

Lemma derivable_shift f c t d : derivable_pt_lim f (t - c) d -> derivable_pt_lim (fun s => f (s - c)) t d.
Proof.
  intros D. replace d with (d * 1) by ring. apply (derivable_pt_lim_comp (fun s => s - c) f); [|exact D].
  replace 1 with (1 - 0) by ring. apply derivable_pt_lim_minus; [apply derivable_pt_lim_id|apply derivable_pt_lim_const].
Qed.
Lemma partial_shift a f p q r x y z d : is_partial [a] f (x - p) (y - q) (z - r) d ->
  is_partial [a] (fun x y z => f (x - p) (y - q) (z - r)) x y z d.
Proof.
  intros (g & G & E). exists (fun x y z => g (x - p) (y - q) (z - r)). split; [|exact E].
  intros u v w. specialize (G (u - p) (v - q) (w - r)). destruct a; apply derivable_shift in G; exact G.
Qed.

Lemma value_combination k p x r : (k <= 3)%nat ->
  GlobalToValue (Taylor3_N k) (taylor3 k) p x r =
  combination k (GetCoeffOnTaylorBasis (Taylor3_N k) p r) (vx x - vx (o_center (p_basis p))) (vy x - vy (o_center (p_basis p)))
    (vz x - vz (o_center (p_basis p))).
Proof.
  intros K. destruct (combination_values k (GetCoeffOnTaylorBasis (Taylor3_N k) p r) (vx x - vx (o_center (p_basis p)))
    (vy x - vy (o_center (p_basis p))) (vz x - vz (o_center (p_basis p))) K) as (_ & ->).
  change (components k) with (Taylor3_N k). unfold GlobalToValue, GetCoeffOnTaylorBasis.
  rewrite (rsum_ext _ _ (fun c => rsum (Taylor3_N k) (fun j => p_coeff p r c * o_coeff (p_basis p) c j * nth j (taylor3 k (vsub x (o_center (p_basis p)))) 0))).
  - rewrite rsum_swap. apply rsum_ext. intros j J. rewrite rsum_mul_r. unfold taylor3. destruct x as [a1 a2 a3], (o_center (p_basis p)) as [b1 b2 b3].
    reflexivity.
  - intros c C. rewrite OrthoNormal_at_nth by exact C. rewrite <- rsum_mul_l. apply rsum_ext. intros. ring.
Qed.

Definition grad3 (k : nat) (local : vec) (c : nat -> R) : list R := Taylor3_GetGradValue k (vx local) (vy local) (vz local) c.

Lemma gradient_value k p r x y z a : (k <= 3)%nat ->
  is_partial [a] (fun x y z => GlobalToValue (Taylor3_N k) (taylor3 k) p (V x y z) r) x y z
    (GlobalGradient (Taylor3_N k) (grad3 k) p (V x y z) (match a with AX => 0 | AY => 1 | AZ => 2 end)%nat r).
Proof.
  intros K. set (o := o_center (p_basis p)).
  apply (is_partial_ext _ (fun x y z => combination k (GetCoeffOnTaylorBasis (Taylor3_N k) p r) (x - vx o) (y - vy o) (z - vz o))).
  - intros u v w. rewrite value_combination by exact K. reflexivity.
  - apply partial_shift. unfold GlobalGradient. fold o.
    pose proof (Taylor_gradient k (GetCoeffOnTaylorBasis (Taylor3_N k) p r) (x - vx o) (y - vy o) (z - vz o) a K) as T.
    unfold GetCoeffOnTaylorBasis in T. rewrite (grad_linear k _ _ _ _ (Taylor3_N k)) in T by (destruct a; lia).
    destruct o as [o1 o2 o3]. exact T.
Qed.
