(** Gradients and Hessians of a quotient that is given in local coordinates. *)
From Coq Require Import Reals List Arith Lia Lra.
From Verif Require Import Vec3 RSum Model_Basis Spec_Basis Model_Shapes Model_Geometry Spec_Shapes Proof_Vincent Proof_Geometry Model_Nodal Spec_Nodal
  Proof_Chain Proof_NodalBasis.
Import ListNotations.
Open Scope R_scope.

Definition along (a : nat) (f : vec -> R) (l : vec) (d : R) : Prop :=
  derivable_pt_lim (fun t => f (move l a t)) (component l a) d.
Definition along_vec (a : nat) (f : vec -> vec) (l d : vec) : Prop :=
  along a (fun l => vx (f l)) l (vx d) /\ along a (fun l => vy (f l)) l (vy d) /\ along a (fun l => vz (f l)) l (vz d).

Section Quotient.
Variables (X : vec -> vec) (M : nat -> vec -> vec) (G : nat -> nat -> vec -> vec).
Variables (j : vec -> R) (j1 : nat -> vec -> R) (j2 : nat -> nat -> vec -> R).
Variables (u : vec -> R) (u1 : nat -> vec -> R) (u2 : nat -> nat -> vec -> R).
Hypothesis HX : forall a l, (a < 3)%nat -> along_vec a X l (M a l).
Hypothesis HM : forall a c l, (a < 3)%nat -> (c < 3)%nat -> along_vec a (M c) l (G a c l).
Hypothesis Hj : forall a l, (a < 3)%nat -> along a j l (j1 a l).
Hypothesis Hu : forall a l, (a < 3)%nat -> along a u l (u1 a l).

Definition q (l : vec) : R := u l / j l.
Definition w (c : nat) (l : vec) : R := (u1 c l * j l - j1 c l * u l) / (j l)².
Lemma quotient_along a l : (a < 3)%nat -> j l <> 0 -> along a q l (w a l).
Proof.
  intros Ha N. unfold along, q, w.
  pose proof (derivable_pt_lim_div (fun t => u (move l a t)) (fun t => j (move l a t)) (component l a) _ _ (Hu a l Ha) (Hj a l Ha)) as H.
  cbv beta in H. rewrite move_start in H. apply H, N.
Qed.
Lemma gradient_equation f l g a : (a < 3)%nat -> j l <> 0 -> represented X q f l -> has_gradient f (X l) g -> dot g (M a l) = w a l.
Proof.
  intros Ha N (r & Hr & E) Hg. destruct (HX a l Ha) as (Cx & Cy & Cz).
  apply (uniqueness_limite (fun t => f (X (move l a t))) (component l a)).
  - apply (chain_rule f (fun t => X (move l a t)) (component l a) (M a l) g Cx Cy Cz). rewrite move_start. exact Hg.
  - apply (derivable_near (fun t => q (move l a t)) _ _ _ r Hr); [|exact (quotient_along a l Ha N)].
    intros t Ht. symmetry. apply E. apply near_move; assumption.
Qed.

Hypothesis Hj2 : forall a c l, (a < 3)%nat -> (c < 3)%nat -> along a (j1 c) l (j2 a c l).
Hypothesis Hu2 : forall a c l, (a < 3)%nat -> (c < 3)%nat -> along a (u1 c) l (u2 a c l).
Definition w2 (a c : nat) (l : vec) : R :=
  ((u2 a c l * j l + u1 c l * j1 a l - (j2 a c l * u l + j1 c l * u1 a l)) * (j l)² - 2 * j l * j1 a l * (u1 c l * j l - j1 c l * u l))
  / ((j l)²)².
Lemma w_along a c l : (a < 3)%nat -> (c < 3)%nat -> j l <> 0 -> along a (w c) l (w2 a c l).
Proof.
  intros Ha Hc N. unfold along, w, w2.
  set (t0 := component l a).
  pose proof (derivable_pt_lim_mult (fun t => u1 c (move l a t)) (fun t => j (move l a t)) t0 _ _ (Hu2 a c l Ha Hc) (Hj a l Ha)) as A.
  pose proof (derivable_pt_lim_mult (fun t => j1 c (move l a t)) (fun t => u (move l a t)) t0 _ _ (Hj2 a c l Ha Hc) (Hu a l Ha)) as B.
  pose proof (derivable_pt_lim_mult (fun t => j (move l a t)) (fun t => j (move l a t)) t0 _ _ (Hj a l Ha) (Hj a l Ha)) as C.
  pose proof (derivable_pt_lim_minus _ _ _ _ _ A B) as AB.
  assert (j (move l a t0) * j (move l a t0) <> 0) as N2 by (unfold t0; rewrite move_start; apply Rmult_integral_contrapositive; split; exact N).
  pose proof (derivable_pt_lim_div _ _ _ _ _ AB C N2) as Q. unfold mult_fct, minus_fct in Q. cbv beta in Q. unfold t0 in Q. rewrite !move_start in Q.
  fold t0 in Q. eapply derivable_equal; [exact Q|]. unfold Rsqr. field. exact N.
Qed.
(** the equation of the second derivatives *)
Lemma hessian_equation f l hx hy hz g r a c : (a < 3)%nat -> (c < 3)%nat -> j l <> 0 -> represented X q f l ->
  0 < r -> (forall l', near r l l' -> has_gradient f (X l') (g (X l'))) ->
  has_gradient (fun p => vx (g p)) (X l) hx -> has_gradient (fun p => vy (g p)) (X l) hy -> has_gradient (fun p => vz (g p)) (X l) hz ->
  dot hx (M a l) * vx (M c l) + dot hy (M a l) * vy (M c l) + dot hz (M a l) * vz (M c l) = w2 a c l - dot (g (X l)) (G a c l).
Proof.
  intros Ha Hc N (r1 & Hr1 & E) Hr Hg Gx Gy Gz.
  destruct (derivable_nonzero (fun t => j (move l a t)) (component l a) _ (Hj a l Ha)) as (r2 & Hr2 & N2); [rewrite move_start; exact N|].
  set (rr := Rmin r (Rmin (r1 / 2) r2)).
  assert (0 < rr) as Hrr by (unfold rr; repeat apply Rmin_pos; lra).
  assert (rr <= r /\ rr <= r1 / 2 /\ rr <= r2) as (L1 & L2 & L3).
  { unfold rr. split; [apply Rmin_l|]. split; (eapply Rle_trans; [apply Rmin_r|]); [apply Rmin_l|apply Rmin_r]. }
  assert (forall t, Rabs (t - component l a) < rr -> w c (move l a t) = dot (g (X (move l a t))) (M c (move l a t))) as Q.
  { intros t Ht. symmetry. apply (gradient_equation f); [exact Hc|apply N2; lra| |].
    - exists (r1 / 2). split; [lra|]. intros l' H'. apply E. apply (near_trans _ _ (move l a t)); [|exact H'].
      apply near_move; lra.
    - apply Hg. apply near_move; lra. }
  pose proof (derivable_near _ _ _ _ rr Hrr Q (w_along a c l Ha Hc N)) as W.
  set (t0 := component l a).
  destruct (HX a l Ha) as (Cx & Cy & Cz). destruct (HM a c l Ha Hc) as (Dx & Dy & Dz).
  assert (X (move l a t0) = X l) as XE by (unfold t0; rewrite move_start; reflexivity).
  assert (derivable_pt_lim (fun t => vx (g (X (move l a t)))) t0 (dot hx (M a l))) as Fx.
  { apply (chain_rule (fun p => vx (g p)) (fun t => X (move l a t)) t0 (M a l) hx Cx Cy Cz). rewrite XE. exact Gx. }
  assert (derivable_pt_lim (fun t => vy (g (X (move l a t)))) t0 (dot hy (M a l))) as Fy.
  { apply (chain_rule (fun p => vy (g p)) (fun t => X (move l a t)) t0 (M a l) hy Cx Cy Cz). rewrite XE. exact Gy. }
  assert (derivable_pt_lim (fun t => vz (g (X (move l a t)))) t0 (dot hz (M a l))) as Fz.
  { apply (chain_rule (fun p => vz (g p)) (fun t => X (move l a t)) t0 (M a l) hz Cx Cy Cz). rewrite XE. exact Gz. }
  pose proof (derivable_pt_lim_plus _ _ _ _ _ (derivable_pt_lim_plus _ _ _ _ _
    (derivable_pt_lim_mult _ _ _ _ _ Fx Dx) (derivable_pt_lim_mult _ _ _ _ _ Fy Dy)) (derivable_pt_lim_mult _ _ _ _ _ Fz Dz)) as S.
  unfold plus_fct, mult_fct in S. cbv beta in S.
  pose proof (uniqueness_limite _ _ _ _ W S) as U. fold t0 in U. rewrite XE in U.
  unfold t0 in U. rewrite move_start in U. rewrite U. unfold dot. ring.
Qed.
End Quotient.

(** ** matrices *)
Ltac mats := unfold mtrace, mmul, rmul, mcol, madd, mscale, mtranspose, of_columns, dot, vscale, vadd, vsub, mone in *; cbn [vx vy vz r0 r1 r2] in *.
Lemma mat_eq m n : r0 m = r0 n -> r1 m = r1 n -> r2 m = r2 n -> m = n.
Proof. destruct m as [a b c], n as [d e f]. cbn. intros; subst; reflexivity. Qed.
Lemma mcol_mul m n v : mcol (mmul m n) v = mcol m (mcol n v).
Proof.
  destruct m as [[a0 a1 a2] [b0 b1 b2] [c0 c1 c2]], n as [[d0 d1 d2] [e0 e1 e2] [f0 f1 f2]], v as [x y z].
  mats. apply vec_eq; cbn [vx vy vz]; ring.
Qed.
Lemma mcol_one v : mcol mone v = v.
Proof. destruct v as [x y z]. mats. apply vec_eq; cbn [vx vy vz]; ring. Qed.
Lemma mone_mul m : mmul mone m = m.
Proof. destruct m as [[a0 a1 a2] [b0 b1 b2] [c0 c1 c2]]. mats. f_equal; apply vec_eq; cbn [vx vy vz]; ring. Qed.
Lemma mcol_scale c m v : mcol (mscale c m) v = vscale c (mcol m v).
Proof. destruct m as [[a0 a1 a2] [b0 b1 b2] [c0 c1 c2]], v as [x y z]. mats. apply vec_eq; cbn [vx vy vz]; ring. Qed.
Lemma mcol_vscale c m v : mcol m (vscale c v) = vscale c (mcol m v).
Proof. destruct m as [[a0 a1 a2] [b0 b1 b2] [c0 c1 c2]], v as [x y z]. mats. apply vec_eq; cbn [vx vy vz]; ring. Qed.
Lemma mmul_scale_l c m n : mmul (mscale c m) n = mscale c (mmul m n).
Proof.
  destruct m as [[a0 a1 a2] [b0 b1 b2] [c0 c1 c2]], n as [[d0 d1 d2] [e0 e1 e2] [f0 f1 f2]].
  mats. f_equal; apply vec_eq; cbn [vx vy vz]; ring.
Qed.
Lemma mtranspose_mul m n : mtranspose (mmul m n) = mmul (mtranspose n) (mtranspose m).
Proof.
  destruct m as [[a0 a1 a2] [b0 b1 b2] [c0 c1 c2]], n as [[d0 d1 d2] [e0 e1 e2] [f0 f1 f2]].
  mats. f_equal; apply vec_eq; cbn [vx vy vz]; ring.
Qed.
Lemma mtranspose_one : mtranspose mone = mone.
Proof. reflexivity. Qed.
Lemma solve_unique m g b : mdet m <> 0 -> mcol m g = b -> g = mcol (minv m) b.
Proof. intros N <-. rewrite <- mcol_mul, minv_left, mcol_one by exact N. reflexivity. Qed.
Lemma two_sided m D T : mdet m <> 0 -> mmul (mmul m D) (mtranspose m) = T ->
  D = mmul (minv m) (mmul T (mtranspose (minv m))).
Proof.
  intros N <-. rewrite (mmul_assoc (mmul m D)), <- mtranspose_mul, minv_left, mtranspose_one, mmul_one by exact N.
  rewrite <- mmul_assoc, minv_left, mone_mul by exact N. reflexivity.
Qed.
Lemma scale_scale c d m : mscale c (mscale d m) = mscale (c * d) m.
Proof. destruct m as [[a0 a1 a2] [b0 b1 b2] [c0 c1 c2]]. mats. f_equal; apply vec_eq; cbn [vx vy vz]; ring. Qed.
Lemma scale_one m : mscale 1 m = m.
Proof. destruct m as [[a0 a1 a2] [b0 b1 b2] [c0 c1 c2]]. mats. f_equal; apply vec_eq; cbn [vx vy vz]; ring. Qed.
Lemma rmul_transpose v m : rmul v (mtranspose m) = mcol m v.
Proof. destruct m as [[a0 a1 a2] [b0 b1 b2] [c0 c1 c2]], v as [x y z]. mats. apply vec_eq; cbn [vx vy vz]; ring. Qed.
Lemma rmul_mscale v c m : rmul v (mscale c m) = vscale c (rmul v m).
Proof. destruct m as [[a0 a1 a2] [b0 b1 b2] [c0 c1 c2]], v as [x y z]. mats. apply vec_eq; cbn [vx vy vz]; ring. Qed.
Lemma rmul_madd v m n : rmul v (madd m n) = vadd (rmul v m) (rmul v n).
Proof.
  destruct m as [[a0 a1 a2] [b0 b1 b2] [c0 c1 c2]], n as [[d0 d1 d2] [e0 e1 e2] [f0 f1 f2]], v as [x y z].
  mats. apply vec_eq; cbn [vx vy vz]; ring.
Qed.
Lemma mcol_vadd m v v' : mcol m (vadd v v') = vadd (mcol m v) (mcol m v').
Proof. destruct m as [[a0 a1 a2] [b0 b1 b2] [c0 c1 c2]], v as [x y z], v' as [x' y' z']. mats. apply vec_eq; cbn [vx vy vz]; ring. Qed.
Lemma mcol_vsub m v v' : mcol m (vsub v v') = vsub (mcol m v) (mcol m v').
Proof. destruct m as [[a0 a1 a2] [b0 b1 b2] [c0 c1 c2]], v as [x y z], v' as [x' y' z']. mats. apply vec_eq; cbn [vx vy vz]; ring. Qed.
(** one row of the matrix of second derivatives, as [GetGlobalHessian] puts it together; [i] is the inverse of
    the determinant [d], [A] the inverse of the Jacobian, [B] its derivative with respect to the direction of the row *)
Lemma row_formula (A B : mat3) (i ua ja U : R) (u2 u1 j1 j2 : vec) :
  let T := mtranspose A in
  let TB := mscale (-1) (mtranspose (mmul (mmul A B) A)) in
  vadd (vadd (rmul u2 (mscale i T))
    (vsub (rmul u1 (madd (mscale i TB) (mscale (- ja * (i * i)) T))) (vscale ua (vscale (i * i) (rmul j1 T)))))
    (vscale (- U) (vadd (rmul j2 (mscale (i * i) T)) (rmul j1 (madd (mscale (i * i) TB) (mscale (-2 * ja * (i * i * i)) T)))))
  = rmul (vsub (vadd (vscale i u2) (vadd (vscale (- ja * (i * i)) u1) (vadd (vscale (- ua * (i * i)) j1)
      (vscale (- U) (vadd (vscale (i * i) j2) (vscale (-2 * ja * (i * i * i)) j1))))))
      (mcol B (mcol A (vadd (vscale i u1) (vscale (- U * (i * i)) j1))))) T.
Proof.
  cbv zeta. rewrite !rmul_madd, !rmul_mscale, !rmul_transpose, !mcol_mul, !mcol_vsub, !mcol_vadd, !mcol_vscale, !mcol_vadd, !mcol_vscale.
  generalize (mcol A (mcol B (mcol A u1))) (mcol A (mcol B (mcol A j1))) (mcol A u2) (mcol A u1) (mcol A j2) (mcol A j1).
  clear. intros [a b c] [a' b' c'] [d e f] [d' e' f'] [g h k] [g' h' k']. unfold vadd, vsub, vscale. cbn [vx vy vz].
  apply vec_eq; cbn [vx vy vz]; ring.
Qed.
