(** The chain rule along the coordinate lines of a map. *)
From Coq Require Import Reals List Arith Lia Lra.
From Verif Require Import Vec3 Spec_Basis Spec_Shapes Model_Nodal Spec_Nodal Proof_Geometry.
Open Scope R_scope.

Lemma derivable_equal f x d d' : derivable_pt_lim f x d -> d = d' -> derivable_pt_lim f x d'.
Proof. intros H <-. exact H. Qed.
Lemma derivable_near f g x d r : 0 < r -> (forall t, Rabs (t - x) < r -> f t = g t) -> derivable_pt_lim f x d -> derivable_pt_lim g x d.
Proof.
  intros Hr E H eps He. destruct (H eps He) as [delta Hd].
  assert (0 < Rmin delta r) as P by (apply Rmin_pos; [apply cond_pos|auto]).
  exists (mkposreal _ P). cbn. intros h Hh Lh. rewrite <- !E.
  - apply Hd; auto. eapply Rlt_le_trans; [exact Lh|apply Rmin_l].
  - rewrite Rminus_diag_eq, Rabs_R0; auto.
  - replace (x + h - x) with h by ring. eapply Rlt_le_trans; [exact Lh|apply Rmin_r].
Qed.
Lemma derivable_nonzero f x d : derivable_pt_lim f x d -> f x <> 0 -> exists r, 0 < r /\ forall t, Rabs (t - x) < r -> f t <> 0.
Proof.
  intros H N. assert (continuity_pt f x) as C by (apply derivable_continuous_pt; exists d; exact H).
  destruct (C (Rabs (f x)) (Rabs_pos_lt _ N)) as [r [Hr Hd]]. exists r. split; [exact Hr|]. intros t Ht Z.
  destruct (Req_dec t x) as [->|D]; [contradiction|].
  assert (Rabs (f t - f x) < Rabs (f x)) as K.
  { apply (Hd t). split; [split; [exact Logic.I|congruence]|exact Ht]. }
  rewrite Z, Rminus_0_l, Rabs_Ropp in K. lra.
Qed.

Lemma length3_le v : length3 v <= Rabs (vx v) + Rabs (vy v) + Rabs (vz v).
Proof.
  unfold length3, dot. pose proof (Rabs_pos (vx v)). pose proof (Rabs_pos (vy v)). pose proof (Rabs_pos (vz v)).
  rewrite <- (sqrt_square (Rabs (vx v) + Rabs (vy v) + Rabs (vz v))) by lra. apply sqrt_le_1_alt.
  rewrite <- (Rabs_pos_eq (vx v * vx v)), <- (Rabs_pos_eq (vy v * vy v)), <- (Rabs_pos_eq (vz v * vz v)) by apply Rle_0_sqr.
  rewrite !Rabs_mult. nra.
Qed.
Lemma length3_pos v : 0 <= length3 v.
Proof. apply sqrt_pos. Qed.

Section Chain.
Variables (f : vec -> R) (c : R -> vec) (t0 : R) (v g : vec).
Hypothesis Hx : derivable_pt_lim (fun t => vx (c t)) t0 (vx v).
Hypothesis Hy : derivable_pt_lim (fun t => vy (c t)) t0 (vy v).
Hypothesis Hz : derivable_pt_lim (fun t => vz (c t)) t0 (vz v).
Hypothesis Hg : has_gradient f (c t0) g.

Lemma step_bound (q : R -> R) d e : derivable_pt_lim q t0 d -> 0 < e -> exists r, 0 < r /\
  forall h, h <> 0 -> Rabs h < r -> Rabs (q (t0 + h) - q t0 - h * d) <= e * Rabs h.
Proof.
  intros H He. destruct (H e He) as [r Hr]. exists r. split; [apply cond_pos|]. intros h Hh L. specialize (Hr h Hh L).
  replace (q (t0 + h) - q t0 - h * d) with (((q (t0 + h) - q t0) / h - d) * h) by (field; auto).
  rewrite Rabs_mult. apply Rmult_le_compat_r; [apply Rabs_pos|lra].
Qed.

Lemma chain_rule : derivable_pt_lim (fun t => f (c t)) t0 (dot g v).
Proof.
  intros eps He.
  set (B := Rabs (vx v) + Rabs (vy v) + Rabs (vz v) + 3).
  set (C := Rabs (vx g) + Rabs (vy g) + Rabs (vz g) + 1).
  pose proof (Rabs_pos (vx v)) as PX. pose proof (Rabs_pos (vy v)) as PY. pose proof (Rabs_pos (vz v)) as PZ.
  pose proof (Rabs_pos (vx g)) as QX. pose proof (Rabs_pos (vy g)) as QY. pose proof (Rabs_pos (vz g)) as QZ.
  assert (0 < B) as HB by (unfold B; lra). assert (0 < C) as HC by (unfold C; lra).
  set (e1 := eps / (4 * B)). assert (0 < e1) as H1 by (unfold e1; apply Rdiv_lt_0_compat; lra).
  set (e2 := Rmin 1 (eps / (4 * C))). assert (0 < e2) as H2 by (unfold e2; apply Rmin_pos; [lra|apply Rdiv_lt_0_compat; lra]).
  destruct (Hg e1 H1) as [delta [Hdelta D]].
  destruct (step_bound _ _ e2 Hx H2) as [rx [Rx Sx]]. destruct (step_bound _ _ e2 Hy H2) as [ry [Ry Sy]].
  destruct (step_bound _ _ e2 Hz H2) as [rz [Rz Sz]].
  set (r := Rmin (Rmin rx ry) (Rmin rz (delta / B))).
  assert (0 < r) as Hr by (unfold r; repeat apply Rmin_pos; auto; apply Rdiv_lt_0_compat; lra).
  exists (mkposreal r Hr). cbn. intros h Hh L.
  assert (Rabs h < rx) as Lx by (eapply Rlt_le_trans; [exact L|]; unfold r; eapply Rle_trans; [apply Rmin_l|apply Rmin_l]).
  assert (Rabs h < ry) as Ly by (eapply Rlt_le_trans; [exact L|]; unfold r; eapply Rle_trans; [apply Rmin_l|apply Rmin_r]).
  assert (Rabs h < rz) as Lz by (eapply Rlt_le_trans; [exact L|]; unfold r; eapply Rle_trans; [apply Rmin_r|apply Rmin_l]).
  assert (Rabs h < delta / B) as Ld by (eapply Rlt_le_trans; [exact L|]; unfold r; eapply Rle_trans; [apply Rmin_r|apply Rmin_r]).
  specialize (Sx h Hh Lx). specialize (Sy h Hh Ly). specialize (Sz h Hh Lz).
  set (d := vsub (c (t0 + h)) (c t0)).
  assert (Rabs h > 0) as Ph by (apply Rabs_pos_lt, Hh).
  assert (e2 <= 1) as E21 by apply Rmin_l.
  assert (e2 * C <= eps / 4) as E2C.
  { apply Rle_trans with (eps / (4 * C) * C); [apply Rmult_le_compat_r; [lra|apply Rmin_r]|right; field; lra]. }
  assert (forall q a, Rabs (q - h * a) <= e2 * Rabs h -> Rabs q <= (Rabs a + 1) * Rabs h) as T.
  { intros q a K. replace q with (h * a + (q - h * a)) by ring. eapply Rle_trans; [apply Rabs_triang|]. rewrite Rabs_mult. nra. }
  pose proof (T _ _ Sx) as Tx. pose proof (T _ _ Sy) as Ty. pose proof (T _ _ Sz) as Tz.
  assert (length3 d <= B * Rabs h) as Bd.
  { eapply Rle_trans; [apply length3_le|]. unfold d, vsub. cbn [vx vy vz]. unfold B. lra. }
  assert (length3 d < delta) as Dd.
  { eapply Rle_lt_trans; [exact Bd|]. apply (Rmult_lt_compat_l B) in Ld; [|lra]. replace (B * (delta / B)) with delta in Ld by (field; lra). exact Ld. }
  specialize (D d Dd).
  replace (vadd (c t0) d) with (c (t0 + h)) in D by (unfold d, vadd, vsub; apply vec_eq; cbn [vx vy vz]; ring).
  assert (Rabs (dot g d - h * dot g v) <= eps / 4 * Rabs h) as E.
  { replace (dot g d - h * dot g v) with (vx g * (vx (c (t0 + h)) - vx (c t0) - h * vx v)
      + vy g * (vy (c (t0 + h)) - vy (c t0) - h * vy v) + vz g * (vz (c (t0 + h)) - vz (c t0) - h * vz v))
      by (unfold d, dot, vsub; cbn [vx vy vz]; ring).
    eapply Rle_trans; [apply Rabs_triang|]. eapply Rle_trans; [apply Rplus_le_compat_r, Rabs_triang|]. rewrite !Rabs_mult.
    apply Rle_trans with (e2 * C * Rabs h); [|apply Rmult_le_compat_r; [lra|exact E2C]].
    unfold C. nra. }
  assert (Rabs (f (c (t0 + h)) - f (c t0) - h * dot g v) <= eps / 2 * Rabs h) as F.
  { replace (f (c (t0 + h)) - f (c t0) - h * dot g v) with ((f (c (t0 + h)) - f (c t0) - dot g d) + (dot g d - h * dot g v)) by ring.
    eapply Rle_trans; [apply Rabs_triang|].
    assert (e1 * length3 d <= eps / 4 * Rabs h).
    { apply Rle_trans with (e1 * (B * Rabs h)); [apply Rmult_le_compat_l; lra|]. right. unfold e1. field. lra. }
    lra. }
  replace ((f (c (t0 + h)) - f (c t0)) / h - dot g v) with ((f (c (t0 + h)) - f (c t0) - h * dot g v) / h) by (field; auto).
  unfold Rdiv. rewrite Rabs_mult, Rabs_inv. apply Rle_lt_trans with (eps / 2 * Rabs h * / Rabs h).
  - apply Rmult_le_compat_r; [apply Rlt_le, Rinv_0_lt_compat, Ph|exact F].
  - rewrite Rmult_assoc, Rinv_r by lra. lra.
Qed.
End Chain.

(** ** coordinate lines *)
Definition move (l : vec) (a : nat) (t : R) : vec :=
  match a with 0%nat => V t (vy l) (vz l) | 1%nat => V (vx l) t (vz l) | _ => V (vx l) (vy l) t end.
Lemma move_start l a : move l a (component l a) = l.
Proof. destruct l as [x y z], a as [|[|a]]; reflexivity. Qed.
Lemma near_move r l a t : 0 < r -> Rabs (t - component l a) < r -> near r l (move l a t).
Proof.
  intros Hr H. unfold near. destruct a as [|[|a]]; cbn [move vx vy vz component] in *;
    repeat split; auto; rewrite Rminus_diag_eq, Rabs_R0; auto.
Qed.
Lemma near_trans r l l' l'' : near (r / 2) l l' -> near (r / 2) l' l'' -> near r l l''.
Proof.
  intros (X & Y & Z) (X' & Y' & Z'). repeat split.
  - replace (vx l'' - vx l) with ((vx l'' - vx l') + (vx l' - vx l)) by ring. eapply Rle_lt_trans; [apply Rabs_triang|lra].
  - replace (vy l'' - vy l) with ((vy l'' - vy l') + (vy l' - vy l)) by ring. eapply Rle_lt_trans; [apply Rabs_triang|lra].
  - replace (vz l'' - vz l) with ((vz l'' - vz l') + (vz l' - vz l)) by ring. eapply Rle_lt_trans; [apply Rabs_triang|lra].
Qed.
Lemma partial1_move a f df l : (a < 3)%nat -> is_partial1 (axis_of a) f df ->
  derivable_pt_lim (fun t => f (vx (move l a t)) (vy (move l a t)) (vz (move l a t))) (component l a) (df (vx l) (vy l) (vz l)).
Proof.
  intros H P. specialize (P (vx l) (vy l) (vz l)). destruct a as [|[|[|a]]]; [..|lia]; exact P.
Qed.
