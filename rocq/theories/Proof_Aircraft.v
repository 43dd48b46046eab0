(** Proofs about frames, intersections, blades and rotors. *)
From Coq Require Import Reals List Lra Psatz Lia ZArith Nsatz.
From Verif Require Import Arrays Vec3 Model_Aircraft Spec_Aircraft.
Import ListNotations.
Open Scope R_scope.

(** ** Frames *)

Ltac frame_goal f :=
  destruct f as [[x1 x2 x3] [y1 y2 y3] [z1 z2 z3]]; unfold right_handed, turn, RotateX, RotateY, RotateZ, CosSin, cross, dot in *; cbn in *.

Lemma cos_sin d : cos (deg2rad d) * cos (deg2rad d) + sin (deg2rad d) * sin (deg2rad d) = 1.
Proof. pose proof (sin2_cos2 (deg2rad d)). unfold Rsqr in *. lra. Qed.

Lemma rotate_right_handed f t : right_handed f -> right_handed (turn f t).
Proof.
  intros H. destruct t as [d|d|d]; pose proof (cos_sin d) as C; frame_goal f;
  set (c := cos (deg2rad d)) in *; set (s := sin (deg2rad d)) in *; clearbody c s;
  destruct H as [A [B [D [E [F [G H]]]]]]; injection H as H1 H2 H3.
  - repeat split; try nsatz. apply vec_eq; cbn; nsatz.
  - repeat split; try nsatz. apply vec_eq; cbn; nsatz.
  - repeat split; try nsatz. apply vec_eq; cbn; nsatz.
Qed.

Lemma default_right_handed : right_handed default_frame.
Proof. unfold right_handed, default_frame, dot, cross; cbn. repeat split; try lra. apply vec_eq; cbn; lra. Qed.

Lemma rotations_right_handed ts f : right_handed f -> right_handed (fold_left turn ts f).
Proof. revert f. induction ts; intros f H; cbn; [auto|]. apply IHts. apply rotate_right_handed; auto. Qed.

Lemma deg2rad_add a b : deg2rad (a + b) = deg2rad a + deg2rad b.
Proof. unfold deg2rad. field. Qed.

Lemma rotations_add f a b :
  RotateX b (RotateX a f) = RotateX (a + b) f /\ RotateY b (RotateY a f) = RotateY (a + b) f /\
  RotateZ b (RotateZ a f) = RotateZ (a + b) f.
Proof.
  frame_goal f. rewrite !deg2rad_add, !cos_plus, !sin_plus.
  set (c := cos (deg2rad a)). set (s := sin (deg2rad a)). set (c' := cos (deg2rad b)). set (s' := sin (deg2rad b)).
  repeat split; f_equal; apply vec_eq; cbn; ring.
Qed.

(** ** Line and triangle *)

Lemma solve_solves a b c q : det3 a b c <> 0 ->
  vadd (vscale (vx (solve a b c q)) a) (vadd (vscale (vy (solve a b c q)) b) (vscale (vz (solve a b c q)) c)) = q.
Proof.
  intros D. destruct a as [a1 a2 a3], b as [b1 b2 b3], c as [c1 c2 c3], q as [q1 q2 q3].
  unfold solve, det3, dot, cross in *. cbn in *. apply vec_eq; cbn; field; auto.
Qed.

Lemma solve_unique a b c q l m n : det3 a b c <> 0 ->
  vadd (vscale l a) (vadd (vscale m b) (vscale n c)) = q -> solve a b c q = V l m n.
Proof.
  intros D <-. destruct a as [a1 a2 a3], b as [b1 b2 b3], c as [c1 c2 c3].
  unfold solve, det3, dot, cross in *. cbn in *. apply vec_eq; cbn; field; auto.
Qed.

Lemma min3_ge x y z : Rmin x (Rmin y z) >= 0 <-> 0 <= x /\ 0 <= y /\ 0 <= z.
Proof.
  unfold Rmin. destruct (Rle_dec y z).
  - destruct (Rle_dec x y); split; intros; lra.
  - destruct (Rle_dec x z); split; intros; lra.
Qed.

Lemma triangle_shift a b c p x : in_triangle (vsub a p) (vsub b p) (vsub c p) (vsub x p) <-> in_triangle a b c x.
Proof.
  split; intros [l [m [n [L [M [N [S E]]]]]]]; exists l, m, n; repeat split; auto;
  destruct a as [a1 a2 a3], b as [b1 b2 b3], c as [c1 c2 c3], p as [p1 p2 p3], x as [x1 x2 x3];
  injection E as E1 E2 E3; cbn in *; apply vec_eq; cbn; nra.
Qed.

Lemma some_eq {A} (x y : A) : Some x = Some y -> x = y.
Proof. intros E. injection E as E. exact E. Qed.

(** relative to [p] *)
Lemma intersect_relative pa pb pc pq : det3 pa pb pc <> 0 \/ det3 (vsub pa pq) (vsub pb pq) (vsub pc pq) <> 0 ->
  forall t, Intersect pa pb pc pq = Some t <-> 0 <= t <= 1 /\ in_triangle pa pb pc (vscale t pq).
Proof.
  intros G t. unfold Intersect. destruct (Req_EM_T (det3 pa pb pc) 0) as [Z|Z].
  - destruct G as [G|G]; [contradiction|].
    set (a := vsub pa pq) in *. set (b := vsub pb pq) in *. set (c := vsub pc pq) in *.
    destruct (Req_EM_T (det3 a b c) 0) as [|_]; [contradiction|].
    pose proof (solve_solves a b c pq G) as Sol.
    assert (forall l m n, vadd (vscale l a) (vadd (vscale m b) (vscale n c)) =
      vsub (vadd (vscale l pa) (vadd (vscale m pb) (vscale n pc))) (vscale (l + m + n) pq)) as Sh.
    { intros. unfold a, b, c. apply vec_eq; cbn; ring. }
    split.
    + destruct (Rge_dec _ 0) as [Mi|Mi]; [|discriminate]. apply min3_ge in Mi.
      destruct (Rge_dec _ 1) as [S1|S1]; [|discriminate]. intros E. apply some_eq in E. subst t.
      destruct (solve a b c pq) as [l m n]. cbn [vneg vx vy vz] in *. cbv iota beta.
      set (s := - l + - m + - n) in *. rewrite Sh in Sol.
      assert (0 < s) as S0 by lra. assert (0 < / s) as S2 by (apply Rinv_0_lt_compat; auto).
      assert ((s - 1) / s = 1 - / s) as Es by (field; lra).
      assert (/ s <= 1) as S3 by (rewrite <- Rinv_1; apply Rinv_le_contravar; lra).
      split; [rewrite Es; lra|].
      exists (- l / s), (- m / s), (- n / s). unfold Rdiv.
      repeat split; try (apply Rmult_le_pos; lra).
      * replace (- l * / s + - m * / s + - n * / s) with (s * / s) by (unfold s; ring). field. lra.
      * assert (vscale (s - 1) pq = vadd (vscale (- l) pa) (vadd (vscale (- m) pb) (vscale (- n) pc))) as Sc.
        { pose proof (f_equal vx Sol) as Q1. pose proof (f_equal vy Sol) as Q2. pose proof (f_equal vz Sol) as Q3.
          clear - Q1 Q2 Q3. unfold s. cbn in *. apply vec_eq; cbn; lra. }
        transitivity (vscale (/ s) (vscale (s - 1) pq)).
        -- apply vec_eq; cbn; field; lra.
        -- rewrite Sc. apply vec_eq; cbn; ring.
    + intros [Ht [l [m [n [L [M [N [Su E]]]]]]]].
      assert (vadd (vscale l a) (vadd (vscale m b) (vscale n c)) = vscale (t - 1) pq) as E'.
      { rewrite Sh, <- E, Su. apply vec_eq; cbn; ring. }
      destruct (Req_dec t 1) as [T1|T1].
      { exfalso. pose proof (solve_unique a b c v0 l m n G) as U.
        assert (vscale (t - 1) pq = v0) as Ez by (subst t; apply vec_eq; cbn; ring).
        rewrite Ez in E'. specialize (U E').
        pose proof (solve_unique a b c v0 0 0 0 G) as U0.
        assert (solve a b c v0 = V 0 0 0) as U1 by (apply U0; apply vec_eq; cbn; ring).
        rewrite U in U1. injection U1 as -> -> ->. lra. }
      assert (solve a b c pq = V (l / (t - 1)) (m / (t - 1)) (n / (t - 1))) as ->.
      { apply solve_unique; [exact G|].
        transitivity (vscale (/ (t - 1)) (vscale (t - 1) pq)).
        - rewrite <- E'. apply vec_eq; cbn; field; lra.
        - apply vec_eq; cbn; field; lra. }
      cbn [vneg vx vy vz].
      assert (forall x, - (x / (t - 1)) = x / (1 - t)) as Ng by (intros; field; lra).
      rewrite !Ng. assert (0 < / (1 - t)) as I0 by (apply Rinv_0_lt_compat; lra).
      destruct (Rge_dec _ 0) as [Mi|Mi].
      2:{ exfalso. apply Mi. apply min3_ge. unfold Rdiv. repeat split; apply Rmult_le_pos; lra. }
      assert (l / (1 - t) + m / (1 - t) + n / (1 - t) = / (1 - t)) as Es.
      { replace (l / (1 - t) + m / (1 - t) + n / (1 - t)) with ((l + m + n) / (1 - t)) by (field; lra). rewrite Su. field. lra. }
      rewrite Es. assert (1 <= / (1 - t)) by (rewrite <- Rinv_1 at 1; apply Rinv_le_contravar; lra).
      destruct (Rge_dec _ 1); [|lra]. f_equal. field. lra.
  - destruct (Req_EM_T (det3 pa pb pc) 0) as [|_]; [contradiction|].
    pose proof (solve_solves pa pb pc pq Z) as Sol. split.
    + destruct (Rge_dec _ 0) as [Mi|Mi]; [|discriminate]. apply min3_ge in Mi.
      destruct (Rge_dec _ 1) as [S1|S1]; [|discriminate]. intros E. apply some_eq in E. subst t.
      destruct (solve pa pb pc pq) as [l m n]. cbn [vx vy vz] in *.
      set (s := l + m + n) in *.
      assert (0 < s) as S0 by lra. assert (0 < / s) as S2 by (apply Rinv_0_lt_compat; auto).
      assert (/ s <= 1) as S3 by (rewrite <- Rinv_1; apply Rinv_le_contravar; lra).
      unfold Rdiv. rewrite Rmult_1_l. split; [lra|].
      exists (l * / s), (m * / s), (n * / s). repeat split; try (apply Rmult_le_pos; lra).
      * replace (l * / s + m * / s + n * / s) with (s * / s) by (unfold s; ring). field. lra.
      * rewrite <- Sol. apply vec_eq; cbn; ring.
    + intros [Ht [l [m [n [L [M [N [Su E]]]]]]]].
      destruct (Req_dec t 0) as [T0|T0].
      { exfalso. pose proof (solve_unique pa pb pc v0 l m n Z) as U.
        assert (vscale t pq = v0) as Ez by (subst t; apply vec_eq; cbn; ring).
        rewrite Ez in E. specialize (U (eq_sym E)).
        assert (solve pa pb pc v0 = V 0 0 0) as U1 by (apply (solve_unique pa pb pc v0 0 0 0 Z); apply vec_eq; cbn; ring).
        rewrite U in U1. injection U1 as -> -> ->. lra. }
      assert (solve pa pb pc pq = V (l / t) (m / t) (n / t)) as ->.
      { apply solve_unique; [exact Z|].
        transitivity (vscale (/ t) (vscale t pq)).
        - rewrite E. apply vec_eq; cbn; field; lra.
        - apply vec_eq; cbn; field; lra. }
      cbn [vx vy vz]. assert (0 < / t) as I0 by (apply Rinv_0_lt_compat; lra).
      destruct (Rge_dec _ 0) as [Mi|Mi].
      2:{ exfalso. apply Mi. apply min3_ge. unfold Rdiv. repeat split; apply Rmult_le_pos; lra. }
      assert (l / t + m / t + n / t = / t) as Es.
      { replace (l / t + m / t + n / t) with ((l + m + n) / t) by (field; lra). rewrite Su. field. lra. }
      rewrite Es. assert (1 <= / t) by (rewrite <- Rinv_1 at 1; apply Rinv_le_contravar; lra).
      destruct (Rge_dec _ 1); [|lra]. f_equal. field. lra.
Qed.

Lemma intersect_correct p q a b c : ~ (in_plane a b c p /\ in_plane a b c q) ->
  forall t, Intersect (vsub a p) (vsub b p) (vsub c p) (vsub q p) = Some t <-> meets p q a b c t.
Proof.
  intros G t. rewrite intersect_relative.
  - unfold meets. rewrite <- (triangle_shift a b c p (between p q t)).
    replace (vsub (between p q t) p) with (vscale t (vsub q p)); [tauto|].
    unfold between. apply vec_eq; cbn; ring.
  - unfold in_plane in G. destruct (Req_EM_T (det3 (vsub a p) (vsub b p) (vsub c p)) 0) as [Z|Z]; [|auto].
    right. intros W. apply G. split; [exact Z|]. rewrite <- W. f_equal; apply vec_eq; cbn; ring.
Qed.

(** ** Sections of a blade *)

Section Stations.
  Context {A : Type}.
  Implicit Types (l : list (Station A)) (s : Station A).

  Lemma increasing_snoc xs x y : increasing (xs ++ [x]) -> x < y -> increasing (xs ++ [x; y]).
  Proof.
    intros H L. induction xs as [|z xs IH]; cbn in *; [auto|].
    destruct xs as [|w xs]; cbn in *; [tauto|]. destruct H as [H1 H2]. split; [auto|]. apply IH; auto.
  Qed.

  Lemma install_invariant s l l' : well_placed l -> InstallSection s l = Some l' ->
    well_placed l' /\ l' = l ++ [s].
  Proof.
    intros [W I] E. destruct l as [|s0 l]; unfold InstallSection in E.
    - destruct (Req_EM_T (y_value s) 0); [|discriminate]. injection E as <-. split; [split; cbn; auto|reflexivity].
    - destruct (Rge_dec _ _) as [|N]; [discriminate|]. injection E as <-. split; [|reflexivity].
      split; [exact W|]. change (s0 :: l ++ [s]) with ((s0 :: l) ++ [s]).
      destruct (@exists_last _ (s0 :: l)) as [l0 [x Ex]]; [discriminate|].
      rewrite Ex in *. rewrite last_last in N.
      rewrite !map_app in *. cbn in *. rewrite <- app_assoc.
      apply increasing_snoc; [exact I|lra].
  Qed.

  Lemma install_throws s l : InstallSection s l = None <->
    (l = [] /\ y_value s <> 0) \/ exists l0 x, l = l0 ++ [x] /\ y_value s <= y_value x.
  Proof.
    destruct l as [|s0 l]; unfold InstallSection.
    - destruct (Req_EM_T (y_value s) 0); split; intros H; try discriminate; auto.
      destruct H as [[_ H]|[l0 [x [E _]]]]; [contradiction|]. destruct l0; discriminate.
    - destruct (@exists_last _ (s0 :: l)) as [l0 [x Ex]]; [discriminate|].
      rewrite Ex, last_last. destruct (Rge_dec _ _) as [G|N]; split; intros H; try discriminate; auto.
      + right. exists l0, x. split; [auto|lra].
      + exfalso. destruct H as [[H _]|[l1 [y [E L]]]]; [destruct l0; discriminate|].
        apply app_inj_tail in E. destruct E as [_ <-]. lra.
  Qed.

  Lemma try_install_invariant ss l : well_placed l -> well_placed (fold_left try_install ss l).
  Proof.
    revert l. induction ss as [|s ss IH]; intros l W; cbn; [auto|]. apply IH. unfold try_install.
    destruct (InstallSection s l) as [l'|] eqn:E; [|auto]. apply (install_invariant s l l' W E).
  Qed.

  Lemma lower_bound_spec l : forall prev y p s1, lower_bound prev l y = Some (p, s1) ->
    exists l0 l1, l = l0 ++ s1 :: l1 /\ y <= y_value s1 /\
    ((l0 = [] /\ p = prev) \/ exists l2 s0, l0 = l2 ++ [s0] /\ p = Some s0 /\ y_value s0 < y).
  Proof.
    induction l as [|s l IH]; intros prev y p s1 E; cbn in E; [discriminate|].
    destruct (Rlt_dec (y_value s) y) as [L|L].
    - destruct (IH _ _ _ _ E) as [l0 [l1 [-> [Hy [[-> ->]|[l2 [s0 [-> [-> H]]]]]]]]].
      + exists (s :: nil), l1. split; [reflexivity|]. split; [exact Hy|]. right. exists [], s. auto.
      + exists (s :: l2 ++ [s0]), l1. split; [reflexivity|]. split; [exact Hy|].
        right. exists (s :: l2), s0. auto.
    - injection E as <- <-. exists [], l. split; [reflexivity|]. split; [lra|]. left. auto.
  Qed.

  Lemma lower_bound_total l : forall prev y x, In x l -> y <= y_value x -> exists r, lower_bound prev l y = Some r.
  Proof.
    induction l as [|s l IH]; intros prev y x I H; [destruct I|]. cbn.
    destruct (Rlt_dec (y_value s) y); [|eauto]. destruct I as [->|I]; [lra|]. eauto.
  Qed.

  Lemma span_last l0 (x : Station A) : GetSpan (l0 ++ [x]) = y_value x.
  Proof. unfold GetSpan. destruct l0; [reflexivity|]. change ((s :: l0) ++ [x]) with (s :: (l0 ++ [x])) at 1.
    cbv iota beta. rewrite last_last. reflexivity. Qed.

  Lemma increasing_first xs x y : increasing (x :: xs) -> In y xs -> x < y.
  Proof.
    revert x. induction xs as [|z xs IH]; intros x H I; [destruct I|]. cbn in H. destruct H as [H1 H2].
    destruct I as [->|I]; [auto|]. pose proof (IH z H2 I). lra.
  Qed.

  Lemma increasing_app xs ys : increasing (xs ++ ys) -> increasing ys.
  Proof.
    induction xs as [|x xs IH]; cbn; [auto|]. destruct (xs ++ ys) eqn:E; [|intros [_ H]; auto].
    intros _. apply IH. exact I.
  Qed.

  (** what the code computes: the two weights are exchanged *)
  Theorem get_section_spec l ratio : l <> [] -> well_placed l -> 0 <= ratio <= 1 ->
    let y := ratio * GetSpan l in
    exists d, GetSection l ratio = Some d /\
    ((exists l0 s l1, l = l0 ++ s :: l1 /\ y_value s = y /\ s_chord d = chord s /\ s_twist d = twist s) \/
     exists l0 s0 s1 l1, l = l0 ++ s0 :: s1 :: l1 /\ y_value s0 < y < y_value s1 /\
       on_line (y_value s0) (chord s1) (y_value s1) (chord s0) y (s_chord d) /\
       on_line (y_value s0) (twist s1) (y_value s1) (twist s0) y (s_twist d)).
  Proof.
    intros N [W I] Hr y.
    destruct (@exists_last _ l N) as [lb [x Ex]].
    assert (GetSpan l = y_value x) as Sp by (rewrite Ex; apply span_last).
    assert (0 <= y_value x) as Sx.
    { destruct l as [|s l]; [contradiction|]. cbn in W. destruct lb as [|s' lb].
      - cbn in Ex. injection Ex as -> ->. lra.
      - cbn in Ex. injection Ex as <- ->. cbn in I. rewrite map_app in I. cbn in I.
        pose proof (increasing_first _ _ (y_value x) I) as F.
        assert (y_value s < y_value x); [|lra]. apply F. apply in_or_app. right. left. reflexivity. }
    assert (0 <= y <= y_value x) as Hy by (unfold y; rewrite Sp; nra).
    destruct (lower_bound_total l None y x) as [[p s1] E]; [rewrite Ex; apply in_or_app; right; left; reflexivity|lra|].
    unfold GetSection. destruct (Rle_dec 0 ratio); [|lra]. destruct (Rle_dec ratio 1); [|lra].
    fold y. rewrite E. cbn [bind].
    destruct (lower_bound_spec l None y p s1 E) as [l0 [l1 [El [H1 H2]]]].
    destruct (Req_EM_T (y_value s1) y) as [Q|Q].
    - eexists. split; [reflexivity|]. left. exists l0, s1, l1. cbn. auto.
    - destruct H2 as [[-> ->]|[l2 [s0 [-> [-> H2]]]]].
      + exfalso. rewrite El in W. cbn in W. lra.
      + cbn [bind]. eexists. split; [reflexivity|]. right. exists l2, s0, s1, l1.
        rewrite <- app_assoc in El. split; [exact El|]. split; [lra|]. unfold on_line. cbn [s_chord s_twist].
        split; field; lra.
  Qed.
End Stations.

(** ** Angle of attack *)

Lemma cos_sin_atan u w : u <> 0 -> let v := sqrt (u * u + w * w) in
  0 < v /\ cos (atan (w / u)) = Rabs u / v /\ sin (atan (w / u)) = Rabs u / v * (w / u).
Proof.
  intros N v. assert (0 < u * u + w * w) as P by nra. assert (0 < v) as Hv by (apply sqrt_lt_R0; auto).
  assert (v * v = u * u + w * w) as Vv by (apply sqrt_sqrt; lra).
  split; [exact Hv|].
  assert (0 < Rabs u) as Au by (apply Rabs_pos_lt; auto).
  assert (Rabs u * Rabs u = u * u) as Au2 by (rewrite <- Rabs_mult; apply Rabs_right; nra).
  set (x := w / u) in *. 
  pose proof (atan_bound x) as [B1 B2].
  assert (0 < cos (atan x)) as Cp by (apply cos_gt_0; lra).
  assert (tan (atan x) = x) as T by (apply atan_right_inv || apply tan_atan).
  unfold tan in T.
  assert (sin (atan x) = cos (atan x) * x) as Sx by (transitivity (cos (atan x) * (sin (atan x) / cos (atan x))); [field; lra|rewrite T; reflexivity]).
  pose proof (sin2_cos2 (atan x)) as SC. unfold Rsqr in SC. rewrite Sx in SC.
  assert (cos (atan x) = Rabs u / v) as Ec.
  { apply Rsqr_inj; [lra|unfold Rdiv; apply Rmult_le_pos; [lra|left; apply Rinv_0_lt_compat; auto]|].
    unfold Rsqr. replace (Rabs u / v * (Rabs u / v)) with (Rabs u * Rabs u / (v * v)) by (field; lra).
    rewrite Au2, Vv.
    assert (cos (atan x) * cos (atan x) * (1 + x * x) = 1) as Q by lra.
    assert (1 + x * x = (u * u + w * w) / (u * u)) as Q2 by (unfold x; field; auto).
    rewrite Q2 in Q. apply Rmult_eq_reg_r with ((u * u + w * w) / (u * u)).
    - rewrite Q. field. repeat split; try lra; auto.
    - apply Rgt_not_eq. apply Rmult_lt_0_compat; [auto|]. apply Rinv_0_lt_compat. nra. }
  split; [exact Ec|]. rewrite Sx, Ec. reflexivity.
Qed.

Lemma deg_rad x : deg2rad (rad2deg x) = x.
Proof. unfold deg2rad, rad2deg. field. apply PI_neq0. Qed.

(** the inflow angle before the twist is added *)
Definition inflow (u w : R) : R :=
  let deg := rad2deg (atan (w / u)) in
  if Rlt_dec u 0 then (if Rgt_dec w 0 then deg + 180 else deg - 180) else deg.

Lemma inflow_direction u w : u <> 0 -> direction u w (inflow u w) /\ -180 <= inflow u w <= 180.
Proof.
  intros N. destruct (cos_sin_atan u w N) as [Hv [C S]]. unfold direction. set (v := sqrt _) in *.
  pose proof PI_RGT_0 as Pi. pose proof (atan_bound (w / u)) as [B1 B2].
  assert (-90 < rad2deg (atan (w / u)) < 90) as [D1 D2].
  { unfold rad2deg. split.
    - apply Rmult_lt_reg_r with (PI / 180); [lra|].
      replace (atan (w / u) / PI * 180 * (PI / 180)) with (atan (w / u)) by (field; lra). lra.
    - apply Rmult_lt_reg_r with (PI / 180); [lra|].
      replace (atan (w / u) / PI * 180 * (PI / 180)) with (atan (w / u)) by (field; lra). lra. }
  assert (deg2rad 180 = PI) as D180 by (unfold deg2rad; field).
  unfold inflow. destruct (Rlt_dec u 0) as [L|L].
  - rewrite Rabs_left in * by auto.
    assert (deg2rad (rad2deg (atan (w / u)) + 180) = atan (w / u) + PI) as E1
      by (rewrite deg2rad_add, deg_rad, D180; reflexivity).
    assert (deg2rad (rad2deg (atan (w / u)) - 180) = atan (w / u) - PI) as E2.
    { unfold Rminus. rewrite deg2rad_add, deg_rad. unfold deg2rad at 1. field. }
    destruct (Rgt_dec w 0) as [W|W].
    + rewrite E1, neg_cos, neg_sin, C, S. split; [split; field; lra|]. split; [lra|].
      assert (atan (w / u) < 0).
      { rewrite <- atan_0. apply atan_increasing. apply Rmult_lt_reg_r with (- u); [lra|].
        replace (w / u * - u) with (- w) by (field; lra). lra. }
      assert (rad2deg (atan (w / u)) < 0); [|lra]. unfold rad2deg.
      replace (atan (w / u) / PI * 180) with (atan (w / u) * (/ PI * 180)) by (unfold Rdiv; ring).
      assert (0 < / PI) by (apply Rinv_0_lt_compat; auto). nra.
    + rewrite E2, cos_minus, sin_minus, cos_PI, sin_PI, C, S. split; [split; field; lra|]. split; [|lra].
      assert (0 <= atan (w / u)).
      { rewrite <- atan_0. destruct (Req_dec w 0) as [->|Nw].
        - right. f_equal. field. lra.
        - left. apply atan_increasing. apply Rmult_lt_reg_r with (- u); [lra|].
          replace (w / u * - u) with (- w) by (field; lra). lra. }
      assert (0 <= rad2deg (atan (w / u))); [|lra]. unfold rad2deg.
      replace (atan (w / u) / PI * 180) with (atan (w / u) * (/ PI * 180)) by (unfold Rdiv; ring).
      assert (0 < / PI) by (apply Rinv_0_lt_compat; auto). nra.
  - rewrite Rabs_right in * by lra. rewrite deg_rad, C, S. split; [split; [reflexivity|field; lra]|lra].
Qed.

Lemma attack_angle twist u w : u <> 0 -> -360 <= twist <= 360 ->
  -180 <= GetAngleOfAttack twist u w <= 180 /\ same_angle (GetAngleOfAttack twist u w) (inflow u w + twist).
Proof.
  intros N T. destruct (inflow_direction u w N) as [_ B].
  unfold GetAngleOfAttack. fold (inflow u w). set (d := inflow u w + twist).
  assert (-540 <= d <= 540) by (unfold d; lra).
  destruct (Rlt_dec d (-180)).
  - destruct (Rlt_dec d 0); [|lra]. split; [lra|]. exists 1%Z. lra.
  - destruct (Rlt_dec 180 d).
    + destruct (Rlt_dec d 0); [lra|]. split; [lra|]. exists (-1)%Z. lra.
    + split; [lra|]. exists 0%Z. lra.
Qed.

Lemma table_index deg : -180 <= deg <= 180 -> (0 <= SC1095_index deg < SC1095_size)%Z.
Proof.
  intros D. unfold SC1095_index, SC1095_size. set (x := (deg + 180) / 2). assert (0 <= x <= 180) as X by (unfold x; lra).
  destruct (Rlt_dec x 0); [lra|]. destruct (archimed x) as [A B].
  assert (0 < up x)%Z by (apply lt_IZR; lra).
  assert (up x <= 181)%Z by (apply le_IZR; lra). lia.
Qed.

Lemma cos_sin_period x k : cos (x + IZR k * (2 * PI)) = cos x /\ sin (x + IZR k * (2 * PI)) = sin x.
Proof.
  assert (forall n x, cos (x + INR n * (2 * PI)) = cos x /\ sin (x + INR n * (2 * PI)) = sin x) as P.
  { intros n y. replace (y + INR n * (2 * PI)) with (y + 2 * INR n * PI) by ring. split; [apply cos_period|apply sin_period]. }
  destruct (Z_le_dec 0 k) as [H|H].
  - rewrite <- (Z2Nat.id k) by auto. rewrite <- INR_IZR_INZ. apply P.
  - pose proof (P (Z.to_nat (- k)) (x + IZR k * (2 * PI))) as [C S].
    rewrite INR_IZR_INZ, Z2Nat.id, opp_IZR in C, S by lia.
    replace (x + IZR k * (2 * PI) + - IZR k * (2 * PI)) with x in C, S by ring. auto.
Qed.

(** ** Forces *)
Theorem force_decomposition f left_hand twist chord lift drag vs rho vel :
  right_handed f -> -360 <= twist <= 360 ->
  let v := vsub vel vs in
  let ex := if left_hand : bool then vneg (fX f) else fX f in
  let u := dot v ex in let w := dot v (fZ f) in
  let speed := sqrt (u * u + w * w) in
  let F := GetForce f left_hand twist chord lift drag vs rho vel in
  let deg := GetAngleOfAttack twist u w in
  u <> 0 ->
  dot F (vadd (vscale (u / speed) ex) (vscale (w / speed) (fZ f))) = - (1 / 2) * rho * (speed * speed) * chord * drag deg /\
  dot F (vsub (vscale (u / speed) (fZ f)) (vscale (w / speed) ex)) = - (1 / 2) * rho * (speed * speed) * chord * lift deg /\
  dot F (fY f) = 0.
Proof.
  intros RH T v ex u w speed F deg N.
  destruct (cos_sin_atan u w N) as [Hs _]. fold speed in Hs.
  assert (speed * speed = u * u + w * w) as Ss by (apply sqrt_sqrt; nra).
  destruct (inflow_direction u w N) as [Dir _].
  destruct (attack_angle twist u w N T) as [_ [k Hk]].
  assert (CosSin (deg - twist) = (u / speed, w / speed)) as CS.
  { unfold CosSin. unfold deg. rewrite Hk.
    replace (deg2rad (inflow u w + twist + IZR k * 360 - twist)) with (deg2rad (inflow u w) + IZR k * (2 * PI))
      by (unfold deg2rad; field).
    destruct (cos_sin_period (deg2rad (inflow u w)) k) as [-> ->].
    destruct Dir as [D1 D2]. fold speed in D1, D2. rewrite D1, D2. reflexivity. }
  unfold F, GetForce. fold v. fold ex. fold u w. fold deg. rewrite CS. rewrite <- Ss.
  assert (dot ex ex = 1 /\ dot (fZ f) (fZ f) = 1 /\ dot ex (fZ f) = 0 /\ dot ex (fY f) = 0 /\ dot (fZ f) (fY f) = 0) as [X1 [X2 [X3 [X4 X5]]]].
  { clear - RH. destruct f as [[x1 x2 x3] [y1 y2 y3] [z1 z2 z3]]. destruct RH as [A [B [C [D [E [G _]]]]]].
    unfold ex, dot in *. destruct left_hand; cbn in *; repeat split; lra. }
  set (cu := u / speed) in *. set (cw := w / speed) in *.
  assert (cu * cu + cw * cw = 1) as CC.
  { unfold cu, cw. replace (u / speed * (u / speed) + w / speed * (w / speed)) with ((u * u + w * w) / (speed * speed)) by (field; lra).
    rewrite Ss. field. nra. }
  set (K := - (1 / 2) * rho * (speed * speed) * chord). set (L := lift deg). set (D := drag deg).
  assert (forall a b c d, dot (vscale K (vadd (vscale a (fZ f)) (vscale b ex))) (vadd (vscale c ex) (vscale d (fZ f))) = K * (a * d + b * c)) as Q.
  { intros. clear - X1 X2 X3. destruct f as [fx [y1 y2 y3] [z1 z2 z3]], ex as [e1 e2 e3]. unfold dot in *. cbn in *.
    transitivity (K * (a * d * (z1*z1+z2*z2+z3*z3) + (a * c + b * d) * (e1*z1+e2*z2+e3*z3) + b * c * (e1*e1+e2*e2+e3*e3))); [ring|].
    rewrite X1, X2, X3. ring. }
  split; [|split].
  - rewrite Q. transitivity (K * D * (cu * cu + cw * cw)); [ring|]. rewrite CC. ring.
  - replace (vsub (vscale cu (fZ f)) (vscale cw ex)) with (vadd (vscale (- cw) ex) (vscale cu (fZ f))) by (apply vec_eq; cbn; ring).
    rewrite Q. transitivity (K * L * (cu * cu + cw * cw)); [ring|]. rewrite CC. ring.
  - clear - X4 X5. destruct f as [fx [y1 y2 y3] [z1 z2 z3]], ex as [e1 e2 e3]. unfold dot in *. cbn in *.
    match goal with |- context [K * (?a * z1 + ?b * e1)] =>
      transitivity (K * (a * (z1*y1+z2*y2+z3*y3) + b * (e1*y1+e2*y2+e3*y3))); [ring|] end.
    rewrite X4, X5. ring.
Qed.

Lemma frame_components f (lh : bool) v : right_handed f ->
  let ex := if lh then vneg (fX f) else fX f in
  v = vadd (vscale (dot v ex) ex) (vadd (vscale (dot v (fY f)) (fY f)) (vscale (dot v (fZ f)) (fZ f))).
Proof.
  intros RH. destruct f as [[x1 x2 x3] [y1 y2 y3] [z1 z2 z3]], v as [v1 v2 v3].
  destruct RH as [A [B [C [D [E [G H]]]]]]. injection H as H1 H2 H3. unfold dot in *. cbn in *.
  destruct lh; apply vec_eq; cbn; subst z1 z2 z3; clear - A B D; nsatz.
Qed.

(** ** Azimuth *)

Lemma set_azimuths_spec frame origin psi : forall blades deg i b, nth_error blades i = Some b ->
  nth_error (set_azimuths frame origin psi deg blades) i = Some (Blade_SetAzimuth frame origin (deg + INR i * psi) b).
Proof.
  induction blades as [|b0 blades IH]; intros deg i b E; [destruct i; discriminate|].
  destruct i; cbn in E.
  - injection E as ->. cbn. do 2 f_equal. ring.
  - cbn [set_azimuths nth_error]. rewrite (IH (deg + psi) i b E). do 2 f_equal. rewrite S_INR. ring.
Qed.

Lemma blade_points frame origin deg b : right_handed frame ->
  let b' := Blade_SetAzimuth frame origin deg b in
  right_handed (b_frame b') /\ fZ (b_frame b') = fZ frame /\ b_azimuth b' = deg /\
  b_p b' = vadd origin (vscale (b_root b) (fY (b_frame b'))) /\
  b_q b' = vadd origin (vscale (b_root b + b_span b) (fY (b_frame b'))) /\
  b_pq b' = vscale (b_span b) (fY (b_frame b')) /\ dot (b_pq b') (b_pq b') = b_span b * b_span b.
Proof.
  intros H b'. pose proof (rotate_right_handed frame (TurnZ deg) H) as R1.
  change (turn frame (TurnZ deg)) with (b_frame b') in R1.
  split; [exact R1|]. split; [reflexivity|]. split; [reflexivity|].
  split; [unfold b', Blade_SetAzimuth, Blade_GetPoint, Blade_GetOrigin; cbn [b_p b_frame b_span b_root]; apply vec_eq; cbn; ring|].
  split; [unfold b', Blade_SetAzimuth, Blade_GetPoint, Blade_GetOrigin; cbn [b_q b_frame b_span b_root]; apply vec_eq; cbn; ring|].
  assert (b_pq b' = vscale (b_span b) (fY (b_frame b'))) as E.
  { unfold b', Blade_SetAzimuth, Blade_GetPoint, Blade_GetOrigin. cbn [b_pq b_frame b_span b_root]. apply vec_eq; cbn; ring. }
  split; [exact E|]. rewrite E. destruct R1 as [_ [Y _]].
 revert Y. generalize (fY (b_frame b')). intros [y1 y2 y3] Y.
  unfold dot in *. cbn [vscale vx vy vz] in *.
  transitivity (b_span b * b_span b * (y1 * y1 + y2 * y2 + y3 * y3)); [ring|]. rewrite Y. ring.
Qed.

Lemma update_fresh t r : r_time r <> t -> r_azimuth (UpdateAzimuth t r) = r_initial r + t * r_omega r.
Proof. intros N. unfold UpdateAzimuth. destruct (Req_EM_T (r_time r) t); [contradiction|]. reflexivity. Qed.

Lemma update_again t r : UpdateAzimuth t (UpdateAzimuth t r) = UpdateAzimuth t r.
Proof.
  unfold UpdateAzimuth at 2 3. destruct (Req_EM_T (r_time r) t) as [E|E].
  - unfold UpdateAzimuth. destruct (Req_EM_T (r_time r) t); [reflexivity|contradiction].
  - unfold UpdateAzimuth. cbn. destruct (Req_EM_T t t); [reflexivity|contradiction].
Qed.

(** ** Pointers *)
Lemma event_home m e m' : blades_refer_home m -> event m e = Some m' -> blades_refer_home m'.
Proof.
  intros H E. destruct e as [a|a|a old|a b|a b|a b|a b]; cbn in E;
  repeat match type of E with
    | context [match m ?x with _ => _ end] => destruct (m x) eqn:?
    | context [if ?d then _ else _] => destruct d
    end; try discriminate; injection E as <-; try exact H;
  intros c cs Hc p Hp; unfold set_mem in Hc;
  repeat match type of Hc with context [if ?d then _ else _] => destruct d end; subst;
  try discriminate; try (injection Hc as <-); try (destruct Hp; fail);
  try (apply in_map_iff in Hp; destruct Hp as [? [<- _]]; reflexivity); try (eapply H; eauto; fail).
  apply in_app_or in Hp. destruct Hp as [Hp|[<-|[]]]; [eapply H; eauto|reflexivity].
Qed.

Lemma events_home es : forall m m', blades_refer_home m -> foldM event es m = Some m' -> blades_refer_home m'.
Proof.
  induction es as [|e es IH]; intros m m' H E; cbn in E; [injection E as <-; exact H|].
  destruct (event m e) as [m1|] eqn:E1; [|discriminate]. cbn in E.
  apply (IH m1 m'); [eapply event_home; eauto|exact E].
Qed.

(** ** Histories of a rotor *)

Lemma history cs : forall r t, r_time r <> t -> ~ In (CallUpdateAzimuth t) cs ->
  let r' := fold_left call cs r in
  r_time r' <> t /\ r_initial r' = asked_initial (r_initial r) cs /\ r_omega r' = asked_omega (r_omega r) cs /\
  r_frame r' = r_frame r /\ r_origin r' = r_origin r.
Proof.
  induction cs as [|c cs IH]; intros r t H N r'; [cbn; auto|].
  assert (~ In (CallUpdateAzimuth t) cs) as N' by (intros I; apply N; right; exact I).
  assert (r_time (call r c) <> t) as H'.
  { destruct c; cbn; auto. unfold UpdateAzimuth. destruct (Req_EM_T (r_time r) time); [auto|]. cbn.
    intros ->. apply N. left. reflexivity. }
  destruct (IH (call r c) t H' N') as [A [B [C [D E]]]]. unfold r'. cbn [fold_left]. split; [exact A|].
  rewrite B, C, D, E. unfold asked_initial, asked_omega. cbn [fold_left].
  destruct c; cbn; auto; unfold UpdateAzimuth; destruct (Req_EM_T (r_time r) time); cbn; auto.
Qed.

Lemma set_azimuth_blades deg r i b : nth_error (r_blades r) i = Some b ->
  nth_error (r_blades (SetAzimuth deg r)) i =
  Some (Blade_SetAzimuth (r_frame r) (r_origin r) (deg + INR i * (360 / INR (length (r_blades r)))) b).
Proof. intros E. unfold SetAzimuth. cbn [r_blades]. apply set_azimuths_spec. exact E. Qed.

Lemma set_azimuths_length f o psi bs : forall d, length (set_azimuths f o psi d bs) = length bs.
Proof. induction bs; intros; cbn; auto. Qed.

(** ** The part of a blade in a cell *)

Lemma valid_iff t : Valid t = true <-> 0 <= t <= 1.
Proof. unfold Valid. destruct (Rle_dec 0 t), (Rle_dec t 1); split; intros; try discriminate; auto; lra. Qed.
Lemma valid_not t : Valid t = false <-> ~ 0 <= t <= 1.
Proof. rewrite <- valid_iff. destruct (Valid t); split; intros; try discriminate; auto. contradiction H; auto. Qed.

Definition found (faces : list (option R)) : list R :=
  flat_map (fun f => match f with Some t => if Valid t then t :: nil else nil | None => nil end) faces.

Lemma found_in t faces : In t (found faces) <-> In (Some t) faces /\ 0 <= t <= 1.
Proof.
  unfold found. rewrite in_flat_map. split.
  - intros [f [I H]]. destruct f as [x|]; [|destruct H]. destruct (Valid x) eqn:Vx; [|destruct H].
    destruct H as [->|[]]. apply valid_iff in Vx. auto.
  - intros [I H]. exists (Some t). split; [exact I|]. apply valid_iff in H. rewrite H. left. reflexivity.
Qed.

Lemma hits_two r s faces : Valid r = true -> Valid s = true -> hits r s faces = (r, s).
Proof. intros Hr Hs. destruct faces; cbn; [reflexivity|]. rewrite Hr, Hs. reflexivity. Qed.

Lemma minus_one_invalid : Valid (-1) = false.
Proof. apply valid_not. lra. Qed.

Lemma hits_one r faces : Valid r = true ->
  hits r (-1) faces = match found faces with [] => (r, -1) | y :: _ => (r, y) end.
Proof.
  intros Hr. induction faces as [|f faces IH]; [reflexivity|].
  cbn [hits]. rewrite Hr, minus_one_invalid. cbn [andb negb]. destruct f as [t|]; cbn [found flat_map].
  - destruct (Valid t) eqn:Vt; cbn [app].
    + apply hits_two; auto.
    + exact IH.
  - rewrite minus_one_invalid. exact IH.
Qed.

Lemma hits_none faces :
  hits (-1) (-1) faces = match found faces with [] => (-1, -1) | x :: [] => (x, -1) | x :: y :: _ => (x, y) end.
Proof.
  induction faces as [|f faces IH]; [reflexivity|].
  cbn [hits]. rewrite minus_one_invalid. cbn [andb negb]. destruct f as [t|]; cbn [found flat_map].
  - destruct (Valid t) eqn:Vt; cbn [app].
    + rewrite hits_one by exact Vt. fold (found faces). destruct (found faces); reflexivity.
    + exact IH.
  - rewrite minus_one_invalid. exact IH.
Qed.

Lemma found_nodup faces :
  (forall i j t, nth_error faces i = Some (Some t) -> nth_error faces j = Some (Some t) -> i = j) ->
  NoDup (found faces).
Proof.
  induction faces as [|f faces IH]; intros H; [constructor|].
  assert (NoDup (found faces)) as N.
  { apply IH. intros i j t A B. assert (S i = S j) as E by (apply (H (S i) (S j) t); auto). lia. }
  destruct f as [t|]; cbn [found flat_map]; [|exact N]. destruct (Valid t); cbn [app]; [|exact N].
  constructor; [|exact N]. intros I. apply found_in in I. destruct I as [I _].
  apply In_nth_error in I. destruct I as [n E]. specialize (H 0%nat (S n) t eq_refl E). discriminate.
Qed.

Theorem blade_part alpha beta faces : crossings alpha beta faces ->
  ~ (alpha < 0 /\ 1 < beta) -> (alpha < 0 -> 0 <= beta -> beta < 1 / 2) -> (1 < beta -> alpha <= 1 -> 1 / 2 <= alpha) ->
  let (r, s) := Rotorcraft_Intersect faces in describes alpha beta r s.
Proof.
  intros [L [I U]] G1 G2 G3. pose proof (found_nodup faces U) as N.
  assert (forall t, In t (found faces) <-> 0 <= t <= 1 /\ (t = alpha \/ t = beta)) as F.
  { intros t. rewrite found_in, I. tauto. }
  unfold Rotorcraft_Intersect. rewrite hits_none. revert N F. generalize (found faces). intros vs N F.
  destruct vs as [|x [|y vs]].
  - rewrite minus_one_invalid. cbn [andb]. unfold describes. split; [lra|]. intros _ t Ht.
    pose proof (proj2 (F alpha)) as Fa. pose proof (proj2 (F beta)) as Fb. cbn in Fa, Fb.
    destruct (Rle_dec 0 alpha); [apply Fa; lra|]. destruct (Rle_dec beta 1); [apply Fb; lra|]. lra.
  - pose proof (proj1 (F x) (or_introl eq_refl)) as [Hx Ex].
    assert (Valid x = true) as Vx by (apply valid_iff; auto). rewrite Vx, minus_one_invalid. cbn [andb negb].
    pose proof (proj2 (F alpha)) as Fa. pose proof (proj2 (F beta)) as Fb. cbn in Fa, Fb.
    destruct Ex as [->| ->].
    + assert (1 < beta) as B.
      { destruct (Rlt_dec 1 beta); [auto|]. destruct Fb as [E|[]]; [lra|lra]. }
      specialize (G3 B ltac:(lra)). destruct (Rlt_dec alpha (1 / 2)); [lra|].
      assert (Valid 1 = true) as V1 by (apply valid_iff; lra). rewrite V1. destruct (Rgt_dec alpha 1); [lra|].
      unfold describes. split; intros; [split; intros; lra|lra].
    + assert (alpha < 0) as B.
      { destruct (Rlt_dec alpha 0); [auto|]. destruct Fa as [E|[]]; lra. }
      specialize (G2 B ltac:(lra)). destruct (Rlt_dec beta (1 / 2)); [|lra].
      assert (Valid 0 = true) as V1 by (apply valid_iff; lra). rewrite V1. destruct (Rgt_dec beta 0).
      * unfold describes. split; intros; [split; intros; lra|lra].
      * unfold describes. split; intros; [lra|lra].
  - pose proof (proj1 (F x) (or_introl eq_refl)) as [Hx Ex].
    pose proof (proj1 (F y) (or_intror (or_introl eq_refl))) as [Hy Ey].
    assert (x <> y) as Nxy by (intros ->; apply NoDup_cons_iff in N; destruct N as [Nx _]; apply Nx; left; reflexivity).
    assert (Valid x = true) as Vx by (apply valid_iff; auto). assert (Valid y = true) as Vy by (apply valid_iff; auto).
    rewrite Vx, Vy. cbn [andb negb]. rewrite ?Vx, ?Vy. cbn [andb].
    destruct Ex as [->| ->], Ey as [->| ->]; try contradiction.
    + destruct (Rgt_dec alpha beta); [lra|]. unfold describes. split; intros; [split; intros; lra|lra].
    + destruct (Rgt_dec beta alpha); [|lra]. unfold describes. split; intros; [split; intros; lra|lra].
Qed.
