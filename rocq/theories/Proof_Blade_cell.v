(** The part of a line in a tetrahedron, and the hits of its faces. *)
From Coq Require Import Reals List Lra Psatz Lia.
From Verif Require Import Arrays Vec3 Model_Aircraft Spec_Aircraft Proof_Aircraft.
Import ListNotations.
Open Scope R_scope.

Lemma affine_inside u v alpha beta t : alpha < t < beta -> 0 <= u + alpha * v -> 0 <= u + beta * v ->
  u + t * v = 0 -> u = 0 /\ v = 0.
Proof.
  intros H A B E. assert (u = - (t * v)) as U by lra. subst u.
  assert (0 <= (alpha - t) * v) as A' by lra. assert (0 <= (beta - t) * v) as B' by lra.
  assert (v = 0) as V0; [|subst v; lra].
  destruct (Rtotal_order v 0) as [V|[V|V]]; [|exact V|]; exfalso; nra.
Qed.

Lemma affine_room u v a : 0 < u + a * v -> exists e, 0 < e /\ forall d, Rabs d <= e -> 0 <= u + (a + d) * v.
Proof.
  intros H. assert (0 < Rabs v + 1) as P by (pose proof (Rabs_pos v); lra).
  exists ((u + a * v) / (Rabs v + 1)). split; [apply Rdiv_lt_0_compat; auto|]. intros d Hd.
  assert (Rabs (d * v) <= u + a * v) as B.
  { rewrite Rabs_mult.
    apply Rle_trans with ((u + a * v) / (Rabs v + 1) * (Rabs v + 1)).
    - apply Rmult_le_compat; try apply Rabs_pos; lra.
    - right. field. lra. }
  pose proof (Rle_abs (- (d * v))) as Q. rewrite Rabs_Ropp in Q. lra.
Qed.

Section Tetra.
  Variables A B C D : vec.
  Hypothesis Nondeg : det3 (vsub A D) (vsub B D) (vsub C D) <> 0.

  Definition co (x : vec) : vec := solve (vsub A D) (vsub B D) (vsub C D) (vsub x D).
  Definition ca x := vx (co x). Definition cb x := vy (co x). Definition cc x := vz (co x).
  Definition cd x := 1 - ca x - cb x - cc x.

  Lemma co_point x : x = vadd (vscale (ca x) A) (vadd (vscale (cb x) B) (vadd (vscale (cc x) C) (vscale (cd x) D))).
  Proof.
    pose proof (solve_solves _ _ _ (vsub x D) Nondeg) as E. fold (co x) in E.
    unfold cd, ca, cb, cc.
    pose proof (f_equal vx E) as E1. pose proof (f_equal vy E) as E2. pose proof (f_equal vz E) as E3.
    generalize dependent (co x). intros [l m n] E E1 E2 E3. clear E. cbn [vadd vsub vscale vx vy vz] in *.
    apply vec_eq; cbn [vadd vsub vscale vx vy vz]; lra.
  Qed.

  Lemma co_unique x k l m n : k + l + m + n = 1 ->
    x = vadd (vscale k A) (vadd (vscale l B) (vadd (vscale m C) (vscale n D))) ->
    ca x = k /\ cb x = l /\ cc x = m /\ cd x = n.
  Proof.
    intros S E. assert (co x = V k l m) as Q.
    { unfold co. apply solve_unique; [exact Nondeg|]. subst x. replace n with (1 - k - l - m) by lra.
      apply vec_eq; cbn [vadd vsub vscale vx vy vz]; ring. }
    unfold cd, ca, cb, cc. rewrite Q. cbn. repeat split; lra.
  Qed.

  Lemma co_between p q t :
    ca (between p q t) = ca p + t * (ca q - ca p) /\ cb (between p q t) = cb p + t * (cb q - cb p) /\
    cc (between p q t) = cc p + t * (cc q - cc p) /\ cd (between p q t) = cd p + t * (cd q - cd p).
  Proof.
    apply co_unique; [unfold cd; ring|]. unfold between. rewrite (co_point p) at 1 2. rewrite (co_point q) at 1.
    apply vec_eq; cbn [vadd vsub vscale vx vy vz]; ring.
  Qed.

  Lemma in_tetra_co x : in_tetrahedron A B C D x <-> 0 <= ca x /\ 0 <= cb x /\ 0 <= cc x /\ 0 <= cd x.
  Proof.
    split.
    - intros [k [l [m [n [K [L [M [N [S E]]]]]]]]]. destruct (co_unique x k l m n S E) as [-> [-> [-> ->]]]. auto.
    - intros H. exists (ca x), (cb x), (cc x), (cd x). repeat split; try tauto; [unfold cd; ring|apply co_point].
  Qed.

  Ltac tri := match goal with H : in_triangle _ _ _ _ |- _ => destruct H as [l [m [n [L [M [N [S E]]]]]]] end.

  Lemma face_a x : in_triangle B C D x <-> in_tetrahedron A B C D x /\ ca x = 0.
  Proof.
    rewrite in_tetra_co. split.
    - intros H. tri. destruct (co_unique x 0 l m n ltac:(lra)) as [-> [-> [-> ->]]]; [|lra].
      rewrite E. apply vec_eq; cbn; ring.
    - intros [H Z]. exists (cb x), (cc x), (cd x). repeat split; try tauto; [unfold cd in *; lra|].
      rewrite (co_point x) at 1. rewrite Z. apply vec_eq; cbn [vadd vsub vscale vx vy vz]; ring.
  Qed.
  Lemma face_b x : in_triangle A C D x <-> in_tetrahedron A B C D x /\ cb x = 0.
  Proof.
    rewrite in_tetra_co. split.
    - intros H. tri. destruct (co_unique x l 0 m n ltac:(lra)) as [-> [-> [-> ->]]]; [|lra].
      rewrite E. apply vec_eq; cbn; ring.
    - intros [H Z]. exists (ca x), (cc x), (cd x). repeat split; try tauto; [unfold cd in *; lra|].
      rewrite (co_point x) at 1. rewrite Z. apply vec_eq; cbn [vadd vsub vscale vx vy vz]; ring.
  Qed.
  Lemma face_c x : in_triangle A B D x <-> in_tetrahedron A B C D x /\ cc x = 0.
  Proof.
    rewrite in_tetra_co. split.
    - intros H. tri. destruct (co_unique x l m 0 n ltac:(lra)) as [-> [-> [-> ->]]]; [|lra].
      rewrite E. apply vec_eq; cbn; ring.
    - intros [H Z]. exists (ca x), (cb x), (cd x). repeat split; try tauto; [unfold cd in *; lra|].
      rewrite (co_point x) at 1. rewrite Z. apply vec_eq; cbn [vadd vsub vscale vx vy vz]; ring.
  Qed.
  Lemma face_d x : in_triangle A B C x <-> in_tetrahedron A B C D x /\ cd x = 0.
  Proof.
    rewrite in_tetra_co. split.
    - intros H. tri. destruct (co_unique x l m n 0 ltac:(lra)) as [-> [-> [-> ->]]]; [|lra].
      rewrite E. apply vec_eq; cbn; ring.
    - intros [H Z]. exists (ca x), (cb x), (cc x). repeat split; try tauto; [unfold cd in *; lra|].
      rewrite (co_point x) at 1. rewrite Z. apply vec_eq; cbn [vadd vsub vscale vx vy vz]; ring.
  Qed.

  Lemma plane_zero (a b c x : vec) l m n : l + m + n = 1 -> x = vadd (vscale l a) (vadd (vscale m b) (vscale n c)) -> in_plane a b c x.
  Proof.
    intros S ->. unfold in_plane, det3, dot, cross. replace n with (1 - l - m) by lra.
    destruct a, b, c. cbn. ring.
  Qed.

  Ltac plane Z := match goal with |- in_plane _ _ _ ?x =>
    pose proof (co_point x) as E; rewrite Z in E; unfold cd in Z, E end.

  Lemma plane_a x : ca x = 0 -> in_plane B C D x.
  Proof.
    intros Z. apply (plane_zero B C D x (cb x) (cc x) (cd x)); [unfold cd; lra|].
    rewrite (co_point x) at 1. rewrite Z. apply vec_eq; cbn [vadd vsub vscale vx vy vz]; ring.
  Qed.
  Lemma plane_b x : cb x = 0 -> in_plane A C D x.
  Proof.
    intros Z. apply (plane_zero A C D x (ca x) (cc x) (cd x)); [unfold cd; lra|].
    rewrite (co_point x) at 1. rewrite Z. apply vec_eq; cbn [vadd vsub vscale vx vy vz]; ring.
  Qed.
  Lemma plane_c x : cc x = 0 -> in_plane A B D x.
  Proof.
    intros Z. apply (plane_zero A B D x (ca x) (cb x) (cd x)); [unfold cd; lra|].
    rewrite (co_point x) at 1. rewrite Z. apply vec_eq; cbn [vadd vsub vscale vx vy vz]; ring.
  Qed.
  Lemma plane_d x : cd x = 0 -> in_plane A B C x.
  Proof.
    intros Z. apply (plane_zero A B C x (ca x) (cb x) (cc x)); [unfold cd in *; lra|].
    rewrite (co_point x) at 1. rewrite Z. apply vec_eq; cbn [vadd vsub vscale vx vy vz]; ring.
  Qed.

  Variables (p q : vec) (alpha beta : R).
  Hypothesis Order : alpha < beta.
  Hypothesis Inside : forall t, in_tetrahedron A B C D (between p q t) <-> alpha <= t <= beta.
  Hypothesis Across : forall a b c, In (a, b, c) (tetrahedron_faces A B C D) -> ~ (in_plane a b c p /\ in_plane a b c q).
  Hypothesis Once : forall f g t, t = alpha \/ t = beta ->
    In f (tetrahedron_faces A B C D) -> In g (tetrahedron_faces A B C D) ->
    in_face f (between p q t) -> in_face g (between p q t) -> f = g.

  Let f1 t := ca p + t * (ca q - ca p).
  Let f2 t := cb p + t * (cb q - cb p).
  Let f3 t := cc p + t * (cc q - cc p).
  Let f4 t := cd p + t * (cd q - cd p).

  Lemma inside_f t : 0 <= f1 t /\ 0 <= f2 t /\ 0 <= f3 t /\ 0 <= f4 t <-> alpha <= t <= beta.
  Proof. rewrite <- Inside, in_tetra_co. destruct (co_between p q t) as [-> [-> [-> ->]]]. reflexivity. Qed.

  Lemma zero_end (u v : R) t : (forall t, alpha <= t <= beta -> 0 <= u + t * v) -> ~ (u = 0 /\ v = 0) ->
    alpha <= t <= beta -> u + t * v = 0 -> t = alpha \/ t = beta.
  Proof.
    intros P N H E. destruct (Req_dec t alpha); [auto|]. destruct (Req_dec t beta); [auto|]. exfalso. apply N.
    apply (affine_inside u v alpha beta t); auto; try lra; apply P; lra.
  Qed.

  Lemma end_on_face t : t = alpha \/ t = beta -> f1 t = 0 \/ f2 t = 0 \/ f3 t = 0 \/ f4 t = 0.
  Proof.
    intros Ht. assert (alpha <= t <= beta) as Hb by (destruct Ht; lra).
    pose proof (proj2 (inside_f t) Hb) as [P1 [P2 [P3 P4]]].
    destruct (Req_dec (f1 t) 0); [auto|]. destruct (Req_dec (f2 t) 0); [auto|].
    destruct (Req_dec (f3 t) 0); [auto|]. destruct (Req_dec (f4 t) 0); [auto|]. exfalso.
    destruct (affine_room (ca p) (ca q - ca p) t) as [e1 [E1 R1]]; [fold (f1 t); lra|].
    destruct (affine_room (cb p) (cb q - cb p) t) as [e2 [E2 R2]]; [fold (f2 t); lra|].
    destruct (affine_room (cc p) (cc q - cc p) t) as [e3 [E3 R3]]; [fold (f3 t); lra|].
    destruct (affine_room (cd p) (cd q - cd p) t) as [e4 [E4 R4]]; [fold (f4 t); lra|].
    set (e := Rmin (Rmin e1 e2) (Rmin e3 e4)).
    assert (0 < e) as Pe by (unfold e; repeat apply Rmin_glb_lt; auto).
    assert (e <= e1 /\ e <= e2 /\ e <= e3 /\ e <= e4) as [L1 [L2 [L3 L4]]].
    { unfold e. pose proof (Rmin_l (Rmin e1 e2) (Rmin e3 e4)). pose proof (Rmin_r (Rmin e1 e2) (Rmin e3 e4)).
      pose proof (Rmin_l e1 e2). pose proof (Rmin_r e1 e2). pose proof (Rmin_l e3 e4). pose proof (Rmin_r e3 e4). lra. }
    assert (forall d, Rabs d <= e -> alpha <= t + d <= beta) as K.
    { intros d Hd. apply inside_f. unfold f1, f2, f3, f4.
      split; [apply R1; lra|]. split; [apply R2; lra|]. split; [apply R3; lra|apply R4; lra]. }
    pose proof (K e) as Kp. pose proof (K (- e)) as Km. rewrite Rabs_Ropp in Km.
    rewrite Rabs_right in Kp, Km by lra. specialize (Kp ltac:(lra)). specialize (Km ltac:(lra)). destruct Ht; lra.
  Qed.

  Definition hit_of (f : vec * vec * vec) : option R :=
    let '(a, b, c) := f in Intersect (vsub a p) (vsub b p) (vsub c p) (vsub q p).

  Lemma hit_of_iff f t : In f (tetrahedron_faces A B C D) ->
    hit_of f = Some t <-> 0 <= t <= 1 /\ in_face f (between p q t).
  Proof.
    intros I. destruct f as [[a b] c]. unfold hit_of, in_face. rewrite intersect_correct by (apply Across; exact I).
    reflexivity.
  Qed.

  Lemma in_face_end t : (exists f, In f (tetrahedron_faces A B C D) /\ in_face f (between p q t)) <-> t = alpha \/ t = beta.
  Proof.
    destruct (co_between p q t) as [Ca [Cb [Cc Cd]]]. split.
    - intros [f [I H]]. cbn in I.
      assert (in_tetrahedron A B C D (between p q t)) as T.
      { destruct I as [<-|[<-|[<-|[<-|[]]]]]; cbn in H; [apply face_a in H|apply face_b in H|apply face_c in H|apply face_d in H]; tauto. }
      apply Inside in T.
      destruct I as [<-|[<-|[<-|[<-|[]]]]]; cbn in H; [apply face_a in H|apply face_b in H|apply face_c in H|apply face_d in H];
      destruct H as [_ Z].
      + rewrite Ca in Z. apply (zero_end (ca p) (ca q - ca p)); auto; [intros x Hx; apply inside_f in Hx; unfold f1 in Hx; tauto|].
        intros [Z1 Z2]. apply (Across B C D); [cbn; auto|]. split; apply plane_a; lra.
      + rewrite Cb in Z. apply (zero_end (cb p) (cb q - cb p)); auto; [intros x Hx; apply inside_f in Hx; unfold f2 in Hx; tauto|].
        intros [Z1 Z2]. apply (Across A C D); [cbn; auto|]. split; apply plane_b; lra.
      + rewrite Cc in Z. apply (zero_end (cc p) (cc q - cc p)); auto; [intros x Hx; apply inside_f in Hx; unfold f3 in Hx; tauto|].
        intros [Z1 Z2]. apply (Across A B D); [cbn; auto|]. split; apply plane_c; lra.
      + rewrite Cd in Z. apply (zero_end (cd p) (cd q - cd p)); auto; [intros x Hx; apply inside_f in Hx; unfold f4 in Hx; tauto|].
        intros [Z1 Z2]. apply (Across A B C); [cbn; auto|]. split; apply plane_d; lra.
    - intros Ht. assert (in_tetrahedron A B C D (between p q t)) as T by (apply Inside; destruct Ht; lra).
      destruct (end_on_face t Ht) as [Z|[Z|[Z|Z]]].
      + exists (B, C, D). split; [cbn; auto|]. apply face_a. split; [exact T|]. rewrite Ca. exact Z.
      + exists (A, C, D). split; [cbn; auto|]. apply face_b. split; [exact T|]. rewrite Cb. exact Z.
      + exists (A, B, D). split; [cbn; auto|]. apply face_c. split; [exact T|]. rewrite Cc. exact Z.
      + exists (A, B, C). split; [cbn; auto 6|]. apply face_d. split; [exact T|]. rewrite Cd. exact Z.
  Qed.

  Lemma tetra_distinct : NoDup (tetrahedron_faces A B C D).
  Proof.
    assert (A <> D /\ B <> D /\ C <> D /\ A <> B /\ B <> C /\ A <> C) as [N1 [N2 [N3 [N4 [N5 N6]]]]].
    { repeat split; intros E; apply Nondeg; rewrite E; unfold det3, dot, cross; destruct A, B, C, D; cbn; ring. }
    unfold tetrahedron_faces. repeat constructor; cbn; intros H;
    repeat match goal with H : _ \/ _ |- _ => destruct H | H : False |- _ => destruct H end;
    injection H; intros; congruence.
  Qed.

  Theorem tetra_crossings faces : Permutation.Permutation faces (tetrahedron_faces A B C D) ->
    crossings alpha beta (face_hits p q faces).
  Proof.
    intros Pm. assert (forall f, In f faces <-> In f (tetrahedron_faces A B C D)) as Eq.
    { intros f. split; apply Permutation.Permutation_in; [exact Pm|apply Permutation.Permutation_sym; exact Pm]. }
    assert (NoDup faces) as Nd by (eapply Permutation.Permutation_NoDup; [apply Permutation.Permutation_sym; exact Pm|apply tetra_distinct]).
    assert (face_hits p q faces = map hit_of faces) as Ef by reflexivity. rewrite Ef. split; [exact Order|]. split.
    - intros t. rewrite in_map_iff, <- in_face_end. split.
      + intros [f [E I]]. apply Eq in I. apply (hit_of_iff f t I) in E. split; [tauto|]. exists f. tauto.
      + intros [H [f [I E]]]. exists f. split; [apply (hit_of_iff f t I); auto|apply Eq; exact I].
    - intros i j t Hi Hj. rewrite nth_error_map in Hi, Hj.
      destruct (nth_error faces i) as [f|] eqn:Fi; [|discriminate].
      destruct (nth_error faces j) as [g|] eqn:Fj; [|discriminate]. cbn in Hi, Hj.
      apply some_eq in Hi. apply some_eq in Hj.
      assert (In f (tetrahedron_faces A B C D)) as If by (apply Eq; eapply nth_error_In; eauto).
      assert (In g (tetrahedron_faces A B C D)) as Ig by (apply Eq; eapply nth_error_In; eauto).
      apply (hit_of_iff f t If) in Hi. apply (hit_of_iff g t Ig) in Hj.
      assert (f = g) as <-.
      { apply (Once f g t); try tauto. apply in_face_end. exists f. tauto. }
      apply (proj1 (NoDup_nth_error faces) Nd); [apply nth_error_Some; rewrite Fi; discriminate|]. rewrite Fi, Fj. reflexivity.
  Qed.
End Tetra.

(** evaluating [Intersect] *)
Lemma Intersect_miss a b c q l m n : det3 a b c <> 0 ->
  vadd (vscale l a) (vadd (vscale m b) (vscale n c)) = q -> l < 0 \/ m < 0 \/ n < 0 \/ l + m + n < 1 ->
  Intersect a b c q = None.
Proof.
  intros G E H. unfold Intersect. destruct (Req_EM_T (det3 a b c) 0) as [|_]; [contradiction|].
  destruct (Req_EM_T (det3 a b c) 0) as [|_]; [contradiction|].
  rewrite (solve_unique a b c q l m n G E). cbn [vx vy vz].
  destruct (Rge_dec _ 0) as [Q|Q]; [|reflexivity]. apply min3_ge in Q.
  destruct (Rge_dec _ 1) as [S|S]; [lra|reflexivity].
Qed.
Lemma Intersect_hit a b c q l m n t : det3 a b c <> 0 ->
  vadd (vscale l a) (vadd (vscale m b) (vscale n c)) = q -> 0 <= l -> 0 <= m -> 0 <= n -> 1 <= l + m + n ->
  t * (l + m + n) = 1 -> Intersect a b c q = Some t.
Proof.
  intros G E L M N S T. unfold Intersect. destruct (Req_EM_T (det3 a b c) 0) as [|_]; [contradiction|].
  destruct (Req_EM_T (det3 a b c) 0) as [|_]; [contradiction|].
  rewrite (solve_unique a b c q l m n G E). cbn [vx vy vz].
  destruct (Rge_dec _ 0) as [Q|Q]; [|exfalso; apply Q; apply min3_ge; auto].
  destruct (Rge_dec _ 1) as [S'|S']; [|lra]. f_equal. rewrite <- T. field. lra.
Qed.
