(** Lemmas about the search for collinear nodes. *)
From Coq Require Import Reals List Arith ZArith Sorted Lia Lra.
From Verif Require Import Vec3 Arrays Model_Basis Model_Shapes Model_Geometry Model_Nodal Model_Schemes Spec_Shapes Spec_FR
  Model_Collinear Spec_Collinear Proof_Lagrange Proof_DGLobatto Proof_FR Proof_Shapes Proof_Maps.
Import ListNotations.
Open Scope R_scope.

Lemma find_point_found points : apart points -> forall i, (i < length points)%nat ->
  find_point (nth i points 0) points = i.
Proof.
  intros H i. assert (T : forall x, almost_equal x x = true).
  { intros x. unfold almost_equal. apply less_true. replace (x - x) with 0 by ring. rewrite Rabs_R0. apply small. }
  revert i. induction points as [|p points IH]; intros i Hi; cbn [length] in Hi; [lia|].
  destruct i as [|i]; cbn [nth find_point]; [rewrite T; reflexivity|].
  replace (almost_equal (nth i points 0) p) with false.
  - f_equal. apply IH; [|lia]. intros k l Hk Hl N. apply (H (S k) (S l)); cbn; lia.
  - symmetry. unfold almost_equal. apply less_false. apply (H (S i) 0%nat); cbn; lia.
Qed.

Lemma apart_inj points i j : apart points -> (i < length points)%nat -> (j < length points)%nat ->
  nth i points 0 = nth j points 0 -> i = j.
Proof.
  intros H Hi Hj E. destruct (Nat.eq_dec i j) as [|N]; [assumption|]. specialize (H i j Hi Hj N). rewrite E in H.
  replace (nth j points 0 - nth j points 0) with 0 in H by ring. rewrite Rabs_R0 in H. pose proof (small 10). lra.
Qed.

Lemma sorted_map (f : nat -> nat) n : forall m, (forall i j, (i < j)%nat -> (f i < f j)%nat) ->
  StronglySorted lt (map f (seq m n)).
Proof.
  induction n as [|n IH]; intros m H; [constructor|]. cbn [seq map]. constructor; [apply IH, H|].
  apply Forall_forall. intros y Hy. apply in_map_iff in Hy. destruct Hy as (x & <- & Hx). apply in_seq in Hx. apply H. lia.
Qed.

Section Search.
  Variable b : Basis.
  Variable e : Element.
  Variable nodes : list vec.
  Variable fuel : nat.
  Hypothesis Ax : apart (b_x b).
  Hypothesis Ay : apart (b_y b).
  Hypothesis Az : apart (b_z b).

  Lemma side_ok i_face u v : (i_face < 6)%nat -> on_side i_face (grid_point b i_face u v) = true.
  Proof.
    intros H. assert (T : forall x, almost_equal x x = true).
    { intros x. unfold almost_equal. apply less_true. replace (x - x) with 0 by ring. rewrite Rabs_R0. apply small. }
    destruct i_face as [|[|[|[|[|[|i_face]]]]]]; [apply T..|lia].
  Qed.

  Lemma coord_of n : (n < b_N b)%nat -> exists i j k, (i < length (b_x b))%nat /\ (j < length (b_y b))%nat
    /\ (k < length (b_z b))%nat /\ n = Hexa_index (length (b_y b)) (length (b_z b)) i j k
    /\ local_coord b n = V (nth i (b_x b) 0) (nth j (b_y b) 0) (nth k (b_z b) 0).
  Proof.
    intros H. unfold b_N in H. pose proof (Hexa_index_inv_range _ _ _ n H) as R1. unfold local_coord.
    destruct (Hexa_index_inv _ _ n) as [[i j] k]. exists i, j, k. destruct R1 as (? & ? & ? & <-). auto.
  Qed.
  Lemma coord_at i j k : (i < length (b_x b))%nat -> (j < length (b_y b))%nat -> (k < length (b_z b))%nat ->
    let n := Hexa_index (length (b_y b)) (length (b_z b)) i j k in
    (n < b_N b)%nat /\ local_coord b n = V (nth i (b_x b) 0) (nth j (b_y b) 0) (nth k (b_z b) 0).
  Proof.
    intros Hi Hj Hk n. split; [apply Hexa_index_range; assumption|]. unfold local_coord, n.
    rewrite (Hexa_inv_index (length (b_x b))) by assumption. reflexivity.
  Qed.

  (** the line along each axis *)
  Lemma line_z i j p : (i < length (b_x b))%nat -> (j < length (b_y b))%nat -> vx p = nth i (b_x b) 0 ->
    vy p = nth j (b_y b) 0 -> forall i_face, across i_face = 2%nat -> nodes_behind b i_face p
      (map (fun k => Hexa_index (length (b_y b)) (length (b_z b)) i j k) (seq 0 (length (b_z b)))).
  Proof.
    intros Hi Hj Ei Ej i_face F. split; [apply sorted_map; unfold Hexa_index; intros; lia|]. intros n. rewrite F. cbn [aligned].
    rewrite in_map_iff. split.
    - intros (k & <- & Hk). apply in_seq in Hk. destruct (coord_at i j k Hi Hj ltac:(lia)) as [L E]. split; [exact L|].
      rewrite E. cbn [vx vy]. auto.
    - intros (L & E1 & E2). destruct (coord_of n L) as (i' & j' & k' & Hi' & Hj' & Hk' & -> & E). rewrite E in E1, E2.
      cbn [vx vy] in E1, E2. rewrite Ei in E1. rewrite Ej in E2.
      apply (apart_inj _ _ _ Ax Hi' Hi) in E1. apply (apart_inj _ _ _ Ay Hj' Hj) in E2. subst i' j'.
      exists k'. split; [reflexivity|]. apply in_seq. lia.
  Qed.
  Lemma line_y i k p : (i < length (b_x b))%nat -> (k < length (b_z b))%nat -> vx p = nth i (b_x b) 0 ->
    vz p = nth k (b_z b) 0 -> forall i_face, across i_face = 1%nat -> nodes_behind b i_face p
      (map (fun j => Hexa_index (length (b_y b)) (length (b_z b)) i j k) (seq 0 (length (b_y b)))).
  Proof.
    intros Hi Hk Ei Ek i_face F. split; [apply sorted_map; unfold Hexa_index; intros x y L; pose proof (proj1 (Nat.mul_lt_mono_pos_r (length (b_z b)) x y ltac:(lia)) L); lia|]. intros n. rewrite F. cbn [aligned].
    rewrite in_map_iff. split.
    - intros (j & <- & Hj). apply in_seq in Hj. destruct (coord_at i j k Hi ltac:(lia) Hk) as [L E]. split; [exact L|].
      rewrite E. cbn [vx vz]. auto.
    - intros (L & E1 & E2). destruct (coord_of n L) as (i' & j' & k' & Hi' & Hj' & Hk' & -> & E). rewrite E in E1, E2.
      cbn [vx vz] in E1, E2. rewrite Ei in E1. rewrite Ek in E2.
      apply (apart_inj _ _ _ Ax Hi' Hi) in E1. apply (apart_inj _ _ _ Az Hk' Hk) in E2. subst i' k'.
      exists j'. split; [reflexivity|]. apply in_seq. lia.
  Qed.
  Lemma line_x j k p : (j < length (b_y b))%nat -> (k < length (b_z b))%nat -> vy p = nth j (b_y b) 0 ->
    vz p = nth k (b_z b) 0 -> forall i_face, across i_face = 0%nat -> nodes_behind b i_face p
      (map (fun i => Hexa_index (length (b_y b)) (length (b_z b)) i j k) (seq 0 (length (b_x b)))).
  Proof.
    intros Hj Hk Ej Ek i_face F. split; [apply sorted_map; unfold Hexa_index; intros x y L; pose proof (proj1 (Nat.mul_lt_mono_pos_r (length (b_y b)) x y ltac:(lia)) L) as L2;
      pose proof (proj1 (Nat.mul_lt_mono_pos_r (length (b_z b)) _ _ ltac:(lia)) L2); lia|]. intros n. rewrite F. cbn [aligned].
    rewrite in_map_iff. split.
    - intros (i & <- & Hi). apply in_seq in Hi. destruct (coord_at i j k ltac:(lia) Hj Hk) as [L E]. split; [exact L|].
      rewrite E. cbn [vy vz]. auto.
    - intros (L & E1 & E2). destruct (coord_of n L) as (i' & j' & k' & Hi' & Hj' & Hk' & -> & E). rewrite E in E1, E2.
      cbn [vy vz] in E1, E2. rewrite Ej in E1. rewrite Ek in E2.
      apply (apart_inj _ _ _ Ay Hj' Hj) in E1. apply (apart_inj _ _ _ Az Hk' Hk) in E2. subst j' k'.
      exists i'. split; [reflexivity|]. apply in_seq. lia.
  Qed.

  Lemma points_found i_face u v global : (i_face < 6)%nat -> (u < length (first_rule b i_face))%nat ->
    (v < length (second_rule b i_face))%nat ->
    GlobalToLocal fuel e nodes global (V 0 0 0) = Some (grid_point b i_face u v) ->
    exists l, FindCollinearPoints b e nodes fuel global i_face = Some l
      /\ nodes_behind b i_face (grid_point b i_face u v) l.
  Proof.
    intros F Hu Hv G. unfold FindCollinearPoints. rewrite G. cbn [bind]. rewrite side_ok by exact F. cbn [negb].
    destruct i_face as [|[|[|[|[|[|i_face]]]]]]; [| | | | | |lia];
      unfold grid_point, first_rule, second_rule in *; cbn [across face_point vx vy vz] in *;
      rewrite !find_point_found by assumption; (eexists; split; [reflexivity|]);
      first [apply line_z|apply line_y|apply line_x]; auto.
  Qed.

  Lemma local_found i_face u v global hint : (i_face < 6)%nat -> (u < length (first_rule b i_face))%nat ->
    (v < length (second_rule b i_face))%nat -> local_hint i_face = Some hint ->
    GlobalToLocal fuel e nodes global hint = Some (grid_point b i_face u v) ->
    FindCollinearIndexByLocal b e nodes fuel global i_face = Some (triple i_face u v).
  Proof.
    intros F Hu Hv Hh G. unfold FindCollinearIndexByLocal. rewrite Hh. cbn [bind]. rewrite G. cbn [bind].
    rewrite side_ok by exact F. cbn [negb].
    destruct i_face as [|[|[|[|[|[|i_face]]]]]]; [| | | | | |lia];
      unfold grid_point, first_rule, second_rule in *; cbn [across face_point vx vy vz] in *;
      rewrite !find_point_found by assumption; reflexivity.
  Qed.

  Lemma global_found i_face u v : (i_face < 6)%nat -> (u < length (first_rule b i_face))%nat ->
    (v < length (second_rule b i_face))%nat -> images_apart b e nodes i_face ->
    let p := grid_point b i_face u v in
    FindCollinearIndexByGlobal b e nodes (LocalToGlobal e nodes (vx p) (vy p) (vz p)) i_face = Some (triple i_face u v).
  Proof.
    intros F Hu Hv A p.
    assert (S : scan e nodes (face_point i_face) (first_rule b i_face) (second_rule b i_face)
      (LocalToGlobal e nodes (vx p) (vy p) (vz p)) = (Z.of_nat u, Z.of_nat v)).
    { unfold scan. rewrite (find_unique _ _ (u, v)); [reflexivity| | | |].
      - apply in_prod; apply in_seq; lia.
      - apply less_true. unfold p, grid_point. rewrite vnorm_same. apply small.
      - intros (u', v') I D. apply in_prod_iff in I. destruct I as [I1 I2]. apply in_seq in I1. apply in_seq in I2.
        apply less_false. apply (A u' v' u v); auto; lia.
      - intros [y1 y2] [z1 z2]. decide equality; apply Nat.eq_dec. }
    destruct i_face as [|[|[|[|[|[|i_face]]]]]]; [| | | | | |lia];
      unfold first_rule, second_rule in *; cbn [across] in *; unfold FindCollinearIndexByGlobal;
      (change (face_point _) with (fun x y => V x y (-1)) in S || change (face_point _) with (fun x z => V x (-1) z) in S
      || change (face_point _) with (fun y z => V 1 y z) in S || change (face_point _) with (fun x z => V x 1 z) in S
      || change (face_point _) with (fun y z => V (-1) y z) in S || change (face_point _) with (fun x y => V x y 1) in S);
      rewrite S; reflexivity.
  Qed.
End Search.

(** on affine cells the point is found *)
Lemma affine_local fuel e nodes o a b c hint p : In e elements -> e_dim e = 3%nat -> built e nodes ->
  (forall x y z, LocalToGlobal e nodes x y z = affine o a b c x y z) -> det3 a b c <> 0 -> (2 <= fuel)%nat ->
  GlobalToLocal fuel e nodes (LocalToGlobal e nodes (vx p) (vy p) (vz p)) hint = Some p.
Proof.
  intros He Hd Hn A D F.
  destruct (affine_inverse e nodes He Hd Hn o a b c A D fuel (LocalToGlobal e nodes (vx p) (vy p) (vz p)) hint F)
    as (l & G & E). rewrite G. f_equal. rewrite !A in E. clear - E D.
  destruct l as [x y z], p as [x' y' z']. cbn [vx vy vz] in *.
  assert (E' : vadd (vscale (x - x') a) (vadd (vscale (y - y') b) (vscale (z - z') c)) = v0).
  { pose proof (f_equal vx E) as E1. pose proof (f_equal vy E) as E2. pose proof (f_equal vz E) as E3.
    destruct o as [o1 o2 o3], a as [a1 a2 a3], b as [b1 b2 b3], c as [c1 c2 c3]. unfold affine, vadd, vscale, v0 in *. cbn [vx vy vz] in *. f_equal; lra. }
  assert (X : (x - x') * det3 a b c = 0 /\ (y - y') * det3 a b c = 0 /\ (z - z') * det3 a b c = 0).
  { pose proof (f_equal vx E') as E1. pose proof (f_equal vy E') as E2. pose proof (f_equal vz E') as E3. clear - E1 E2 E3.
    destruct a as [a1 a2 a3], b as [b1 b2 b3], c as [c1 c2 c3].
    unfold det3, vadd, vscale, v0, dot, cross in *. cbn [vx vy vz] in *.
    set (d1 := x - x') in *. set (d2 := y - y') in *. set (d3 := z - z') in *. clearbody d1 d2 d3. repeat split.
    - transitivity ((d1 * a1 + (d2 * b1 + d3 * c1)) * (b2 * c3 - b3 * c2) + (d1 * a2 + (d2 * b2 + d3 * c2)) * (b3 * c1 - b1 * c3)
        + (d1 * a3 + (d2 * b3 + d3 * c3)) * (b1 * c2 - b2 * c1)); [ring|rewrite E1, E2, E3; ring].
    - transitivity ((d1 * a1 + (d2 * b1 + d3 * c1)) * (c2 * a3 - c3 * a2) + (d1 * a2 + (d2 * b2 + d3 * c2)) * (c3 * a1 - c1 * a3)
        + (d1 * a3 + (d2 * b3 + d3 * c3)) * (c1 * a2 - c2 * a1)); [ring|rewrite E1, E2, E3; ring].
    - transitivity ((d1 * a1 + (d2 * b1 + d3 * c1)) * (a2 * b3 - a3 * b2) + (d1 * a2 + (d2 * b2 + d3 * c2)) * (a3 * b1 - a1 * b3)
        + (d1 * a3 + (d2 * b3 + d3 * c3)) * (a1 * b2 - a2 * b1)); [ring|rewrite E1, E2, E3; ring]. }
  destruct X as (X1 & X2 & X3). apply Rmult_integral in X1, X2, X3.
  f_equal; [destruct X1|destruct X2|destruct X3]; try contradiction; lra.
Qed.
