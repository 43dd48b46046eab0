(** Affine cells, normals of faces, and the inverse of the coordinate map. *)
From Coq Require Import Reals QArith Qreals List Arith Lia Lra Bool.
From Verif Require Import Vec3 RSum Spec_Basis Proof_Vincent Model_Shapes Model_Geometry PolyQ Spec_Shapes Proof_Shapes Proof_Geometry.
Import ListNotations.
Open Scope R_scope.

Lemma linear_reproduces e : In e linear_elements ->
  coords_of e (fun x _ _ => x) (fun _ y _ => y) (fun _ _ z => if (e_dim e =? 3)%nat then z else 0).
Proof.
  intros H. pose proof (linear_are_elements e H) as He. split; [|split].
  - apply (reproduce_of linear_elements (fun e => exponents (e_dim e) 1) e EX linear_check H He).
    destruct (e_dim e) as [|[|[|d]]]; left; reflexivity.
  - apply (reproduce_of linear_elements (fun e => exponents (e_dim e) 1) e EY linear_check H He).
    destruct (e_dim e) as [|[|[|d]]]; right; left; reflexivity.
  - destruct (Nat.eqb_spec (e_dim e) 3) as [E|N].
    + apply (reproduce_of linear_elements (fun e => exponents (e_dim e) 1) e EZ linear_check H He).
      rewrite E. right; right; left; reflexivity.
    + intros x y z. rewrite total_rsum. apply rsum_zero.
      intros i _. destruct (node e i) as [[a b] c]. ring.
Qed.
Lemma linear_affine e nodes o a b c x y z : In e linear_elements -> built e nodes ->
  (forall i, (i < nodes_n e)%nat -> nth i nodes v0 = (let '(x, y, z) := node e i in affine o a b c x y z)) ->
  LocalToGlobal e nodes x y z = affine o a b c x y (if (e_dim e =? 3)%nat then z else 0).
Proof.
  intros H L N. apply (affine_general e nodes (fun x _ _ => x) (fun _ y _ => y) (fun _ _ z => if (e_dim e =? 3)%nat then z else 0));
    [apply linear_are_elements, H|exact L|apply linear_reproduces, H|].
  intros i Hi. rewrite (N i Hi). destruct (node e i) as [[xi yi] zi] eqn:E.
  destruct (Nat.eqb_spec (e_dim e) 3) as [E3|N3]; [reflexivity|].
  replace zi with 0; [reflexivity|].
  assert (snd (node e i) = 0) as Z.
  { revert Hi. unfold node, real. cbn [snd].
    assert (forall l : list Local, forallb (fun l => Qeq_bool (lZ l) 0) l = true -> (i < length l)%nat -> Q2R (lZ (at_ l i)) = 0) as G.
    { intros l F Hi. unfold at_. apply (forallb_nth _ _ _ (0, 0, 0)%Q F) in Hi. apply Qeq_bool_eq in Hi.
      apply Qeq_eqR in Hi. etransitivity; [exact Hi|]. unfold Q2R. cbn. ring. }
    intros Hi. apply G; [|exact Hi].
    repeat (destruct H as [<-|H]; [first [reflexivity | exfalso; apply N3; reflexivity]|]). destruct H. }
  rewrite E in Z. cbn in Z. symmetry. exact Z.
Qed.
Lemma pyramid_affine e nodes o a b c x y z : In e pyramids -> built e nodes ->
  (forall i, (i < nodes_n e)%nat -> nth i nodes v0 = (let '(x, y, z) := node e i in affine o a b c (x * (1 - z) / 2) (y * (1 - z) / 2) z)) ->
  LocalToGlobal e nodes x y z = affine o a b c (x * (1 - z) / 2) (y * (1 - z) / 2) z.
Proof.
  intros H L N. apply (affine_general e nodes (fun x _ z => x * (1 - z) / 2) (fun _ y z => y * (1 - z) / 2) (fun _ _ z => z));
    [apply pyramids_are_elements, H|exact L| |exact N].
  pose proof (pyramids_are_elements e H) as He.
  assert (forall f g, In f [collapsed_x; collapsed_y; EZ] -> (forall x y z, ev x y z f = g x y z) ->
    reproduces (nodes_n e) (e_shapes e R RealOps) (node e) g) as T.
  { intros f g Hf E u v w. pose proof (reproduce_of pyramids (fun _ => [collapsed_x; collapsed_y; EZ]) e f pyramid_check H He Hf u v w) as R.
    cbv beta in R. rewrite E in R. rewrite <- R, !total_rsum. apply rsum_ext. intros i _. destruct (node e i) as [[p q] r].
    rewrite E. reflexivity. }
  assert (Q2R (1 # 2) = / 2) as Hh by (unfold Q2R; cbn; lra). assert (Q2R 1 = 1) as H1 by (unfold Q2R; cbn; lra).
  split; [|split].
  - apply (T collapsed_x); [left; reflexivity|]. intros. unfold collapsed_x. cbn [ev]. rewrite Hh, H1. unfold Rdiv. ring.
  - apply (T collapsed_y); [right; left; reflexivity|]. intros. unfold collapsed_y. cbn [ev]. rewrite Hh, H1. unfold Rdiv. ring.
  - apply (T EZ); [right; right; left; reflexivity|]. intros. reflexivity.
Qed.

(** ** unit vectors *)
Lemma dot_pos v : v <> v0 -> 0 < dot v v.
Proof.
  destruct v as [a b c]. unfold dot. cbn [vx vy vz]. intros N.
  destruct (Req_dec a 0) as [->|]; [destruct (Req_dec b 0) as [->|]; [destruct (Req_dec c 0) as [->|]|]|]; [elim N; reflexivity|nra..].
Qed.
Lemma normalized_scale v : v <> v0 -> exists k, 0 < k /\ normalized v = vscale k v /\ k * k * dot v v = 1.
Proof.
  intros N. pose proof (dot_pos v N) as P. unfold normalized. destruct (Rlt_dec 0 (dot v v)); [|contradiction].
  pose proof (sqrt_lt_R0 _ P). pose proof (sqrt_sqrt (dot v v) (Rlt_le _ _ P)) as S.
  exists (/ sqrt (dot v v)). split; [apply Rinv_0_lt_compat; assumption|]. split; [reflexivity|].
  rewrite <- S at 3. field. lra.
Qed.
Lemma dot_scale k a b : dot (vscale k a) b = k * dot a b.
Proof. unfold dot, vscale. cbn [vx vy vz]. ring. Qed.
Lemma dot_comm a b : dot a b = dot b a.
Proof. unfold dot. ring. Qed.
Lemma dot_cross_l a b : dot (cross a b) a = 0.
Proof. unfold dot, cross. cbn [vx vy vz]. ring. Qed.
Lemma dot_cross_r a b : dot (cross a b) b = 0.
Proof. unfold dot, cross. cbn [vx vy vz]. ring. Qed.
Lemma is_partial_vec_unique w f x y z d d' : is_partial_vec w f x y z d -> is_partial_vec w f x y z d' -> d = d'.
Proof. intros (A & B & C) (A' & B' & C'). apply vec_eq; eapply is_partial_unique; eassumption. Qed.

Section Face.
Context (e : Element) (nodes : list vec) (He : In e elements) (Hd : e_dim e = 2%nat) (Hn : built e nodes).
Context (x y : R) (tx ty : vec).
Hypothesis Hx : is_partial_vec [AX] (LocalToGlobal e nodes) x y 0 tx.
Hypothesis Hy : is_partial_vec [AY] (LocalToGlobal e nodes) x y 0 ty.
Hypothesis N : cross tx ty <> v0.
Lemma face_rows : LocalToJacobian e nodes x y 0 0 = tx /\ LocalToJacobian e nodes x y 0 1 = ty.
Proof.
  split; eapply is_partial_vec_unique; try eassumption;
    [apply (LocalToJacobian_partial e nodes x y 0 0)|apply (LocalToJacobian_partial e nodes x y 0 1)]; auto; rewrite Hd; lia.
Qed.
Lemma normal_vector : let n := LocalToNormalVector e nodes x y in
  dot n n = 1 /\ dot n tx = 0 /\ dot n ty = 0 /\ 0 < det3 tx ty n.
Proof.
  unfold LocalToNormalVector. destruct face_rows as (-> & ->). destruct (normalized_scale _ N) as (k & Pk & -> & K).
  cbv zeta. split; [|split; [|split]].
  - rewrite dot_scale, dot_comm, dot_scale, <- Rmult_assoc. exact K.
  - rewrite dot_scale, dot_cross_l. ring.
  - rewrite dot_scale, dot_cross_r. ring.
  - replace (det3 tx ty (vscale k (cross tx ty))) with (k * dot (cross tx ty) (cross tx ty))
      by (unfold det3, dot, cross, vscale; cbn [vx vy vz]; ring).
    apply Rmult_lt_0_compat; [exact Pk|apply dot_pos, N].
Qed.
Lemma normal_frame : let '(n, t, b) := LocalToNormalFrame e nodes x y in
  n = LocalToNormalVector e nodes x y /\ (exists k, 0 < k /\ t = vscale k tx) /\
  dot n n = 1 /\ dot t t = 1 /\ dot b b = 1 /\ dot n t = 0 /\ dot n b = 0 /\ dot t b = 0 /\ det3 n t b = 1.
Proof.
  pose proof normal_vector as (A & B & _). unfold LocalToNormalFrame, LocalToNormalVector in *.
  destruct face_rows as (E0 & E1). rewrite E0, E1 in A, B |- *. set (n := normalized (cross tx ty)) in *. clearbody n.
  assert (tx <> v0) as Nx.
  { intros ->. apply N. unfold cross, v0. cbn [vx vy vz]. f_equal; ring. }
  destruct (normalized_scale tx Nx) as (k & Pk & -> & K). cbv zeta in *.
  split; [reflexivity|]. split; [exists k; auto|].
  assert (dot (vscale k tx) (vscale k tx) = 1) as T by (rewrite dot_scale, dot_comm, dot_scale, <- Rmult_assoc; exact K).
  assert (dot n (vscale k tx) = 0) as NT by (rewrite dot_comm, dot_scale, dot_comm, B; ring).
  set (t := vscale k tx) in *. clearbody t. clear - A T NT.
  assert (dot (cross n t) (cross n t) = 1) as BB.
  { replace (dot (cross n t) (cross n t)) with (dot n n * dot t t - dot n t * dot n t)
      by (unfold dot, cross; cbn [vx vy vz]; ring). rewrite A, T, NT. ring. }
  split; [exact A|split; [exact T|split; [exact BB|split; [exact NT|split; [|split]]]]].
  - rewrite dot_comm. apply dot_cross_l.
  - rewrite dot_comm. apply dot_cross_r.
  - replace (det3 n t (cross n t)) with (dot (cross n t) (cross n t)) by (unfold det3, dot, cross; cbn [vx vy vz]; ring). exact BB.
Qed.
End Face.

(** ** outward normals of hexahedra *)
(** the axis along which face [i] is crossed, and its side *)
Definition face_axis (i : nat) : nat * R :=
  match i with
  | 0%nat => (2%nat, -1) | 1%nat => (1%nat, -1) | 2%nat => (0%nat, 1)
  | 3%nat => (1%nat, 1) | 4%nat => (0%nat, -1) | _ => (2%nat, 1)
  end.
Definition face_centre (i : nat) : R * R * R :=
  let '(a, s) := face_axis i in
  match a with 0%nat => (s, 0, 0) | 1%nat => (0, s, 0) | _ => (0, 0, s) end.
Lemma outward_normal e nodes i : (i < 6)%nat ->
  GetOutwardNormalVector e nodes i =
  (let '(a, s) := face_axis i in let '(x, y, z) := face_centre i in
   Some (vscale s (normalized (LocalToJacobian e nodes x y z a)))).
Proof.
  assert (forall v, vneg v = vscale (-1) v) as E1 by (intros; unfold vneg, vscale; f_equal; ring).
  assert (forall v, v = vscale 1 v) as E2 by (intros [p q r]; unfold vscale; cbn [vx vy vz]; f_equal; ring).
  intros Hi. destruct i as [|[|[|[|[|[|i]]]]]]; try lia; cbn [GetOutwardNormalVector face_axis face_centre];
    rewrite ?E1, <- ?E2; reflexivity.
Qed.

(** ** the inverse of an affine map *)
Lemma rmul_assoc r m n : rmul (rmul r m) n = rmul r (mmul m n).
Proof. unfold mmul, rmul, vadd, vscale. cbn [vx vy vz r0 r1 r2]. apply vec_eq; cbn [vx vy vz]; ring. Qed.
Lemma rmul_one r : rmul r mone = r.
Proof. destruct r as [p q s]. unfold rmul, mone, vadd, vscale. cbn [Vec3.vx Vec3.vy Vec3.vz r0 r1 r2]. apply vec_eq; cbn [Vec3.vx Vec3.vy Vec3.vz]; ring. Qed.
Lemma lim_line k a x : derivable_pt_lim (fun t => k + t * a) x a.
Proof.
  intros eps He. exists (mkposreal 1 Rlt_0_1). intros h Hh _.
  replace ((k + (x + h) * a - (k + x * a)) / h - a) with 0 by (field; exact Hh). rewrite Rabs_R0. exact He.
Qed.
Lemma partial_line_x o a b c x y z : is_partial [AX] (fun x y z => o + (x * a + (y * b + z * c))) x y z a.
Proof.
  exists (fun _ _ _ => a). split; [|reflexivity]. intros u v w.
  apply (derivable_ext (fun t => (o + v * b + w * c) + t * a)); [intros; ring|apply lim_line].
Qed.
Lemma partial_line_y o a b c x y z : is_partial [AY] (fun x y z => o + (x * a + (y * b + z * c))) x y z b.
Proof.
  exists (fun _ _ _ => b). split; [|reflexivity]. intros u v w.
  apply (derivable_ext (fun t => (o + u * a + w * c) + t * b)); [intros; ring|apply lim_line].
Qed.
Lemma partial_line_z o a b c x y z : is_partial [AZ] (fun x y z => o + (x * a + (y * b + z * c))) x y z c.
Proof.
  exists (fun _ _ _ => c). split; [|reflexivity]. intros u v w.
  apply (derivable_ext (fun t => (o + u * a + v * b) + t * c)); [intros; ring|apply lim_line].
Qed.
Section Inverse.
Context (e : Element) (nodes : list vec) (He : In e elements) (Hd : e_dim e = 3%nat) (Hn : built e nodes).
Context (o a b c : vec).
Hypothesis A : forall x y z, LocalToGlobal e nodes x y z = affine o a b c x y z.
Hypothesis Det : det3 a b c <> 0.
Let m := M3 a b c.
Lemma affine_as_row l : affine o a b c (vx l) (vy l) (vz l) = vadd o (rmul l m).
Proof. unfold affine, rmul, m. cbn [r0 r1 r2]. reflexivity. Qed.
Lemma affine_jacobian x y z : rows (LocalToJacobian e nodes x y z) = m.
Proof.
  assert (forall i, (i < 3)%nat -> LocalToJacobian e nodes x y z i = match i with 0%nat => a | 1%nat => b | _ => c end) as J.
  { intros i Hi. eapply is_partial_vec_unique; [apply LocalToJacobian_partial; auto; rewrite Hd; exact Hi|].
    assert (forall ax d, (forall u v w, is_partial_vec [ax] (affine o a b c) u v w d) ->
      is_partial_vec [ax] (LocalToGlobal e nodes) x y z d) as T.
    { intros ax d H. specialize (H x y z). destruct H as (H1 & H2 & H3).
      split; [|split]; (eapply is_partial_ext; [|eassumption]); intros u v w; cbn beta; rewrite A; reflexivity. }
    apply T. intros u v w. unfold affine, vadd, vscale.
    destruct i as [|[|[|i]]]; try lia; cbn [axis_of]; (split; [|split]); cbn [vx vy vz];
      first [apply partial_line_x | apply partial_line_y | apply partial_line_z]. }
  unfold rows, m. rewrite !J by lia. reflexivity.
Qed.
Let func (g l : vec) : vec := vsub (LocalToGlobal e nodes (vx l) (vy l) (vz l)) g.
Let matj (l : vec) : mat3 := rows (LocalToJacobian e nodes (vx l) (vy l) (vz l)).
Lemma newton_step g l : func g (vsub l (solve_transposed (matj l) (func g l))) = v0.
Proof.
  unfold func, matj. rewrite affine_jacobian, !A, !affine_as_row. set (s := solve_transposed _ _).
  assert (rmul s m = vsub (vadd o (rmul l m)) g) as E.
  { unfold s, solve_transposed. rewrite rmul_assoc, minv_left by exact Det. apply rmul_one. }
  replace (rmul (vsub l s) m) with (vsub (rmul l m) (rmul s m))
    by (apply vec_eq; unfold rmul, vsub, vadd, vscale; cbn [vx vy vz]; ring).
  rewrite E. apply vec_eq; unfold vsub, vadd, v0; cbn [vx vy vz]; ring.
Qed.
Lemma newton_rest g l : func g l = v0 -> solve_transposed (matj l) (func g l) = v0.
Proof. intros ->. unfold solve_transposed, rmul, vadd, vscale, v0. cbn [vx vy vz]. f_equal; ring. Qed.
Lemma affine_inverse fuel g hint : (2 <= fuel)%nat ->
  exists l, GlobalToLocal fuel e nodes g hint = Some l /\ LocalToGlobal e nodes (vx l) (vy l) (vz l) = g.
Proof.
  intros Hf. destruct fuel as [|[|fuel]]; try lia.
  exists (vsub hint (solve_transposed (matj hint) (func g hint))).
  pose proof (newton_step g hint) as Z. set (l := vsub hint _) in *.
  split.
  - unfold GlobalToLocal. change (fun l => vsub (LocalToGlobal e nodes (vx l) (vy l) (vz l)) g) with (func g).
    change (fun l => rows (LocalToJacobian e nodes (vx l) (vy l) (vz l))) with matj.
    cbn [root]. fold l. destruct (Rlt_dec (1 / 100000) (sqrt (dot (solve_transposed (matj hint) (func g hint)) (solve_transposed (matj hint) (func g hint))))); [|reflexivity].
    rewrite (newton_rest g l Z). replace (dot v0 v0) with 0 by (unfold dot, v0; cbn [vx vy vz]; ring).
    rewrite sqrt_0. destruct (Rlt_dec (1 / 100000) 0); [lra|]. f_equal. clearbody l. destruct l as [p q s]. unfold vsub, v0. cbn [vx vy vz]. f_equal; ring.
  - unfold func in Z. clearbody l. apply vec_eq; [apply (f_equal vx) in Z|apply (f_equal vy) in Z|apply (f_equal vz) in Z];
      unfold vsub, v0 in Z; cbn [vx vy vz] in Z; lra.
Qed.
End Inverse.

(** every tetrahedron with four nodes is an affine cell *)
Lemma tetrahedron_affine p0 p1 p2 p3 x y z :
  LocalToGlobal Tetrahedron4 [p0; p1; p2; p3] x y z = affine p3 (vsub p0 p3) (vsub p1 p3) (vsub p2 p3) x y z.
Proof.
  unfold LocalToGlobal. change (e_shapes Tetrahedron4 R RealOps x y z) with [x; y; z; Q2R 1 - x - y - z].
  cbn [weighted]. unfold affine. assert (Q2R 1 = 1) as H1 by (unfold Q2R; cbn; lra).
  apply vec_eq; unfold vadd, vscale, vsub, v0; cbn [vx vy vz]; rewrite ?H1; ring.
Qed.

(** ** concrete cells *)
(** the images of the reference nodes *)
Definition image (e : Element) (f : R -> R -> R -> vec) : list vec :=
  map (fun l => let '(x, y, z) := real l in f x y z) (e_coords e).
Lemma image_built e f : built e (image e f).
Proof. unfold built, image. apply map_length. Qed.
Lemma image_node e f i : (i < nodes_n e)%nat -> nth i (image e f) v0 = (let '(x, y, z) := node e i in f x y z).
Proof.
  intros Hi. unfold image, node, at_.
  rewrite (nth_indep _ v0 ((fun l => let '(x, y, z) := real l in f x y z) (0, 0, 0)%Q)) by (rewrite map_length; exact Hi).
  rewrite (map_nth (fun l => let '(x, y, z) := real l in f x y z)). reflexivity.
Qed.

(** evaluation in rational points *)
Definition vecQ (l : Local) : vec := V (Q2R (lX l)) (Q2R (lY l)) (Q2R (lZ l)).
Fixpoint weightedQ (nodes : list Local) (ws : list Q) : Local :=
  match nodes, ws with
  | p :: nodes, w :: ws =>
    let r := weightedQ nodes ws in
    (Qred (w * lX p + lX r), Qred (w * lY p + lY r), Qred (w * lZ p + lZ r))
  | _, _ => (0, 0, 0)
  end%Q.
Lemma weightedQ_ok nodes : forall ws, weighted (map vecQ nodes) (map Q2R ws) = vecQ (weightedQ nodes ws).
Proof.
  assert (Q2R 0 = 0) as H0 by (unfold Q2R; cbn; ring).
  induction nodes as [|p nodes IH]; intros [|w ws]; cbn [weighted weightedQ map]; unfold vecQ, v0, lX, lY, lZ; cbn [fst snd];
    rewrite ?H0; try reflexivity.
  rewrite IH. apply vec_eq; unfold vadd, vscale, vecQ, lX, lY, lZ; cbn [vx vy vz fst snd];
    rewrite (Qeq_eqR _ _ (Qred_correct _)), Q2R_plus, Q2R_mult; reflexivity.
Qed.
Definition globalQ (e : Element) (nodes : list Local) (x y z : Q) : Local := weightedQ nodes (map (evQ x y z) (sE e)).
Lemma globalQ_ok e nodes x y z : In e elements ->
  LocalToGlobal e (map vecQ nodes) (Q2R x) (Q2R y) (Q2R z) = vecQ (globalQ e nodes x y z).
Proof.
  intros He. unfold LocalToGlobal, globalQ. rewrite <- (all_shapes_match e He), <- weightedQ_ok, map_map. f_equal.
  apply map_ext. intros t. symmetry. apply evQ_ev.
Qed.
Definition columnQ (k : nat) (rows : list (list pexp)) (x y z : Q) : list Q := map (fun r => evQ x y z (nth k r (EC 0))) rows.
Lemma columnQ_ok k E F x y z : vectors_match E F ->
  column k (F (Q2R x) (Q2R y) (Q2R z)) = map Q2R (columnQ k E x y z).
Proof.
  intros M. rewrite <- M. unfold column, columnQ. rewrite !map_map. apply map_ext. intros r. rewrite nth_ev. symmetry. apply evQ_ev.
Qed.
Lemma jacobianQ_ok e nodes x y z a : In e elements ->
  LocalToJacobian e (map vecQ nodes) (Q2R x) (Q2R y) (Q2R z) a = vecQ (weightedQ nodes (columnQ a (gE e) x y z)).
Proof. intros He. unfold LocalToJacobian. rewrite (columnQ_ok _ _ _ _ _ _ (all_gradients_match e He)). apply weightedQ_ok. Qed.
Lemma hessianQ_ok h nodes x y z k : In h hexas ->
  weighted (map vecQ nodes) (column k (h_hessians h R RealOps (Q2R x) (Q2R y) (Q2R z))) = vecQ (weightedQ nodes (columnQ k (hE h) x y z)).
Proof. intros Hh. rewrite (columnQ_ok _ _ _ _ _ _ (all_hessians_match h Hh)). apply weightedQ_ok. Qed.
