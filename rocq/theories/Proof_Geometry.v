(** Coordinate maps. *)
From Coq Require Import Reals QArith Qreals List Arith Lia Lra Bool Permutation.
From Verif Require Import Vec3 Spec_Basis RSum Model_Shapes Model_Geometry PolyQ Spec_Shapes Proof_Vincent Proof_Shapes.
Import ListNotations.
Open Scope R_scope.

(** ** partial derivatives of sums and products *)
Lemma partial1_of a f g : (forall x y z, is_partial [a] f x y z (g x y z)) -> is_partial1 a f g.
Proof.
  intros H x y z. destruct (H x y z) as (h & P & E). cbn in E. specialize (P x y z). rewrite E. exact P.
Qed.
Lemma of_partial1 a f g : is_partial1 a f g -> forall x y z, is_partial [a] f x y z (g x y z).
Proof. intros P x y z. exists g. split; [exact P|reflexivity]. Qed.
Lemma partial1_add a f g df dg : is_partial1 a f df -> is_partial1 a g dg ->
  is_partial1 a (fun x y z => f x y z + g x y z) (fun x y z => df x y z + dg x y z).
Proof.
  intros H1 H2 x y z. specialize (H1 x y z). specialize (H2 x y z).
  destruct a; exact (derivable_pt_lim_plus _ _ _ _ _ H1 H2).
Qed.
Lemma partial1_sub a f g df dg : is_partial1 a f df -> is_partial1 a g dg ->
  is_partial1 a (fun x y z => f x y z - g x y z) (fun x y z => df x y z - dg x y z).
Proof.
  intros H1 H2 x y z. specialize (H1 x y z). specialize (H2 x y z).
  destruct a; exact (derivable_pt_lim_minus _ _ _ _ _ H1 H2).
Qed.
Lemma partial1_mul a f g df dg : is_partial1 a f df -> is_partial1 a g dg ->
  is_partial1 a (fun x y z => f x y z * g x y z) (fun x y z => df x y z * g x y z + f x y z * dg x y z).
Proof.
  intros H1 H2 x y z. specialize (H1 x y z). specialize (H2 x y z).
  destruct a; exact (derivable_pt_lim_mult _ _ _ _ _ H1 H2).
Qed.
Lemma partial1_scale a f df c : is_partial1 a f df -> is_partial1 a (fun x y z => c * f x y z) (fun x y z => c * df x y z).
Proof.
  intros H x y z. specialize (H x y z).
  destruct a; exact (derivable_pt_lim_scal _ _ _ _ H).
Qed.
Lemma partial1_ext a f g df dg : is_partial1 a f df -> (forall x y z, f x y z = g x y z) ->
  (forall x y z, df x y z = dg x y z) -> is_partial1 a g dg.
Proof.
  intros H E1 E2 x y z. specialize (H x y z). rewrite <- E2.
  destruct a; (eapply derivable_ext; [|exact H]); intros; apply E1.
Qed.
Lemma partial_add w : forall f g x y z df dg, is_partial w f x y z df -> is_partial w g x y z dg ->
  is_partial w (fun x y z => f x y z + g x y z) x y z (df + dg).
Proof.
  induction w as [|a w IH]; intros f g x y z df dg Hf Hg; cbn in *; [congruence|].
  destruct Hf as (f' & P1 & Q1), Hg as (g' & P2 & Q2). exists (fun x y z => f' x y z + g' x y z).
  split; [apply partial1_add; assumption|]. apply IH; assumption.
Qed.
Lemma partial_scale w : forall f c x y z df, is_partial w f x y z df -> is_partial w (fun x y z => c * f x y z) x y z (c * df).
Proof.
  induction w as [|a w IH]; intros f c x y z df Hf; cbn in *; [congruence|].
  destruct Hf as (f' & P1 & Q1). exists (fun x y z => c * f' x y z).
  split; [apply partial1_scale; assumption|]. apply IH; assumption.
Qed.
Lemma partial_zero w : forall x y z, is_partial w (fun _ _ _ => 0) x y z 0.
Proof.
  induction w as [|a w IH]; intros x y z; cbn; [reflexivity|]. exists (fun _ _ _ => 0). split; [|apply IH].
  intros u v t. destruct a; apply (derivable_pt_lim_const 0).
Qed.
Lemma partial_rsum w n : forall (f : nat -> R -> R -> R -> R) x y z d, (forall i, (i < n)%nat -> is_partial w (f i) x y z (d i)) ->
  is_partial w (fun x y z => rsum n (fun i => f i x y z)) x y z (rsum n d).
Proof.
  induction n; intros f x y z d H; cbn [rsum]; [apply partial_zero|].
  apply partial_add; [apply IHn; intros; apply H; lia|apply H; lia].
Qed.

(** ** weighted sums *)
Lemma weighted_coord (p : vec -> R) : (forall a b, p (vadd a b) = p a + p b) -> (forall c a, p (vscale c a) = c * p a) -> p v0 = 0 ->
  forall n nodes ws, length nodes = n -> length ws = n ->
  p (weighted nodes ws) = rsum n (fun i => p (nth i nodes v0) * nth i ws 0).
Proof.
  intros A S Z. induction n; intros nodes ws L1 L2; destruct nodes, ws; try discriminate; [exact Z|].
  cbn [weighted]. rewrite A, S, rsum_first. cbn [nth]. rewrite (IHn nodes ws) by (cbn in *; lia). ring.
Qed.
Lemma weighted_x n nodes ws : length nodes = n -> length ws = n -> vx (weighted nodes ws) = rsum n (fun i => vx (nth i nodes v0) * nth i ws 0).
Proof. apply weighted_coord; reflexivity. Qed.
Lemma weighted_y n nodes ws : length nodes = n -> length ws = n -> vy (weighted nodes ws) = rsum n (fun i => vy (nth i nodes v0) * nth i ws 0).
Proof. apply weighted_coord; reflexivity. Qed.
Lemma weighted_z n nodes ws : length nodes = n -> length ws = n -> vz (weighted nodes ws) = rsum n (fun i => vz (nth i nodes v0) * nth i ws 0).
Proof. apply weighted_coord; reflexivity. Qed.
Lemma nth_column k l i : (i < length l)%nat -> nth i (column k l) 0 = nth k (nth i l []) 0.
Proof.
  intros H. unfold column. rewrite (nth_indep _ _ ((fun r => nth k r 0) [])) by (rewrite map_length; exact H).
  apply (map_nth (fun r => nth k r 0)).
Qed.

(** derivatives of the weighted sums of shape functions *)
Lemma weighted_partial ws n S H nodes k x y z : length nodes = n -> (forall x y z, length (S x y z) = n) ->
  derivatives_of ws n S H -> (k < length ws)%nat ->
  is_partial_vec (nth k ws []) (fun x y z => weighted nodes (S x y z)) x y z (weighted nodes (column k (H x y z))).
Proof.
  intros L LS [LH HH] Hk.
  assert (forall p : vec -> R, (forall a b, p (vadd a b) = p a + p b) -> (forall c a, p (vscale c a) = c * p a) -> p v0 = 0 ->
    is_partial (nth k ws []) (fun x y z => p (weighted nodes (S x y z))) x y z (p (weighted nodes (column k (H x y z))))) as G.
  { intros p A B C.
    rewrite (weighted_coord p A B C n) by (unfold column; rewrite ?map_length; auto).
    apply (is_partial_ext _ (fun x y z => rsum n (fun i => p (nth i nodes v0) * nth i (S x y z) 0))).
    - intros u v t. symmetry. apply weighted_coord; auto.
    - apply (partial_rsum _ n (fun i x y z => p (nth i nodes v0) * nth i (S x y z) 0)).
      intros i Hi. apply partial_scale. rewrite nth_column by (rewrite LH; exact Hi). apply HH; assumption. }
  split; [|split]; apply G; reflexivity.
Qed.

Lemma LocalToGlobal_node e nodes j : In e elements -> built e nodes -> (j < nodes_n e)%nat ->
  (let '(x, y, z) := node e j in LocalToGlobal e nodes x y z) = nth j nodes v0.
Proof.
  intros He L Hj. destruct (shapes_interpolate e He) as (LS & _ & ND). unfold built in L. fold (nodes_n e) in L.
  pose proof (fun i Hi => ND i j Hi Hj) as D. destruct (node e j) as [[x y] z].
  assert (forall p : vec -> R, (forall a b, p (vadd a b) = p a + p b) -> (forall c a, p (vscale c a) = c * p a) -> p v0 = 0 ->
    p (weighted nodes (e_shapes e R RealOps x y z)) = p (nth j nodes v0)) as G.
  { intros p A B C. rewrite (weighted_coord p A B C (nodes_n e)) by auto.
    rewrite (rsum_single _ j); [|exact Hj|intros i Hi N; rewrite (D i Hi); destruct (Nat.eqb_spec i j); [contradiction|ring]].
    rewrite (D j Hj), Nat.eqb_refl. ring. }
  apply vec_eq; apply G; reflexivity.
Qed.

Lemma derivatives_of_gradients dim n S G : gradients_of dim n S G -> derivatives_of (first_order dim) n S G.
Proof.
  intros [L H]. split; [exact L|]. unfold first_order. intros i k x y z Hi Hk. rewrite map_length, seq_length in Hk.
  rewrite (nth_indep _ _ [axis_of 0]) by (rewrite map_length, seq_length; exact Hk).
  change [axis_of 0] with ((fun a => [axis_of a]) 0%nat). rewrite map_nth, seq_nth by exact Hk. apply H; assumption.
Qed.
Lemma nth_first_order dim a : (a < dim)%nat -> nth a (first_order dim) [] = [axis_of a].
Proof.
  intros Ha. unfold first_order. rewrite (nth_indep _ _ [axis_of 0]) by (rewrite map_length, seq_length; exact Ha).
  change [axis_of 0] with ((fun a => [axis_of a]) 0%nat). rewrite map_nth, seq_nth by exact Ha. reflexivity.
Qed.
Lemma LocalToJacobian_partial e nodes x y z a : In e elements -> built e nodes -> (a < e_dim e)%nat ->
  is_partial_vec [axis_of a] (LocalToGlobal e nodes) x y z (LocalToJacobian e nodes x y z a).
Proof.
  intros He L Ha. rewrite <- (nth_first_order (e_dim e) a Ha).
  apply (weighted_partial _ (nodes_n e)); [exact L|apply (shapes_interpolate e He)| |unfold first_order; rewrite map_length, seq_length; exact Ha].
  apply derivatives_of_gradients, shapes_gradients, He.
Qed.

(** ** affine maps *)
Lemma total_rsum f n : total (map f (seq 0 n)) = rsum n f.
Proof.
  enough (forall k, total (map f (seq k n)) = rsum n (fun i => f (k + i)%nat)) as H by (rewrite H; apply rsum_ext; intros; f_equal; lia).
  induction n; intros k; [reflexivity|]. rewrite rsum_first. cbn [seq map total fold_right]. rewrite Nat.add_0_r.
  f_equal. unfold total in IHn. rewrite IHn. apply rsum_ext. intros. f_equal. lia.
Qed.
Lemma total_list l n : length l = n -> total l = rsum n (fun i => nth i l 0).
Proof. revert l. induction n; intros [|v l] L; try discriminate; [reflexivity|]. rewrite rsum_first. cbn. f_equal. apply IHn. cbn in L; lia. Qed.

Definition coords_of (e : Element) (u v t : R -> R -> R -> R) : Prop :=
  reproduces (nodes_n e) (e_shapes e R RealOps) (node e) u /\
  reproduces (nodes_n e) (e_shapes e R RealOps) (node e) v /\
  reproduces (nodes_n e) (e_shapes e R RealOps) (node e) t.
Lemma affine_general e nodes u v t o a b c x y z : In e elements -> built e nodes -> coords_of e u v t ->
  (forall i, (i < nodes_n e)%nat -> nth i nodes v0 = (let '(x, y, z) := node e i in affine o a b c (u x y z) (v x y z) (t x y z))) ->
  LocalToGlobal e nodes x y z = affine o a b c (u x y z) (v x y z) (t x y z).
Proof.
  intros He L (Ru & Rv & Rt) N. destruct (shapes_interpolate e He) as (LS & ONE & _).
  assert (forall p : vec -> R, (forall a b, p (vadd a b) = p a + p b) -> (forall c a, p (vscale c a) = c * p a) -> p v0 = 0 ->
    p (LocalToGlobal e nodes x y z) = p (affine o a b c (u x y z) (v x y z) (t x y z))) as G.
  { intros p A B C. unfold LocalToGlobal. rewrite (weighted_coord p A B C (nodes_n e)) by auto.
    unfold affine. rewrite !A, !B. rewrite <- (Ru x y z), <- (Rv x y z), <- (Rt x y z).
    replace (p o) with (p o * 1) at 1 by ring. rewrite <- (ONE x y z), (total_list _ _ (LS x y z)).
    rewrite !total_rsum, <- rsum_mul_l, <- !rsum_mul_r, <- !rsum_add.
    apply rsum_ext. intros i Hi. rewrite (N i Hi). destruct (node e i) as [[xi yi] zi]. unfold affine. rewrite !A, !B. ring. }
  apply vec_eq; apply G; reflexivity.
Qed.

(** ** derivatives of the Jacobian and of its determinant *)
Definition third_axes (k b : nat) : list axis :=
  let '(i, j) := pair_of k in [axis_of i; axis_of j; axis_of b].

(** a derivative with one more axis in front *)
Lemma partial_head w a f g x y z d : is_partial1 a f g -> is_partial (a :: w) f x y z d -> is_partial w g x y z d.
Proof.
  intros P (g' & P' & H). apply (is_partial_ext _ g'); [|exact H]. intros u v t. specialize (P u v t). specialize (P' u v t).
  destruct a; eapply uniqueness_limite; eauto.
Qed.

(** ** the order of differentiation does not matter for polynomials *)
Lemma D_ext a e e' : (forall x y z, ev x y z e = ev x y z e') -> forall x y z, ev x y z (D a e) = ev x y z (D a e').
Proof.
  intros E x y z.
  destruct a;
    [apply (uniqueness_limite (fun t => ev t y z e) x); [apply D_x|]
    |apply (uniqueness_limite (fun t => ev x t z e) y); [apply D_y|]
    |apply (uniqueness_limite (fun t => ev x y t e) z); [apply D_z|]].
  - apply (derivable_ext (fun t => ev t y z e')); [intros; symmetry; apply E|apply D_x].
  - apply (derivable_ext (fun t => ev x t z e')); [intros; symmetry; apply E|apply D_y].
  - apply (derivable_ext (fun t => ev x y t e')); [intros; symmetry; apply E|apply D_z].
Qed.
Lemma Dw_ext w : forall e e', (forall x y z, ev x y z e = ev x y z e') -> forall x y z, ev x y z (Dw w e) = ev x y z (Dw w e').
Proof. induction w as [|a w IH]; intros e e' E; [exact E|]. cbn [Dw fold_left]. apply IH, D_ext, E. Qed.
Lemma D_swap a b e x y z : ev x y z (D a (D b e)) = ev x y z (D b (D a e)).
Proof.
  induction e; cbn [D ev]; try congruence.
  1-3: destruct a, b; reflexivity.
  rewrite IHe1, IHe2. ring.
Qed.
Lemma Dw_perm w w' : Permutation w w' -> forall e x y z, ev x y z (Dw w e) = ev x y z (Dw w' e).
Proof.
  induction 1 as [|a w w' P IH|a b w|w w' w'' P1 IH1 P2 IH2]; intros e x y z; cbn [Dw fold_left].
  - reflexivity.
  - apply IH.
  - apply (Dw_ext w). intros. apply D_swap.
  - rewrite IH1. apply IH2.
Qed.
Lemma LocalToGlobal_perm e nodes w w' x y z d : In e elements -> built e nodes -> Permutation w w' ->
  is_partial_vec w (LocalToGlobal e nodes) x y z d -> is_partial_vec w' (LocalToGlobal e nodes) x y z d.
Proof.
  intros He L Pm (H1 & H2 & H3). destruct (shapes_interpolate e He) as (LS & _ & _). pose proof (all_shapes_match e He) as M.
  assert (forall p : vec -> R, (forall a b, p (vadd a b) = p a + p b) -> (forall c a, p (vscale c a) = c * p a) -> p v0 = 0 ->
    forall w, is_partial w (fun x y z => p (LocalToGlobal e nodes x y z)) x y z
      (rsum (nodes_n e) (fun i => p (nth i nodes v0) * ev x y z (Dw w (nth i (sE e) (EC 0)))))) as G.
  { intros p A B C v.
    apply (is_partial_ext _ (fun x y z => rsum (nodes_n e) (fun i => p (nth i nodes v0) * nth i (e_shapes e R RealOps x y z) 0))).
    - intros a b c. symmetry. apply weighted_coord; auto.
    - apply (partial_rsum _ _ (fun i x y z => p (nth i nodes v0) * nth i (e_shapes e R RealOps x y z) 0)).
      intros i Hi. apply partial_scale.
      apply (is_partial_ext _ (fun x y z => ev x y z (nth i (sE e) (EC 0)))); [|apply Dw_correct].
      intros a b c. rewrite <- M, nth_ev. reflexivity. }
  assert (forall p : vec -> R, (forall a b, p (vadd a b) = p a + p b) -> (forall c a, p (vscale c a) = c * p a) -> p v0 = 0 ->
    is_partial w (fun x y z => p (LocalToGlobal e nodes x y z)) x y z (p d) ->
    is_partial w' (fun x y z => p (LocalToGlobal e nodes x y z)) x y z (p d)) as T.
  { intros p A B C H. rewrite (is_partial_unique _ _ _ _ _ _ _ H (G p A B C w)).
    rewrite (rsum_ext _ _ (fun i => p (nth i nodes v0) * ev x y z (Dw w' (nth i (sE e) (EC 0))))).
    - apply G; assumption.
    - intros i Hi. rewrite (Dw_perm w w' Pm). reflexivity. }
  split; [|split]; apply T; try reflexivity; assumption.
Qed.
Lemma partial_vec_head w a f g x y z d : (forall x y z, is_partial_vec [a] f x y z (g x y z)) ->
  is_partial_vec (a :: w) f x y z d -> is_partial_vec w g x y z d.
Proof.
  intros P (H1 & H2 & H3).
  split; [|split]; (eapply partial_head; [apply partial1_of; intros; apply P|eassumption]).
Qed.

(** ** determinants *)
Lemma det_partial a (F0 F1 F2 G0 G1 G2 : R -> R -> R -> vec) :
  (forall x y z, is_partial_vec [a] F0 x y z (G0 x y z)) -> (forall x y z, is_partial_vec [a] F1 x y z (G1 x y z)) ->
  (forall x y z, is_partial_vec [a] F2 x y z (G2 x y z)) ->
  is_partial1 a (fun x y z => det3 (F0 x y z) (F1 x y z) (F2 x y z))
    (fun x y z => det3 (G0 x y z) (F1 x y z) (F2 x y z) + det3 (F0 x y z) (G1 x y z) (F2 x y z) +
                  det3 (F0 x y z) (F1 x y z) (G2 x y z)).
Proof.
  intros H0 H1 H2.
  pose proof (partial1_of a _ _ (fun x y z => proj1 (H0 x y z))) as X0.
  pose proof (partial1_of a _ _ (fun x y z => proj1 (proj2 (H0 x y z)))) as Y0.
  pose proof (partial1_of a _ _ (fun x y z => proj2 (proj2 (H0 x y z)))) as Z0.
  pose proof (partial1_of a _ _ (fun x y z => proj1 (H1 x y z))) as X1.
  pose proof (partial1_of a _ _ (fun x y z => proj1 (proj2 (H1 x y z)))) as Y1.
  pose proof (partial1_of a _ _ (fun x y z => proj2 (proj2 (H1 x y z)))) as Z1.
  pose proof (partial1_of a _ _ (fun x y z => proj1 (H2 x y z))) as X2.
  pose proof (partial1_of a _ _ (fun x y z => proj1 (proj2 (H2 x y z)))) as Y2.
  pose proof (partial1_of a _ _ (fun x y z => proj2 (proj2 (H2 x y z)))) as Z2.
  pose proof (partial1_add _ _ _ _ _
    (partial1_add _ _ _ _ _
      (partial1_mul _ _ _ _ _ X0 (partial1_sub _ _ _ _ _ (partial1_mul _ _ _ _ _ Y1 Z2) (partial1_mul _ _ _ _ _ Z1 Y2)))
      (partial1_mul _ _ _ _ _ Y0 (partial1_sub _ _ _ _ _ (partial1_mul _ _ _ _ _ Z1 X2) (partial1_mul _ _ _ _ _ X1 Z2))))
    (partial1_mul _ _ _ _ _ Z0 (partial1_sub _ _ _ _ _ (partial1_mul _ _ _ _ _ X1 Y2) (partial1_mul _ _ _ _ _ Y1 X2)))) as H.
  eapply partial1_ext; [exact H| |].
  - intros x y z. unfold det3, dot, cross. cbn [vx vy vz]. ring.
  - intros x y z. unfold det3, dot, cross. cbn [vx vy vz]. ring.
Qed.

Section Hexa.
Variables (h : Hexa) (nodes : list vec).
Hypothesis Hh : In h hexas.
Hypothesis Hn : built (h_element h) nodes.
Let e := h_element h.
Let P (x y z : R) : vec := LocalToGlobal e nodes x y z.
Let J (b : nat) (x y z : R) : vec := LocalToJacobian e nodes x y z b.
Lemma hexa_dim : e_dim e = 3%nat.
Proof. unfold e. destruct Hh as [<-|[<-|[<-|[<-|[]]]]]; reflexivity. Qed.

Lemma J_partial b x y z : (b < 3)%nat -> is_partial_vec [axis_of b] P x y z (J b x y z).
Proof.
  intros Hb. apply LocalToJacobian_partial; [apply hexas_elements, Hh|exact Hn|].
  fold e. rewrite hexa_dim. exact Hb.
Qed.
Lemma hessian_partial k x y z : (k < 6)%nat ->
  is_partial_vec (nth k second []) P x y z (weighted nodes (column k (h_hessians h R RealOps x y z))).
Proof.
  intros Hk. apply (weighted_partial second (nodes_n e)); [exact Hn|apply (shapes_interpolate e (hexas_elements h Hh))| |exact Hk].
  apply shapes_hessians, Hh.
Qed.
Lemma tensor_partial k x y z : (k < 10)%nat ->
  is_partial_vec (nth k third []) P x y z (weighted nodes (column k (h_tensors h R RealOps x y z))).
Proof.
  intros Hk. apply (weighted_partial third (nodes_n e)); [exact Hn|apply (shapes_interpolate e (hexas_elements h Hh))| |exact Hk].
  apply shapes_tensors, Hh.
Qed.

Let G (a b : nat) (x y z : R) : vec := LocalToJacobianGradient h nodes x y z a b.
Let K (k b : nat) (x y z : R) : vec := LocalToJacobianHessian h nodes x y z k b.
Lemma G_partial a b x y z : (a < 3)%nat -> (b < 3)%nat -> is_partial_vec [axis_of a] (J b) x y z (G a b x y z).
Proof.
  intros Ha Hb. apply (partial_vec_head _ (axis_of b) P); [intros; apply J_partial, Hb|].
  assert (forall k w, (k < 6)%nat -> nth k second [] = w -> Permutation w [axis_of b; axis_of a] ->
    is_partial_vec [axis_of b; axis_of a] P x y z (weighted nodes (column k (h_hessians h R RealOps x y z)))) as T.
  { intros k w Hk Ew Pm. subst w. apply (LocalToGlobal_perm e nodes _ _ _ _ _ _ (hexas_elements h Hh) Hn Pm). apply hessian_partial, Hk. }
  unfold G, LocalToJacobianGradient.
  destruct a as [|[|[|a]]]; try lia; destruct b as [|[|[|b]]]; try lia;
    (eapply T; [|reflexivity|]; [lia|]); solve [apply Permutation_refl | apply perm_swap].
Qed.
Lemma K_partial k b x y z : (k < 6)%nat -> (b < 3)%nat ->
  is_partial_vec [axis_of (snd (pair_of k))] (G (fst (pair_of k)) b) x y z (K k b x y z).
Proof.
  intros Hk Hb.
  assert ((fst (pair_of k) < 3)%nat) as Hi by (destruct k as [|[|[|[|[|k]]]]]; cbn; lia).
  apply (partial_vec_head _ (axis_of (fst (pair_of k))) (J b)); [intros; apply G_partial; assumption|].
  apply (partial_vec_head _ (axis_of b) P); [intros; apply J_partial, Hb|].
  assert (forall c w, (c < 10)%nat -> nth c third [] = w -> Permutation w [axis_of b; axis_of (fst (pair_of k)); axis_of (snd (pair_of k))] ->
    is_partial_vec [axis_of b; axis_of (fst (pair_of k)); axis_of (snd (pair_of k))] P x y z
      (weighted nodes (column c (h_tensors h R RealOps x y z)))) as T.
  { intros c w Hc Ew Pm. subst w. apply (LocalToGlobal_perm e nodes _ _ _ _ _ _ (hexas_elements h Hh) Hn Pm). apply tensor_partial, Hc. }
  unfold K, LocalToJacobianHessian.
  assert (forall u v w : axis, Permutation [u; v; w] [w; u; v]) as Rot
    by (intros; apply (Permutation_app_comm [u; v] [w])).
  destruct k as [|[|[|[|[|[|k]]]]]]; try lia; destruct b as [|[|[|b]]]; try lia; cbn [pair_of fst snd] in *;
    (eapply T; [|reflexivity|]; [lia|]);
    solve [apply Permutation_refl | apply perm_swap | apply Rot | apply perm_skip, perm_swap
          | apply Permutation_sym, Rot | eapply perm_trans; [apply Rot|apply perm_swap]].
Qed.

(** the determinant of the Jacobian and its derivatives in polynomial form *)
Definition detJ (x y z : R) : R := mdet (rows (LocalToJacobian e nodes x y z)).
Definition ddet (a : nat) (x y z : R) : R :=
  det3 (G a 0%nat x y z) (J 1%nat x y z) (J 2%nat x y z) + det3 (J 0%nat x y z) (G a 1%nat x y z) (J 2%nat x y z)
  + det3 (J 0%nat x y z) (J 1%nat x y z) (G a 2%nat x y z).
Lemma detJ_partial a : (a < 3)%nat -> is_partial1 (axis_of a) detJ (ddet a).
Proof.
  intros Ha. exact (det_partial (axis_of a) (J 0%nat) (J 1%nat) (J 2%nat) (G a 0%nat) (G a 1%nat) (G a 2%nat)
    (fun x y z => G_partial a 0 x y z Ha ltac:(lia)) (fun x y z => G_partial a 1 x y z Ha ltac:(lia))
    (fun x y z => G_partial a 2 x y z Ha ltac:(lia))).
Qed.
Definition dddet (k : nat) (x y z : R) : R :=
  let a := fst (pair_of k) in let b := snd (pair_of k) in
  let j i := J i x y z in let p i := G a i x y z in let q i := G b i x y z in let r i := K k i x y z in
  (det3 (r 0%nat) (j 1%nat) (j 2%nat) + det3 (p 0%nat) (q 1%nat) (j 2%nat) + det3 (p 0%nat) (j 1%nat) (q 2%nat)) +
  (det3 (q 0%nat) (p 1%nat) (j 2%nat) + det3 (j 0%nat) (r 1%nat) (j 2%nat) + det3 (j 0%nat) (p 1%nat) (q 2%nat)) +
  (det3 (q 0%nat) (j 1%nat) (p 2%nat) + det3 (j 0%nat) (q 1%nat) (p 2%nat) + det3 (j 0%nat) (j 1%nat) (r 2%nat)).
Lemma ddet_partial k : (k < 6)%nat -> is_partial1 (axis_of (snd (pair_of k))) (ddet (fst (pair_of k))) (dddet k).
Proof.
  intros Hk.
  assert ((fst (pair_of k) < 3)%nat /\ (snd (pair_of k) < 3)%nat) as (Ha & Hb) by (destruct k as [|[|[|[|[|k]]]]]; cbn; lia).
  assert (forall i, (i < 3)%nat -> forall x y z, is_partial_vec [axis_of (snd (pair_of k))] (J i) x y z (G (snd (pair_of k)) i x y z)) as GJ
    by (intros; apply G_partial; assumption).
  assert (forall i, (i < 3)%nat -> forall x y z, is_partial_vec [axis_of (snd (pair_of k))] (G (fst (pair_of k)) i) x y z (K k i x y z)) as KG
    by (intros; apply K_partial; assumption).
  eapply partial1_add; [eapply partial1_add|]; apply det_partial; first [apply GJ; lia | apply KG; lia].
Qed.
Ltac mat := unfold mtrace, mmul, minv, of_columns, rmul, mdet, det3, dot, cross, vscale, vadd in *; cbn [vx vy vz r0 r1 r2] in *.
Lemma mmul_assoc m n p : mmul (mmul m n) p = mmul m (mmul n p).
Proof.
  destruct m as [[a0 a1 a2] [b0 b1 b2] [c0 c1 c2]], n as [[d0 d1 d2] [e0 e1 e2] [f0 f1 f2]], p as [[g0 g1 g2] [h0 h1 h2] [i0 i1 i2]].
  mat. f_equal; apply vec_eq; cbn [vx vy vz]; ring.
Qed.
Lemma mtrace_comm m n : mtrace (mmul m n) = mtrace (mmul n m).
Proof.
  destruct m as [[a0 a1 a2] [b0 b1 b2] [c0 c1 c2]], n as [[d0 d1 d2] [e0 e1 e2] [f0 f1 f2]]. mat. ring.
Qed.
Definition mone : mat3 := M3 (V 1 0 0) (V 0 1 0) (V 0 0 1).
Lemma minv_left m : mdet m <> 0 -> mmul (minv m) m = mone.
Proof.
  destruct m as [[a0 a1 a2] [b0 b1 b2] [c0 c1 c2]]. unfold mone. mat. intros N.
  f_equal; apply vec_eq; cbn [vx vy vz]; field; exact N.
Qed.
Lemma minv_right m : mdet m <> 0 -> mmul m (minv m) = mone.
Proof.
  destruct m as [[a0 a1 a2] [b0 b1 b2] [c0 c1 c2]]. unfold mone. mat. intros N.
  f_equal; apply vec_eq; cbn [vx vy vz]; field; exact N.
Qed.
Lemma mmul_one m : mmul m mone = m.
Proof.
  destruct m as [[a0 a1 a2] [b0 b1 b2] [c0 c1 c2]]. unfold mone. mat. f_equal; apply vec_eq; cbn [vx vy vz]; ring.
Qed.
(** determinants of combinations of the rows *)
Lemma det01 m a b : det3 (rmul a m) (rmul b m) (r2 m) = (vx a * vy b - vy a * vx b) * mdet m.
Proof. destruct m as [[j0 j1 j2] [k0 k1 k2] [l0 l1 l2]], a as [a0 a1 a2], b as [b0 b1 b2]. mat. ring. Qed.
Lemma det02 m a b : det3 (rmul a m) (r1 m) (rmul b m) = (vx a * vz b - vz a * vx b) * mdet m.
Proof. destruct m as [[j0 j1 j2] [k0 k1 k2] [l0 l1 l2]], a as [a0 a1 a2], b as [b0 b1 b2]. mat. ring. Qed.
Lemma det12 m a b : det3 (r0 m) (rmul a m) (rmul b m) = (vy a * vz b - vz a * vy b) * mdet m.
Proof. destruct m as [[j0 j1 j2] [k0 k1 k2] [l0 l1 l2]], a as [a0 a1 a2], b as [b0 b1 b2]. mat. ring. Qed.
Lemma det_0 m a : det3 (rmul a m) (r1 m) (r2 m) = vx a * mdet m.
Proof. destruct m as [[j0 j1 j2] [k0 k1 k2] [l0 l1 l2]], a as [a0 a1 a2]. mat. ring. Qed.
Lemma det_1 m a : det3 (r0 m) (rmul a m) (r2 m) = vy a * mdet m.
Proof. destruct m as [[j0 j1 j2] [k0 k1 k2] [l0 l1 l2]], a as [a0 a1 a2]. mat. ring. Qed.
Lemma det_2 m a : det3 (r0 m) (r1 m) (rmul a m) = vz a * mdet m.
Proof. destruct m as [[j0 j1 j2] [k0 k1 k2] [l0 l1 l2]], a as [a0 a1 a2]. mat. ring. Qed.
Lemma second_invariant m A B C :
  (mtrace C + (mtrace A * mtrace B - mtrace (mmul A B))) * mdet m =
  (let p := mmul A m in let q := mmul B m in let r := mmul C m in
  (det3 (r0 r) (r1 m) (r2 m) + det3 (r0 p) (r1 q) (r2 m) + det3 (r0 p) (r1 m) (r2 q)) +
  (det3 (r0 q) (r1 p) (r2 m) + det3 (r0 m) (r1 r) (r2 m) + det3 (r0 m) (r1 p) (r2 q)) +
  (det3 (r0 q) (r1 m) (r2 p) + det3 (r0 m) (r1 q) (r2 p) + det3 (r0 m) (r1 m) (r2 r))).
Proof.
  cbv zeta. unfold mmul at 2 3 4 5 6 7 8 9 10 11 12 13 14 15 16. cbn [r0 r1 r2].
  rewrite !det01, !det02, !det12, det_0, det_1, det_2.
  generalize (mdet m) as d. intros d.
  destruct A as [[a0 a1 a2] [b0 b1 b2] [c0 c1 c2]], B as [[d0 d1 d2] [e0 e1 e2] [f0 f1 f2]], C as [[g0 g1 g2] [h0 h1 h2] [i0 i1 i2]].
  mat. ring.
Qed.
Lemma first_invariant m A :
  mdet m * mtrace A =
  (let p := mmul A m in det3 (r0 p) (r1 m) (r2 m) + det3 (r0 m) (r1 p) (r2 m) + det3 (r0 m) (r1 m) (r2 p)).
Proof.
  cbv zeta. unfold mmul. cbn [r0 r1 r2]. rewrite det_0, det_1, det_2. unfold mtrace. ring.
Qed.
Lemma minv_cancel m n : mdet m <> 0 -> mmul (mmul n (minv m)) m = n.
Proof. intros N. rewrite mmul_assoc, minv_left, mmul_one by exact N. reflexivity. Qed.
Lemma ddet_formula a x y z : detJ x y z <> 0 -> LocalToJacobianDeterminantGradient h nodes x y z a = ddet a x y z.
Proof.
  intros N. unfold LocalToJacobianDeterminantGradient, ddet. fold e.
  rewrite mtrace_comm, first_invariant. cbv zeta. rewrite minv_cancel by exact N. reflexivity.
Qed.
Lemma dddet_formula k x y z : detJ x y z <> 0 -> LocalToJacobianDeterminantHessian h nodes x y z k = dddet k x y z.
Proof.
  intros N. unfold LocalToJacobianDeterminantHessian, dddet. fold e.
  destruct (pair_of k) as (a, b). cbn [fst snd].
  rewrite mmul_assoc, (mtrace_comm (minv _) (mmul _ _)), mmul_assoc, mmul_assoc, <- mmul_assoc.
  rewrite !(mtrace_comm (minv _)).
  rewrite second_invariant. cbv zeta. rewrite !minv_cancel by exact N. reflexivity.
Qed.
End Hexa.
