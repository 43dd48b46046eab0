(** Coordinates and integrators of the Python package. *)
From Coq Require Import Reals QArith Qreals ZArith List Arith Lra Lia.
From Coquelicot Require Import Coquelicot.
From Verif Require Import Arrays RSum Vec3 Spec_Gauss Proof_Integral Model_Gauss Proof_Gauss Proof_GaussTable Proof_GaussMore.
From Verif Require Import Model_PyEuler Model_PyIntegrator Spec_PyIntegrator.
Import ListNotations.
Open Scope R_scope.

(** ** Coordinates *)
Lemma map_is c x : local_to_global c x = (x_left c + x_right c) / 2 + x * ((x_right c - x_left c) / 2).
Proof. induction c as [a b|c IH s]; cbn [local_to_global x_left x_right]; [reflexivity|]. rewrite IH. field. Qed.
Lemma center_is c : x_center c = (x_left c + x_right c) / 2.
Proof. induction c as [a b|c IH s]; cbn [x_center x_left x_right]; [reflexivity|]. rewrite IH. field. Qed.
Lemma length_is c : length_of c = x_right c - x_left c.
Proof. induction c as [a b|c IH s]; cbn [length_of x_left x_right]; [reflexivity|]. rewrite IH. field. Qed.
Lemma jacobian_is c x : local_to_jacobian c x = (x_right c - x_left c) / 2.
Proof. induction c as [a b|c IH s]; cbn [local_to_jacobian x_left x_right]; [reflexivity|]. rewrite IH. field. Qed.
Lemma global_jacobian_is c : forall x, global_to_jacobian c x = (x_right c - x_left c) / 2.
Proof. induction c as [a b|c IH s]; intros x; cbn [global_to_jacobian x_left x_right]; [reflexivity|]. rewrite IH. field. Qed.
Lemma inverse_is c : forall x, x_left c <> x_right c ->
  global_to_local c x = Some ((x - (x_left c + x_right c) / 2) / ((x_right c - x_left c) / 2)).
Proof.
  induction c as [a b|c IH s]; intros x H; cbn [global_to_local x_left x_right] in *.
  - unfold div, linear_center, linear_jacobian. destruct (Req_EM_T ((b - a) / 2) 0); [lra|reflexivity].
  - rewrite IH by lra. f_equal. field. lra.
Qed.

(** ** Integrators *)
Lemma fold_quad (f : R -> R) l : forall s, fold_left (fun value pw => value + snd pw * f (fst pw)) l s
  = s + quad f (map fst l) (map snd l).
Proof. induction l as [|[x w] l IH]; intros s; cbn [fold_left map quad fst snd]; [ring|]. rewrite IH. ring. Qed.
Lemma integrate_quad i f : length (global_points i) = length (global_weights i) ->
  integrate i f = quad f (global_points i) (global_weights i).
Proof.
  destruct i as [c ps ws]. cbn [global_points global_weights]. unfold integrate. cbn [global_points global_weights].
  destruct ps as [|p ps]; destruct ws as [|w ws]; cbn [length combine]; try discriminate; [reflexivity|]. intros H. injection H as H.
  rewrite fold_quad. cbn [quad]. rewrite Rmult_comm. f_equal.
  revert ws H. induction ps as [|q ps IH]; intros [|v ws] H; cbn [combine map quad fst snd length] in *; try discriminate; auto.
  f_equal. apply IH. lia.
Qed.
Lemma weights_are c : forall ps ws, length ps = length ws ->
  map (fun pw => snd pw * local_to_jacobian c (fst pw)) (combine ps ws) = map (fun w => w * ((x_right c - x_left c) / 2)) ws.
Proof.
  induction ps as [|p ps IH]; intros [|w ws] H; cbn [combine map fst snd length] in *; try discriminate; auto.
  rewrite jacobian_is, IH by lia. reflexivity.
Qed.
Lemma init_is c ps ws : length ps = length ws -> (1 <= length ps)%nat ->
  exists i, Integrator_init c ps ws = Some i /\ i_coordinate i = c /\
    global_points i = map (local_to_global c) ps /\ global_weights i = map (fun w => w * ((x_right c - x_left c) / 2)) ws /\
    forall f, integrate i f = (x_right c - x_left c) / 2 * quad (fun x => f (local_to_global c x)) ps ws.
Proof.
  intros L N. destruct ps as [|p ps]; [cbn in N; lia|]. unfold Integrator_init. eexists. split; [reflexivity|].
  cbn [i_coordinate global_points global_weights]. split; [reflexivity|]. split; [reflexivity|]. split; [apply weights_are, L|].
  intros f. rewrite integrate_quad; cbn [global_points global_weights].
  - rewrite weights_are by exact L. rewrite quad_map_points, quad_scaled_weights. reflexivity.
  - rewrite !map_length, combine_length. lia.
Qed.

(** ** Tables *)
Lemma neg_half x : - - x = x. Proof. ring. Qed.
Lemma table_small n : (2 <= n <= 6)%nat -> GaussLobatto_points n = Some (Lobatto_points n) /\ GaussLobatto_weights n = Some (Lobatto_weights n).
Proof.
  intros H. destruct n as [|[|[|[|[|[|[|n]]]]]]]; try (exfalso; lia); unfold GaussLobatto_points, GaussLobatto_weights, Lobatto_points, Lobatto_weights;
    split; try reflexivity; repeat (f_equal; try (cbn [INR]; field)).
Qed.
Definition points_Q (n : nat) : list Q :=
  let p := map Qopp (lobatto_decimals n) in
  ([- (1)] ++ p ++ (if Nat.odd n then [0] else []) ++ rev (lobatto_decimals n) ++ [1])%Q.
Definition weights_Q (n : nat) : list Q :=
  let w := lobatto_weight_decimals n in if Nat.odd n then w ++ tl (rev w) else w ++ rev w.
Lemma Q2R_int z : Q2R (z # 1) = IZR z. Proof. unfold Q2R. cbn [Qnum Qden]. lra. Qed.
Lemma table_big n : (7 <= n <= 10)%nat -> GaussLobatto_points n = Some (map Q2R (points_Q n)) /\ GaussLobatto_weights n = Some (map Q2R (weights_Q n)).
Proof.
  intros H.
  assert (n = 7 \/ n = 8 \/ n = 9 \/ n = 10)%nat as [->|[->|[->| ->]]] by lia; (split; [|reflexivity]);
    unfold GaussLobatto_points, points_Q, lobatto_decimals; cbn [map app rev Nat.odd Nat.even negb];
    rewrite ?Q2R_opp, ?neg_half; f_equal; repeat (f_equal; try (unfold Q2R; cbn [Qnum Qden]; lra)).
Qed.
Lemma big_checked : forallb (fun n => check (2 * n - 3) D17 D17 (on_line (points_Q n)) (weights_Q n) (fun i _ _ => momentQ i) eps15 (line_mons (2 * n - 3))) [7; 8; 9; 10]%nat = true.
Proof. vm_compute. reflexivity. Qed.
Lemma big_moment n i : (7 <= n <= 10)%nat -> (i <= 2 * n - 3)%nat ->
  Rabs (quad (fun x => x ^ i) (map Q2R (points_Q n)) (map Q2R (weights_Q n)) - moment i) <= Q2R eps15.
Proof.
  intros I L. assert (In n [7; 8; 9; 10]%nat) as J by (cbn; lia).
  pose proof (proj1 (forallb_forall _ _) big_checked n J) as C. cbv beta in C.
  pose proof (check_spec _ _ _ _ _ _ _ _ i 0 0 C) as K. cbv beta in K. rewrite momentQ_spec in K. eapply Rle_trans; [|apply K].
  - right. f_equal. f_equal. unfold on_line. rewrite map_map, !quad_map_points. apply quad_ext.
    intros x. unfold toV. cbn [vx vy vz fst snd pow]. ring.
  - unfold line_mons. apply in_map_iff. exists i. split; auto. apply in_seq. lia.
Qed.
Lemma eps_is : Q2R eps15 = 2 / 10 ^ 15.
Proof. unfold Q2R, eps15. cbn [Qnum Qden]. replace (IZR (Z.pos (10 ^ 15))) with (10 ^ 15); [reflexivity|]. rewrite (pow_IZR 10 15). f_equal. Qed.
Lemma moments n : (2 <= n <= 10)%nat -> exists ps ws, GaussLobatto_points n = Some ps /\ GaussLobatto_weights n = Some ws /\
  length ps = n /\ length ws = n /\
  forall i, (i <= 2 * n - 3)%nat -> Rabs (quad (fun x => x ^ i) ps ws - moment i) <= lobatto_error n.
Proof.
  intros H. unfold lobatto_error. destruct (Nat.leb_spec n 6) as [A|A].
  - destruct (table_small n ltac:(lia)) as [P W]. destruct (lobatto_moments n ltac:(lia)) as [L M].
    exists (Lobatto_points n), (Lobatto_weights n). split; [exact P|]. split; [exact W|].
    split; [|split]; [destruct n as [|[|[|[|[|[|[|n]]]]]]]; try (exfalso; lia); reflexivity..|].
    intros i Hi. rewrite M by exact Hi. rewrite Rminus_eq_0, Rabs_R0. lra.
  - destruct (table_big n ltac:(lia)) as [P W]. exists (map Q2R (points_Q n)), (map Q2R (weights_Q n)).
    split; [exact P|]. split; [exact W|].
    assert (n = 7 \/ n = 8 \/ n = 9 \/ n = 10)%nat as E by lia.
    split; [|split]; [destruct E as [->|[->|[->| ->]]]; reflexivity..|].
    intros i Hi. rewrite <- eps_is. apply big_moment; auto. lia.
Qed.
Lemma small_moments n ps ws : (2 <= n <= 6)%nat -> GaussLobatto_points n = Some ps -> GaussLobatto_weights n = Some ws ->
  has_moments ps ws (2 * n - 3).
Proof.
  intros H P W. destruct (table_small n H) as [P' W']. rewrite P' in P. rewrite W' in W. injection P as <-. injection W as <-.
  apply lobatto_moments, H.
Qed.

(** ** Order and signs of the tables *)
Fixpoint sorted_from (x : R) (l : list R) : Prop := match l with [] => True | y :: l => x < y /\ sorted_from y l end.
Lemma sorted_from_lt l : forall x i, sorted_from x l -> (i < length l)%nat -> x < nth i l 0.
Proof.
  induction l as [|y l IH]; intros x i S H; [cbn in H; lia|]. destruct S as [S1 S2]. destruct i; cbn [nth]; [exact S1|].
  apply Rlt_trans with y; [exact S1|]. apply IH; auto. cbn in H. lia.
Qed.
Lemma sorted_increasing x l : sorted_from x l -> increasing (x :: l).
Proof.
  revert x. induction l as [|y l IH]; intros x S i j H; [cbn in H; lia|].
  destruct j; [lia|]. destruct i.
  - cbn [nth]. apply (sorted_from_lt (y :: l)); [exact S|]. cbn in *. lia.
  - cbn [nth]. destruct S as [_ S]. apply (IH y S i j). cbn in *. lia.
Qed.
Lemma Q2R_lt q r : (Qnum q * QDen r <? Qnum r * QDen q)%Z = true -> Q2R q < Q2R r.
Proof. intros H. apply Qlt_Rlt. unfold Qlt. apply Z.ltb_lt, H. Qed.
Fixpoint qsorted (x : Q) (l : list Q) : bool :=
  match l with [] => true | y :: l => (Qnum x * QDen y <? Qnum y * QDen x)%Z && qsorted y l end.
Lemma qsorted_spec l : forall x, qsorted x l = true -> sorted_from (Q2R x) (map Q2R l).
Proof.
  induction l as [|y l IH]; intros x H; cbn [map sorted_from]; auto. cbn [qsorted] in H. apply andb_prop in H as [A B].
  split; [apply Q2R_lt, A|apply IH, B].
Qed.
Lemma qpos_spec l : forallb (fun q => (0 <? Qnum q)%Z) l = true -> List.Forall (fun x => 0 < x) (map Q2R l).
Proof.
  intros H. rewrite List.Forall_map. apply List.Forall_forall. intros q I. rewrite forallb_forall in H. specialize (H q I).
  apply Z.ltb_lt in H. replace 0 with (Q2R 0) by (unfold Q2R; cbn [Qnum Qden]; lra). apply Qlt_Rlt. unfold Qlt. cbn [Qnum Qden]. lia.
Qed.
Lemma sqrt7 : 2 < sqrt 7 < 3.
Proof. split; [rewrite <- (sqrt_square 2) at 1 by lra|rewrite <- (sqrt_square 3) by lra]; apply sqrt_lt_1_alt; lra. Qed.
Lemma sqrt21 : 4 < sqrt 21 < 5.
Proof. split; [rewrite <- (sqrt_square 4) at 1 by lra|rewrite <- (sqrt_square 5) by lra]; apply sqrt_lt_1_alt; lra. Qed.
Lemma sqrt_unit x : 0 < x < 1 -> 0 < sqrt x < 1.
Proof. intros H. split; [apply sqrt_lt_R0; lra|]. apply (fun H => Rlt_le_trans _ _ _ H (Req_le _ _ sqrt_1)). apply sqrt_lt_1_alt. lra. Qed.
Lemma tables n ps ws : (2 <= n <= 10)%nat -> GaussLobatto_points n = Some ps -> GaussLobatto_weights n = Some ws ->
  nth 0 ps 0 = -1 /\ nth (n - 1) ps 0 = 1 /\ increasing ps /\ symmetric ps /\ palindrome ws /\ List.Forall (fun w => 0 < w) ws.
Proof.
  intros H P W. pose proof sqrt7. pose proof sqrt21. pose proof (sqrt_unit (1 / 5) ltac:(lra)).
  pose proof (sqrt_unit ((7 + 2 * sqrt 7) / 21) ltac:(lra)). pose proof (sqrt_unit ((7 - 2 * sqrt 7) / 21) ltac:(lra)).
  assert (sqrt ((7 - 2 * sqrt 7) / 21) < sqrt ((7 + 2 * sqrt 7) / 21)) by (apply sqrt_lt_1_alt; lra).
  destruct (le_lt_dec n 6) as [A|A].
  - destruct (table_small n ltac:(lia)) as [P' W']. rewrite P' in P. rewrite W' in W. injection P as <-. injection W as <-.
    assert (n = 2 \/ n = 3 \/ n = 4 \/ n = 5 \/ n = 6)%nat as [->|[->|[->|[->| ->]]]] by lia;
      unfold Lobatto_points, Lobatto_weights; cbn [nth Nat.sub];
      (split; [reflexivity|]); (split; [reflexivity|]);
      (split; [apply sorted_increasing; cbn [sorted_from]; repeat split; lra|]);
      (split; [unfold symmetric; cbn [map rev app]; repeat (f_equal; try lra)|]);
      (split; [reflexivity|]); repeat constructor; lra.
  - destruct (table_big n ltac:(lia)) as [P' W']. rewrite P' in P. rewrite W' in W. injection P as <-. injection W as <-.
    assert (E : forall z, Q2R (z # 1) = IZR z) by (intros; unfold Q2R; cbn [Qnum Qden]; lra).
    assert (O : forall z p, Q2R (Z.opp z # p) = - Q2R (z # p)) by (intros; apply (Q2R_opp (z # p))).
    assert (n = 7 \/ n = 8 \/ n = 9 \/ n = 10)%nat as [->|[->|[->| ->]]] by lia;
      (split; [unfold points_Q, lobatto_decimals; cbn [map app rev nth Nat.sub]; rewrite Q2R_opp; rewrite (E 1%Z); reflexivity|]);
      (split; [unfold points_Q, lobatto_decimals; cbn [map app rev nth Nat.sub Nat.odd Nat.even negb]; apply (E 1%Z)|]);
      (split; [apply (sorted_increasing (Q2R (- (1)))); apply qsorted_spec; vm_compute; reflexivity|]);
      (split; [unfold symmetric, points_Q, lobatto_decimals; cbn [map app rev Nat.odd Nat.even negb];
               rewrite ?Q2R_opp, ?neg_half, ?(E 0%Z); repeat (f_equal; try lra)|]);
      (split; [reflexivity|]); apply qpos_spec; vm_compute; reflexivity.
Qed.

(** ** Exactness on elements *)
Lemma change_variable c f (I : R) : is_RInt (V := R_NormedModule) (fun x => f (local_to_global c x)) (-1) 1 I -> x_left c <> x_right c ->
  is_RInt (V := R_NormedModule) f (x_left c) (x_right c) ((x_right c - x_left c) / 2 * I).
Proof.
  intros H N. set (J := (x_right c - x_left c) / 2). set (m := (x_left c + x_right c) / 2).
  assert (NJ : J <> 0) by (unfold J; lra).
  pose proof (is_RInt_comp_lin (V := R_NormedModule) (fun x => J * f (local_to_global c x)) (/ J) (- (m / J)) (x_left c) (x_right c) (J * I)) as K.
  replace (/ J * x_left c + - (m / J)) with (-1) in K by (unfold m; unfold J in *; field; lra).
  replace (/ J * x_right c + - (m / J)) with 1 in K by (unfold m; unfold J in *; field; lra).
  specialize (K ltac:(apply is_RInt_mul; exact H)).
  apply (is_RInt_fun (fun y => scal (/ J) (J * f (local_to_global c (/ J * y + - (m / J)))))); [|exact K].
  intros y. unfold scal; cbn; unfold mult; cbn. rewrite map_is.
  replace ((x_left c + x_right c) / 2 + (/ J * y + - (m / J)) * ((x_right c - x_left c) / 2)) with y by (unfold m; unfold J in *; field; lra).
  field. exact NJ.
Qed.
Lemma quad_error n k ps ws eps d : length ps = n -> (forall i, (i <= d)%nat -> Rabs (quad (fun x => x ^ i) ps ws - moment i) <= eps) ->
  Rabs (quad (poly1 d k) ps ws - rsum (S d) (fun i => k i * moment i)) <= eps * size1 d k.
Proof. intros _ M. rewrite quad_poly1. apply err_rsum. intros i Hi. apply err_scal, M. lia. Qed.
Lemma lobatto_within n c ps ws i f k : (2 <= n <= 10)%nat -> x_left c <> x_right c ->
  GaussLobatto_points n = Some ps -> GaussLobatto_weights n = Some ws -> Integrator_init c ps ws = Some i ->
  (forall x, f (local_to_global c x) = poly1 (2 * n - 3) k x) ->
  within (from_to (x_left c) (x_right c)) f (integrate i f) (Rabs (x_right c - x_left c) / 2 * (lobatto_error n * size1 (2 * n - 3) k)).
Proof.
  intros H N P W I F. destruct (moments n H) as (ps' & ws' & P' & W' & Lp & Lw & M).
  rewrite P in P'. rewrite W in W'. injection P' as <-. injection W' as <-.
  destruct (init_is c ps ws ltac:(lia) ltac:(lia)) as (i' & I' & _ & _ & _ & Q). rewrite I in I'. injection I' as <-.
  exists ((x_right c - x_left c) / 2 * rsum (S (2 * n - 3)) (fun i => k i * moment i)). split.
  - apply exactly_line, change_variable; auto. apply (is_RInt_fun (poly1 (2 * n - 3) k)); [auto|]. apply poly1_int.
  - rewrite Q, (quad_ext _ (poly1 (2 * n - 3) k)) by auto. rewrite <- Rmult_minus_distr_l, Rabs_mult.
    replace (Rabs (x_right c - x_left c) / 2) with (Rabs ((x_right c - x_left c) / 2)).
    + apply Rmult_le_compat_l; [apply Rabs_pos|]. apply (quad_error n); auto.
    + unfold Rdiv. rewrite Rabs_mult. f_equal. apply Rabs_pos_eq. lra.
Qed.
Lemma lobatto_exact n c ps ws i k : (2 <= n <= 6)%nat ->
  GaussLobatto_points n = Some ps -> GaussLobatto_weights n = Some ws -> Integrator_init c ps ws = Some i ->
  exactly (from_to (x_left c) (x_right c)) (poly1 (2 * n - 3) k) (integrate i (poly1 (2 * n - 3) k)).
Proof.
  intros H P W I. pose proof (small_moments n ps ws H P W) as M.
  destruct (moments n ltac:(lia)) as (ps' & ws' & P' & W' & Lp & Lw & _).
  rewrite P in P'. rewrite W in W'. injection P' as <-. injection W' as <-.
  destruct (init_is c ps ws ltac:(lia) ltac:(lia)) as (i' & I' & _ & _ & _ & Q). rewrite I in I'. injection I' as <-.
  apply exactly_line. rewrite Q. pose proof (line_quad ps ws (2 * n - 3) k (x_left c) (x_right c) M) as K.
  rewrite (quad_ext _ (fun x => poly1 (2 * n - 3) k (local_to_global c x))) in K; [exact K|].
  intros x. f_equal. rewrite map_is. unfold Line_LocalToGlobal. field.
Qed.

(** ** The points of the element *)
Lemma nth_map_R (g : R -> R) l i : (i < length l)%nat -> nth i (map g l) 0 = g (nth i l 0).
Proof. intros H. rewrite (nth_indep _ 0 (g 0)) by (rewrite map_length; exact H). apply map_nth. Qed.
Lemma quad_abs (f : R -> R) : forall ps ws, List.Forall (fun w => 0 < w) ws -> Rabs (quad f ps ws) <= quad (fun x => Rabs (f x)) ps ws.
Proof.
  induction ps as [|p ps IH]; intros [|w ws] F; cbn [quad]; try (rewrite Rabs_R0; lra).
  inversion F; subst. eapply Rle_trans; [apply Rabs_triang|]. apply Rplus_le_compat; [|apply IH; auto].
  rewrite Rabs_mult, (Rabs_pos_eq w) by lra. lra.
Qed.
Lemma in_element n c ps ws i : (2 <= n <= 10)%nat -> x_left c < x_right c ->
  GaussLobatto_points n = Some ps -> GaussLobatto_weights n = Some ws -> Integrator_init c ps ws = Some i ->
  length (global_points i) = n /\ nth 0 (global_points i) 0 = x_left c /\ nth (n - 1) (global_points i) 0 = x_right c /\
  increasing (global_points i) /\ List.Forall (fun w => 0 < w) (global_weights i) /\
  forall f, Rabs (integrate i f) <= norm_1 i f.
Proof.
  intros H N P W I. destruct (tables n ps ws H P W) as (T1 & T2 & T3 & _ & _ & T4).
  destruct (moments n H) as (ps' & ws' & P' & W' & Lp & Lw & _).
  rewrite P in P'. rewrite W in W'. injection P' as <-. injection W' as <-.
  destruct (init_is c ps ws ltac:(lia) ltac:(lia)) as (i' & I' & _ & GP & GW & Q). rewrite I in I'. injection I' as <-.
  assert (F : List.Forall (fun w => 0 < w) (global_weights i)).
  { rewrite GW. rewrite List.Forall_map. eapply List.Forall_impl; [|exact T4]. intros w Hw. cbv beta in *. apply Rmult_lt_0_compat; lra. }
  rewrite GP, map_length. split; [exact Lp|]. rewrite !nth_map_R by lia. rewrite T1, T2, !map_is.
  split; [field|]. split; [field|]. split; [|split; [exact F|]].
  - intros a b Hab. rewrite map_length in Hab. rewrite !nth_map_R by lia. rewrite !map_is. specialize (T3 a b Hab). nra.
  - intros f. unfold norm_1. rewrite !integrate_quad by (rewrite GP, GW, !map_length; lia). apply quad_abs, F.
Qed.
