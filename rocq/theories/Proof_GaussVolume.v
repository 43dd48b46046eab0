(** The rules on hexahedra: the integrals of polynomials over curved cells. *)
From Coq Require Import Reals QArith Qreals List Arith Lia Lra Bool.
From Coquelicot Require Import Coquelicot.
From Verif Require Import RSum Vec3 Model_Shapes Model_Geometry Model_Projection PolyQ Proof_Shapes Proof_Geometry Proof_Maps
  Spec_Gauss Proof_Integral Model_Gauss Proof_Gauss.
Import ListNotations.
Open Scope R_scope.

(** ** polynomials of bounded degrees in the three variables *)
Inductive polyn (dx dy dz : nat) : (R -> R -> R -> R) -> Prop :=
| pn_mono i j k : (i <= dx)%nat -> (j <= dy)%nat -> (k <= dz)%nat -> polyn dx dy dz (fun x y z => x ^ i * y ^ j * z ^ k)
| pn_zero : polyn dx dy dz (fun _ _ _ => 0)
| pn_add f g : polyn dx dy dz f -> polyn dx dy dz g -> polyn dx dy dz (fun x y z => f x y z + g x y z)
| pn_scal c f : polyn dx dy dz f -> polyn dx dy dz (fun x y z => c * f x y z)
| pn_ext f g : (forall x y z, f x y z = g x y z) -> polyn dx dy dz f -> polyn dx dy dz g.

Lemma pn_le dx dy dz ex ey ez f : (dx <= ex)%nat -> (dy <= ey)%nat -> (dz <= ez)%nat -> polyn dx dy dz f -> polyn ex ey ez f.
Proof.
  intros X Y Z H. induction H; [apply pn_mono; lia|apply pn_zero|apply pn_add; auto|apply pn_scal; auto|eapply pn_ext; eauto].
Qed.
Lemma pn_mul dx dy dz ex ey ez f g : polyn dx dy dz f -> polyn ex ey ez g ->
  polyn (dx + ex) (dy + ey) (dz + ez) (fun x y z => f x y z * g x y z).
Proof.
  intros F G. induction F as [i j k Hi Hj Hk| |f1 f2 F1 I1 F2 I2|c f1 F1 I1|f1 f2 E F1 I1].
  - induction G as [i' j' k' Hi' Hj' Hk'| |g1 g2 G1 J1 G2 J2|c g1 G1 J1|g1 g2 E G1 J1].
    + apply (pn_ext _ _ _ (fun x y z => x ^ (i + i') * y ^ (j + j') * z ^ (k + k'))); [intros; rewrite !pow_add; ring|apply pn_mono; lia].
    + apply (pn_ext _ _ _ (fun _ _ _ => 0)); [intros; ring|apply pn_zero].
    + eapply pn_ext; [|apply pn_add; [apply J1|apply J2]]. intros; cbv beta; ring.
    + eapply pn_ext; [|apply pn_scal, J1]. intros x y z; cbv beta. instantiate (1 := c). ring.
    + eapply pn_ext; [|apply J1]. intros; cbv beta. rewrite E. ring.
  - apply (pn_ext _ _ _ (fun _ _ _ => 0)); [intros; ring|apply pn_zero].
  - eapply pn_ext; [|apply pn_add; [apply I1|apply I2]]. intros; cbv beta; ring.
  - eapply pn_ext; [|apply pn_scal, I1]. intros x y z; cbv beta. instantiate (1 := c). ring.
  - eapply pn_ext; [|apply I1]. intros; cbv beta. rewrite E. ring.
Qed.
Lemma pn_const dx dy dz c : polyn dx dy dz (fun _ _ _ => c).
Proof. apply (pn_ext _ _ _ (fun x y z => c * (x ^ 0 * y ^ 0 * z ^ 0))); [intros; cbn [pow]; ring|]. apply pn_scal, pn_mono; lia. Qed.
Lemma pn_opp dx dy dz f : polyn dx dy dz f -> polyn dx dy dz (fun x y z => - f x y z).
Proof. intros H. apply (pn_ext _ _ _ (fun x y z => -1 * f x y z)); [intros; ring|apply pn_scal, H]. Qed.
Lemma pn_sub dx dy dz f g : polyn dx dy dz f -> polyn dx dy dz g -> polyn dx dy dz (fun x y z => f x y z - g x y z).
Proof. intros F G. apply (pn_ext _ _ _ (fun x y z => f x y z + - g x y z)); [intros; ring|apply pn_add; [auto|apply pn_opp, G]]. Qed.
Lemma pn_rsum dx dy dz n f : (forall i, (i < n)%nat -> polyn dx dy dz (f i)) -> polyn dx dy dz (fun x y z => rsum n (fun i => f i x y z)).
Proof. induction n; intros H; cbn [rsum]; [apply pn_zero|]. apply pn_add; [apply IHn; intros; apply H; lia|apply H; lia]. Qed.
Lemma pn_pow d f n : polyn d d d f -> polyn (n * d) (n * d) (n * d) (fun x y z => f x y z ^ n).
Proof. intros H. induction n; cbn [pow Nat.mul]; [apply pn_const|apply pn_mul; auto]. Qed.

(** rules of enough degree are exact *)
Lemma polyn_exact px py pz wx wy wz dx dy dz f : has_moments px wx dx -> has_moments py wy dy -> has_moments pz wz dz ->
  polyn dx dy dz f ->
  over_cube f (quad (fun p => f (vx p) (vy p) (vz p)) (Hexahedron_coords px py pz) (Hexahedron_weights wx wy wz)).
Proof.
  intros [Lx Hx] [Ly Hy] [Lz Hz] H. induction H as [i j k Hi Hj Hk| |f g F IF G IG|c f F IF|f g E F IF].
  - rewrite quad_mono3, Hx, Hy, Hz by auto. apply cube_monomial.
  - eapply integral3_val; [apply integral3_zero|]. rewrite (quad_ext _ (fun p => 0 * 1)) by (intros; ring). rewrite quad_mul. ring.
  - eapply integral3_val; [apply integral3_add; [apply IF|apply IG]|]. symmetry. apply quad_add.
  - eapply integral3_val; [apply integral3_mul, IF|]. symmetry. apply quad_mul.
  - destruct IF as [h [Hh Hi]]. exists h. split.
    + intros x y. eapply is_RInt_fun; [|apply Hh]. intros z. apply E.
    + eapply integral2_val; [exact Hi|]. apply quad_ext. intros p. apply E.
Qed.

(** ** the degrees of the shape functions and of their gradients *)
Definition degrees_le (dx dy dz : nat) (e : pexp) : bool :=
  forallb (fun m : mono => let '(i, j, k, _) := m in ((i <=? dx) && (j <=? dy) && (k <=? dz))%nat%bool) (norm e).
Lemma degrees_polyn dx dy dz e : degrees_le dx dy dz e = true -> polyn dx dy dz (fun x y z => ev x y z e).
Proof.
  intros H. apply (pn_ext _ _ _ (fun x y z => pev x y z (norm e))); [intros; apply norm_ev|].
  unfold degrees_le in H. induction (norm e) as [|[[[i j] k] q] p IH]; cbn [pev]; [apply pn_zero|].
  cbn [forallb] in H. apply andb_prop in H as [H1 H2]. apply andb_prop in H1 as [H1 H3]. apply andb_prop in H1 as [H1 H4].
  apply Nat.leb_le in H1, H3, H4. apply pn_add; [|apply IH, H2]. cbn [mev]. apply pn_scal, pn_mono; auto.
Qed.
(** the degree of the shape functions in each variable *)
Definition order (e : Element) : nat := match nodes_n e with 8%nat => 1%nat | _ => 2%nat end.
Definition bricks : list Element := [Hexahedron8; Hexahedron20; Hexahedron26; Hexahedron27].
Definition check_degrees (e : Element) : bool :=
  let m := order e in
  (forallb (degrees_le m m m) (sE e)
   && forallb (fun g => degrees_le (m - 1) m m (nth 0 g (EC 0)) && degrees_le m (m - 1) m (nth 1 g (EC 0))
                        && degrees_le m m (m - 1) (nth 2 g (EC 0))) (gE e))%bool.
Lemma all_degrees : forallb check_degrees bricks = true.
Proof. vm_cast_no_check (eq_refl true). Qed.
Lemma bricks_elements e : In e bricks -> In e elements.
Proof. intros H. each H ltac:(cbn; tauto). Qed.

Lemma sE_length e : In e elements -> length (sE e) = nodes_n e.
Proof. intros H. each H ltac:(reflexivity). Qed.
Lemma gE_length e : In e elements -> length (gE e) = nodes_n e.
Proof. intros H. each H ltac:(reflexivity). Qed.

Section Cell.
Variable e : Element.
Hypothesis He : In e bricks.
Variable nodes : list vec.
Hypothesis Hn : built e nodes.
Let m := order e.

Lemma Hdeg : check_degrees e = true.
Proof. pose proof all_degrees as H. rewrite forallb_forall in H. apply H, He. Qed.

Lemma coordinate_polyn (p : vec -> R) : (forall a b, p (vadd a b) = p a + p b) -> (forall c a, p (vscale c a) = c * p a) -> p v0 = 0 ->
  polyn m m m (fun x y z => p (LocalToGlobal e nodes x y z)).
Proof.
  intros A B C. pose proof (bricks_elements e He) as E.
  apply (pn_ext _ _ _ (fun x y z => rsum (nodes_n e) (fun i => p (nth i nodes v0) * ev x y z (nth i (sE e) (EC 0))))).
  - intros x y z. unfold LocalToGlobal. rewrite (weighted_coord p A B C (nodes_n e)); [|exact Hn|].
    + apply rsum_ext. intros i Hi. rewrite <- (all_shapes_match e E), nth_ev. reflexivity.
    + rewrite <- (all_shapes_match e E), map_length. apply sE_length, E.
  - apply pn_rsum. intros i Hi. apply pn_scal, degrees_polyn. pose proof Hdeg as H. unfold check_degrees in H.
    apply andb_prop in H as [H _]. apply (forallb_nth _ _ i (EC 0)) in H; [exact H|]. rewrite sE_length; auto.
Qed.
Lemma jacobian_polyn a (p : vec -> R) dx dy dz : (forall a b, p (vadd a b) = p a + p b) -> (forall c a, p (vscale c a) = c * p a) -> p v0 = 0 ->
  forallb (fun g => degrees_le dx dy dz (nth a g (EC 0))) (gE e) = true ->
  polyn dx dy dz (fun x y z => p (LocalToJacobian e nodes x y z a)).
Proof.
  intros A B C H. pose proof (bricks_elements e He) as E.
  apply (pn_ext _ _ _ (fun x y z => rsum (nodes_n e) (fun i => p (nth i nodes v0) * ev x y z (nth a (nth i (gE e) []) (EC 0))))).
  - intros x y z. unfold LocalToJacobian. rewrite <- (all_gradients_match e E).
    rewrite (weighted_coord p A B C (nodes_n e)); [|exact Hn|unfold column; rewrite !map_length; apply gE_length, E].
    apply rsum_ext. intros i Hi. rewrite nth_column by (rewrite map_length, gE_length; auto). rewrite nth_map2. reflexivity.
  - apply pn_rsum. intros i Hi. apply pn_scal, degrees_polyn.
    apply (forallb_nth _ _ i []) in H; [exact H|]. rewrite gE_length; auto.
Qed.
Lemma grads_degrees : forallb (fun g => degrees_le (m - 1) m m (nth 0 g (EC 0))) (gE e) = true
  /\ forallb (fun g => degrees_le m (m - 1) m (nth 1 g (EC 0))) (gE e) = true
  /\ forallb (fun g => degrees_le m m (m - 1) (nth 2 g (EC 0))) (gE e) = true.
Proof.
  pose proof Hdeg as H. unfold check_degrees in H. apply andb_prop in H as [_ H]. fold m in H. rewrite forallb_forall in H.
  split; [|split]; apply forallb_forall; intros g G; specialize (H g G); apply andb_prop in H as [H H2]; apply andb_prop in H as [H0 H1]; auto.
Qed.
Lemma order_cases : m = 1%nat \/ m = 2%nat.
Proof. unfold m, order. destruct (nodes_n e) as [|[|[|[|[|[|[|[|[|n]]]]]]]]]; auto. Qed.

Definition volume_form (x y z : R) : R := mdet (rows (LocalToJacobian e nodes x y z)).
Lemma volume_form_polyn : polyn (3 * m - 1) (3 * m - 1) (3 * m - 1) volume_form.
Proof.
  destruct grads_degrees as (G0 & G1 & G2).
  assert (forall p q r : vec -> R,
    ((forall a b, p (vadd a b) = p a + p b) /\ (forall c a, p (vscale c a) = c * p a) /\ p v0 = 0) ->
    ((forall a b, q (vadd a b) = q a + q b) /\ (forall c a, q (vscale c a) = c * q a) /\ q v0 = 0) ->
    ((forall a b, r (vadd a b) = r a + r b) /\ (forall c a, r (vscale c a) = c * r a) /\ r v0 = 0) ->
    polyn (3 * m - 1) (3 * m - 1) (3 * m - 1)
      (fun x y z => p (LocalToJacobian e nodes x y z 0) * (q (LocalToJacobian e nodes x y z 1) * r (LocalToJacobian e nodes x y z 2)))) as T.
  { intros p q r (P1 & P2 & P3) (Q1 & Q2 & Q3) (R1 & R2 & R3).
    pose proof (jacobian_polyn 0 p _ _ _ P1 P2 P3 G0) as J0. pose proof (jacobian_polyn 1 q _ _ _ Q1 Q2 Q3 G1) as J1.
    pose proof (jacobian_polyn 2 r _ _ _ R1 R2 R3 G2) as J2.
    eapply pn_le; [..|exact (pn_mul _ _ _ _ _ _ _ _ J0 (pn_mul _ _ _ _ _ _ _ _ J1 J2))]; destruct order_cases as [-> | ->]; cbn; lia. }
  assert (forall a b, vx (vadd a b) = vx a + vx b) as X1 by reflexivity. assert (forall c a, vx (vscale c a) = c * vx a) as X2 by reflexivity.
  assert (forall a b, vy (vadd a b) = vy a + vy b) as Y1 by reflexivity. assert (forall c a, vy (vscale c a) = c * vy a) as Y2 by reflexivity.
  assert (forall a b, vz (vadd a b) = vz a + vz b) as Z1 by reflexivity. assert (forall c a, vz (vscale c a) = c * vz a) as Z2 by reflexivity.
  pose proof (conj X1 (conj X2 (eq_refl : vx v0 = 0))) as X. pose proof (conj Y1 (conj Y2 (eq_refl : vy v0 = 0))) as Y.
  pose proof (conj Z1 (conj Z2 (eq_refl : vz v0 = 0))) as Z.
  eapply pn_ext; [|apply pn_sub; [apply pn_add; [apply pn_add; [exact (T vx vy vz X Y Z)|exact (T vy vz vx Y Z X)]|exact (T vz vx vy Z X Y)]|
    apply pn_add; [apply pn_add; [exact (T vx vz vy X Z Y)|exact (T vy vx vz Y X Z)]|exact (T vz vy vx Z Y X)]]].
  intros x y z. cbv beta. unfold volume_form, mdet, rows, det3, dot, cross. cbn [r0 r1 r2 vx vy vz]. ring.
Qed.

Lemma compose_polyn p c : polyn (p * m) (p * m) (p * m)
  (fun x y z => let g := LocalToGlobal e nodes x y z in total3 p c (vx g) (vy g) (vz g)).
Proof.
  cbv zeta. unfold total3. apply (pn_rsum _ _ _ (S p) (fun i x y z => rsum (S (p - i)) (fun j => rsum (S (p - i - j)) (fun k =>
    c i j k * (vx (LocalToGlobal e nodes x y z) ^ i * vy (LocalToGlobal e nodes x y z) ^ j * vz (LocalToGlobal e nodes x y z) ^ k))))).
  intros i Hi. apply (pn_rsum _ _ _ (S (p - i)) (fun j x y z => rsum (S (p - i - j)) (fun k =>
    c i j k * (vx (LocalToGlobal e nodes x y z) ^ i * vy (LocalToGlobal e nodes x y z) ^ j * vz (LocalToGlobal e nodes x y z) ^ k)))).
  intros j Hj. apply (pn_rsum _ _ _ (S (p - i - j)) (fun k x y z =>
    c i j k * (vx (LocalToGlobal e nodes x y z) ^ i * vy (LocalToGlobal e nodes x y z) ^ j * vz (LocalToGlobal e nodes x y z) ^ k))).
  intros k Hk. apply pn_scal.
  eapply pn_le; [..|apply pn_mul; [apply pn_mul|]; apply pn_pow; apply coordinate_polyn; reflexivity]; nia.
Qed.

(** the points and the weights that are built *)
Lemma Integrate_built f det cs : forall ws,
  Integrate f (BuildQuadraturePoints e nodes det cs ws)
  = quad (fun l => f (LocalToGlobal e nodes (vx l) (vy l) (vz l)) * det (LocalToJacobian e nodes (vx l) (vy l) (vz l))) cs ws.
Proof.
  unfold Integrate, BuildQuadraturePoints.
  assert (forall s cs ws, fold_left (fun sum p => sum + f (snd p) * fst p)
    (map (fun cw => (snd cw * det (LocalToJacobian e nodes (vx (fst cw)) (vy (fst cw)) (vz (fst cw))),
                  LocalToGlobal e nodes (vx (fst cw)) (vy (fst cw)) (vz (fst cw)))) (combine cs ws)) s
    = s + quad (fun l => f (LocalToGlobal e nodes (vx l) (vy l) (vz l)) * det (LocalToJacobian e nodes (vx l) (vy l) (vz l))) cs ws) as K.
  { intros s l. revert s. induction l as [|c l IH]; intros s [|w ws]; cbn [combine map fold_left quad]; try ring.
    rewrite IH. cbn [fst snd]. ring. }
  intros ws. rewrite K. ring.
Qed.
Lemma sum_Integrate g : quadrature_sum g = Integrate (fun _ => 1) g.
Proof.
  unfold quadrature_sum, Integrate. generalize 0. induction g as [|p g IH]; intros s; cbn [fold_left]; auto. rewrite IH. f_equal. ring.
Qed.
Lemma quad_ext_in {A} (f g : A -> R) cs : (forall c, In c cs -> f c = g c) -> forall ws, quad f cs ws = quad g cs ws.
Proof. induction cs as [|c cs IH]; intros H [|w ws]; cbn [quad]; auto. rewrite IH, (H c) by (try (intros; apply H); cbn; auto). reflexivity. Qed.

Theorem integral_over_cell px py pz wx wy wz dx dy dz p c :
  has_moments px wx dx -> has_moments py wy dy -> has_moments pz wz dz ->
  (p * m + (3 * m - 1) <= dx)%nat -> (p * m + (3 * m - 1) <= dy)%nat -> (p * m + (3 * m - 1) <= dz)%nat ->
  (forall l, In l (Hexahedron_coords px py pz) -> 0 <= volume_form (vx l) (vy l) (vz l)) ->
  over_cube (fun x y z => (let g := LocalToGlobal e nodes x y z in total3 p c (vx g) (vy g) (vz g)) * volume_form x y z)
    (Integrate (fun g => total3 p c (vx g) (vy g) (vz g))
      (BuildQuadraturePoints e nodes cell_det (Hexahedron_coords px py pz) (Hexahedron_weights wx wy wz))).
Proof.
  intros Hx Hy Hz Dx Dy Dz O. rewrite Integrate_built.
  eapply integral3_val; [apply (polyn_exact px py pz wx wy wz dx dy dz); auto|].
  - eapply pn_le; [..|apply pn_mul; [apply compose_polyn|apply volume_form_polyn]]; auto.
  - cbv zeta. apply quad_ext_in. intros l L. f_equal. unfold cell_det, volume_form. symmetry. apply Rabs_pos_eq, O, L.
Qed.
Theorem volume_of_cell px py pz wx wy wz dx dy dz :
  has_moments px wx dx -> has_moments py wy dy -> has_moments pz wz dz ->
  (3 * m - 1 <= dx)%nat -> (3 * m - 1 <= dy)%nat -> (3 * m - 1 <= dz)%nat ->
  (forall l, In l (Hexahedron_coords px py pz) -> 0 <= volume_form (vx l) (vy l) (vz l)) ->
  over_cube volume_form
    (quadrature_sum (BuildQuadraturePoints e nodes cell_det (Hexahedron_coords px py pz) (Hexahedron_weights wx wy wz))).
Proof.
  intros Hx Hy Hz Dx Dy Dz O. rewrite sum_Integrate, Integrate_built.
  eapply integral3_val; [apply (polyn_exact px py pz wx wy wz dx dy dz); auto|].
  - eapply pn_le; [..|apply volume_form_polyn]; auto.
  - apply quad_ext_in. intros l L. unfold cell_det, volume_form. rewrite Rmult_1_l. symmetry. apply Rabs_pos_eq, O, L.
Qed.
End Cell.

(** ** cells with rational nodes: the Jacobian as expressions *)
Fixpoint weightedE (f : Local -> Q) (nodes : list Local) (ws : list pexp) : pexp :=
  match nodes, ws with
  | p :: nodes, w :: ws => EAdd (EMul w (EC (f p))) (weightedE f nodes ws)
  | _, _ => EC 0
  end.
Lemma weightedE_ok x y z nodes : forall ws, weighted (map vecQ nodes) (map (ev x y z) ws)
  = V (ev x y z (weightedE lX nodes ws)) (ev x y z (weightedE lY nodes ws)) (ev x y z (weightedE lZ nodes ws)).
Proof.
  induction nodes as [|p nodes IH]; intros [|w ws]; cbn [weighted weightedE map ev]; rewrite ?Q2R_0; try reflexivity.
  rewrite IH. apply vec_eq; unfold vadd, vscale, vecQ; cbn [vx vy vz]; reflexivity.
Qed.
Definition columnE (e : Element) (a : nat) : list pexp := map (fun r => nth a r (EC 0)) (gE e).
Lemma jacobianE_ok e nodes x y z a : In e elements -> LocalToJacobian e (map vecQ nodes) x y z a
  = V (ev x y z (weightedE lX nodes (columnE e a))) (ev x y z (weightedE lY nodes (columnE e a))) (ev x y z (weightedE lZ nodes (columnE e a))).
Proof.
  intros He. unfold LocalToJacobian. rewrite <- (all_gradients_match e He), <- weightedE_ok. f_equal.
  unfold column, columnE. rewrite !map_map. apply map_ext. intros r. apply nth_ev.
Qed.
