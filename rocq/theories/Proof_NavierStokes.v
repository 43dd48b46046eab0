(** Proofs about the viscous fluxes of a gas. *)
From Coq Require Import Reals List Lra Psatz.
From Verif Require Import Vec3 Model_Diffusive Model_NavierStokes Spec_NavierStokes Spec_Diffusive.
From Verif Require Model_Euler Spec_Euler Proof_Euler.
Import Model_Euler(Tuple, mkTuple, mass, mX, mY, mZ, energy).
Import ListNotations.
Open Scope R_scope.

Lemma line0 x d : vadd x (vscale 0 d) = x.
Proof. apply vec_eq; cbn; ring. Qed.

Lemma slope_eq f x g g' : slope f x g -> g = g' -> slope f x g'.
Proof. intros H <-. exact H. Qed.

Lemma slope_ext f h x g : (forall y, f y = h y) -> slope f x g -> slope h x g.
Proof.
  intros E H d e He. destruct (H d e He) as [r K]. exists r. intros t Ht Hr. rewrite <- !E. apply K; assumption.
Qed.

Lemma slope_const c x : slope (fun _ => c) x v0.
Proof. intros d. replace (dot v0 d) with 0 by (unfold dot, v0; cbn; ring). apply derivable_pt_lim_const. Qed.

Lemma slope_plus f h x a b : slope f x a -> slope h x b -> slope (fun y => f y + h y) x (vadd a b).
Proof.
  intros A B d. replace (dot (vadd a b) d) with (dot a d + dot b d) by (unfold dot; cbn; ring).
  apply (derivable_pt_lim_plus (fun t => f (vadd x (vscale t d))) (fun t => h (vadd x (vscale t d)))); auto.
Qed.

Lemma slope_mult f h x a b : slope f x a -> slope h x b ->
  slope (fun y => f y * h y) x (vadd (vscale (h x) a) (vscale (f x) b)).
Proof.
  intros A B d.
  pose proof (derivable_pt_lim_mult (fun t => f (vadd x (vscale t d))) (fun t => h (vadd x (vscale t d))) 0 _ _ (A d) (B d)) as M.
  cbv beta in M. rewrite line0 in M.
  replace (dot (vadd (vscale (h x) a) (vscale (f x) b)) d) with (dot a d * h x + f x * dot b d) by (unfold dot; cbn; ring).
  exact M.
Qed.

Lemma slope_div f h x a b : slope f x a -> slope h x b -> h x <> 0 ->
  slope (fun y => f y / h y) x (vscale (/ (h x * h x)) (vsub (vscale (h x) a) (vscale (f x) b))).
Proof.
  intros A B N d.
  pose proof (derivable_pt_lim_div (fun t => f (vadd x (vscale t d))) (fun t => h (vadd x (vscale t d))) 0 _ _ (A d) (B d)) as M.
  cbv beta in M. rewrite line0 in M. specialize (M N).
  replace (dot (vscale (/ (h x * h x)) (vsub (vscale (h x) a) (vscale (f x) b))) d)
    with ((dot a d * h x - dot b d * f x) / Rsqr (h x)) by (unfold dot, Rsqr; cbn; field; exact N).
  exact M.
Qed.

Lemma slope_unique f x a b : slope f x a -> slope f x b -> a = b.
Proof.
  intros A B.
  pose proof (fun d => uniqueness_limite _ _ _ _ (A d) (B d)) as E.
  apply vec_eq.
  - specialize (E (V 1 0 0)). unfold dot in E. cbn in E. lra.
  - specialize (E (V 0 1 0)). unfold dot in E. cbn in E. lra.
  - specialize (E (V 0 0 1)). unfold dot in E. cbn in E. lra.
Qed.

Lemma pres_pressure gamma U x : U 0%nat x <> 0 -> Spec_Euler.pressure gamma (at_place U x) = pres gamma U x.
Proof.
  intros N. unfold Spec_Euler.pressure, pres, vel, at_place, Model_Euler.momentum. cbn. field. exact N.
Qed.

Section Gradients.
  Variables (gamma gas mu kappa : R) (U : fields) (x : vec) (dU : nat -> vec).
  Hypothesis G : 1 < gamma.
  Hypothesis GAS : gas <> 0.
  Hypothesis S : forall k, (k < 5)%nat -> slope (U k) x (dU k).
  Hypothesis M : 0 < U 0%nat x.
  Hypothesis P : 0 <= pres gamma U x.

  Let q := SetProperty gas mu kappa.
  Let pv := fst (ConservativeToPrimitive gamma q (at_place U x) dU).
  Let pg := snd (ConservativeToPrimitive gamma q (at_place U x) dU).

  Lemma values : pv = mkTuple (U 0%nat x) (vel U 0 x) [vel U 1 x; vel U 2 x] (pres gamma U x).
  Proof.
    unfold pv. cbn [fst ConservativeToPrimitive]. unfold ConservativeToPrimitive. cbn [fst].
    rewrite Proof_Euler.C2P_physical.
    - rewrite pres_pressure by lra. reflexivity.
    - exact G.
    - exact M.
    - pose proof (pres_pressure gamma U x ltac:(lra)) as E. unfold Spec_Euler.pressure in E.
      rewrite <- E in P. apply Rmult_le_reg_l with (gamma - 1); lra.
  Qed.

  Lemma vel_slope i : (i < 3)%nat ->
    slope (vel U i) x (vdiv (vsub (dU (Datatypes.S i)) (vscale (vel U i x) (dU 0%nat))) (U 0%nat x)).
  Proof.
    intros L. unfold vel. eapply slope_eq.
    - apply slope_div; [apply S; lia|apply S; lia|lra].
    - apply vec_eq; cbn; field; lra.
  Qed.

  Lemma grads_v i : (i < 3)%nat ->
    pg i = vdiv (vsub (dU (Datatypes.S i)) (vscale (vel U i x) (dU 0%nat))) (U 0%nat x).
  Proof.
    intros L. pose proof values as E. unfold pv in E. unfold pg. unfold ConservativeToPrimitive in *. cbn [fst snd] in *.
    rewrite E. cbn [mass mX mY mZ Model_Euler.mT energy nth]. unfold mY, mZ. cbn [Model_Euler.mT nth].
    destruct i as [|[|[|i]]]; [reflexivity|reflexivity|reflexivity|lia].
  Qed.

  Lemma velocity_gradients i : (i < 3)%nat -> slope (vel U i) x (pg i).
  Proof. intros L. rewrite grads_v by exact L. apply vel_slope. exact L. Qed.

  Lemma pressure_gradient : slope (pres gamma U) x (pg 3%nat).
  Proof.
    pose proof (vel_slope 0 ltac:(lia)) as H0. pose proof (vel_slope 1 ltac:(lia)) as H1.
    pose proof (vel_slope 2 ltac:(lia)) as H2.
    unfold pres.
    pose proof (slope_plus _ _ _ _ _ (slope_plus _ _ _ _ _ (slope_mult _ _ _ _ _ H0 H0) (slope_mult _ _ _ _ _ H1 H1)) (slope_mult _ _ _ _ _ H2 H2)) as K.
    pose proof (slope_mult _ _ _ _ _ (S 0%nat ltac:(lia)) K) as K1. cbv beta in K1.
    pose proof (slope_mult _ _ _ _ _ K1 (slope_const (-1 / 2) x)) as K2. cbv beta in K2.
    pose proof (slope_plus _ _ _ _ _ (S 4%nat ltac:(lia)) K2) as K3. cbv beta in K3.
    pose proof (slope_mult _ _ _ _ _ (slope_const (gamma - 1) x) K3) as K4. cbv beta in K4.
    eapply slope_ext; [|eapply slope_eq; [exact K4|]].
    - intros y. cbv beta. field.
    - unfold pg. pose proof values as E. unfold pv in E. unfold ConservativeToPrimitive in *. cbn [fst snd] in *.
      rewrite E. unfold mY, mZ. cbn [mass mX Model_Euler.mT energy nth at_place].
      unfold vel. apply vec_eq; cbn; field; lra.
  Qed.

  Lemma temperature_gradient : slope (temp gamma gas U) x (pg 4%nat).
  Proof.
    unfold temp.
    pose proof (slope_mult _ _ _ _ _ (S 0%nat ltac:(lia)) (slope_const gas x)) as K1. cbv beta in K1.
    pose proof (slope_div _ _ _ _ _ pressure_gradient K1) as K2. cbv beta in K2.
    eapply slope_eq; [apply K2; apply Rmult_integral_contrapositive; split; [lra|exact GAS]|].
    unfold pg. pose proof values as E. unfold pv in E. unfold ConservativeToPrimitive in *. cbn [fst snd] in *.
    rewrite E. unfold mY, mZ. cbn [mass mX Model_Euler.mT energy nth at_place].
    set (PP := vscale (gamma - 1) _). clearbody PP. unfold q, SetProperty. cbn [R_].
    set (pp := pres gamma U x). clearbody pp.
    apply vec_eq; cbn; field; lra.
  Qed.

  (** the flux through a face *)
  Lemma flux_normal n F : let F' := MinusViscousFluxNormal gamma q (at_place U x) dU n F in
    mass F' = mass F
    /\ velocity_of F' = vsub (velocity_of F) (traction mu pg n)
    /\ energy F' = energy F - (dot (V (vel U 0 x) (vel U 1 x) (vel U 2 x)) (traction mu pg n) + kappa * dot (pg 4%nat) n).
  Proof.
    unfold MinusViscousFluxNormal.
    rewrite (surjective_pairing (ConservativeToPrimitive gamma q (at_place U x) dU)).
    fold pv pg. rewrite values. cbv zeta. split; [reflexivity|].
    generalize pg as g. intros g. unfold GetViscousStressTensor, q, SetProperty, Dot, velocity_of, traction, mul3, mul3t, div3, dot.
    unfold mY, mZ. split.
    - apply vec_eq; cbn; field.
    - cbn. field.
  Qed.
End Gradients.

(** ** The matrix and the normal *)

Definition pick (a : nat) (n : vec) : R := match a with 0%nat => vx n | 1%nat => vy n | _ => vz n end.

Lemma dot_minus a k v F n j :
  dot (minus a k v F j) n = dot (F j) n - (if Nat.eqb j k then v * pick a n else 0).
Proof.
  unfold minus. destruct (Nat.eqb j k); [|ring]. unfold pick, dot. destruct a as [|[|a]]; cbn; ring.
Qed.

Lemma dot_vsub a b n : dot (vsub a b) n = dot a n - dot b n.
Proof. unfold dot. cbn. ring. Qed.

Lemma matrix_normal gamma q c g n F f k : (k < 5)%nat ->
  Spec_Euler.five f k - Spec_Euler.five (MinusViscousFluxNormal gamma q c g n f) k
  = dot (vsub (F k) (MinusViscousFluxMatrix 0 gamma q c g F k)) n.
Proof.
  intros L. unfold MinusViscousFluxNormal, MinusViscousFluxMatrix.
  destruct (ConservativeToPrimitive gamma q c g) as [pv pg].
  generalize (GetViscousStressTensor q pg) as tau; intros tau. cbv zeta. rewrite dot_vsub, !dot_minus.
  destruct k as [|[|[|[|[|k]]]]]; [| | | | |lia]; cbn [Nat.eqb pick Spec_Euler.five mass mX energy];
    unfold mY, mZ, Dot; cbn [Model_Euler.mT nth]; ring.
Qed.

(** ** The stress *)

Lemma stress_mul gas mu kappa g n : hess_mul (GetViscousStressTensor (SetProperty gas mu kappa) g) n = traction mu g n.
Proof. unfold traction, mul3, mul3t, div3, dot. apply vec_eq; cbn; field. Qed.

Lemma heating_squares mu g : heating mu g =
  mu * ((vy (g 0%nat) + vx (g 1%nat)) * (vy (g 0%nat) + vx (g 1%nat))
        + (vz (g 1%nat) + vy (g 2%nat)) * (vz (g 1%nat) + vy (g 2%nat))
        + (vx (g 2%nat) + vz (g 0%nat)) * (vx (g 2%nat) + vz (g 0%nat))
        + 2 / 3 * ((vx (g 0%nat) - vy (g 1%nat)) * (vx (g 0%nat) - vy (g 1%nat))
                   + (vy (g 1%nat) - vz (g 2%nat)) * (vy (g 1%nat) - vz (g 2%nat))
                   + (vz (g 2%nat) - vx (g 0%nat)) * (vz (g 2%nat) - vx (g 0%nat)))).
Proof. unfold heating, traction, mul3, mul3t, div3, dot. cbn. field. Qed.

Lemma sq_nonneg a : 0 <= a * a. Proof. nra. Qed.
Lemma sq_zero a : a * a = 0 -> a = 0. Proof. intros. nra. Qed.

Lemma heating_nonneg mu g : 0 <= mu -> 0 <= heating mu g.
Proof.
  intros M. rewrite heating_squares. apply Rmult_le_pos; [exact M|].
  pose proof (sq_nonneg (vy (g 0%nat) + vx (g 1%nat))).
  pose proof (sq_nonneg (vz (g 1%nat) + vy (g 2%nat))).
  pose proof (sq_nonneg (vx (g 2%nat) + vz (g 0%nat))).
  pose proof (sq_nonneg (vx (g 0%nat) - vy (g 1%nat))).
  pose proof (sq_nonneg (vy (g 1%nat) - vz (g 2%nat))).
  pose proof (sq_nonneg (vz (g 2%nat) - vx (g 0%nat))).
  lra.
Qed.

Lemma heating_zero mu g : 0 < mu -> (heating mu g = 0 <-> shearless g).
Proof.
  intros M. rewrite heating_squares. unfold shearless. split.
  - intros E. apply Rmult_integral in E. destruct E as [E|E]; [lra|].
    pose proof (sq_nonneg (vy (g 0%nat) + vx (g 1%nat))).
    pose proof (sq_nonneg (vz (g 1%nat) + vy (g 2%nat))).
    pose proof (sq_nonneg (vx (g 2%nat) + vz (g 0%nat))).
    pose proof (sq_nonneg (vx (g 0%nat) - vy (g 1%nat))).
    pose proof (sq_nonneg (vy (g 1%nat) - vz (g 2%nat))).
    pose proof (sq_nonneg (vz (g 2%nat) - vx (g 0%nat))).
    assert ((vy (g 0%nat) + vx (g 1%nat)) * (vy (g 0%nat) + vx (g 1%nat)) = 0) as A by lra.
    assert ((vz (g 1%nat) + vy (g 2%nat)) * (vz (g 1%nat) + vy (g 2%nat)) = 0) as B by lra.
    assert ((vx (g 2%nat) + vz (g 0%nat)) * (vx (g 2%nat) + vz (g 0%nat)) = 0) as C by lra.
    assert ((vx (g 0%nat) - vy (g 1%nat)) * (vx (g 0%nat) - vy (g 1%nat)) = 0) as D by lra.
    assert ((vy (g 1%nat) - vz (g 2%nat)) * (vy (g 1%nat) - vz (g 2%nat)) = 0) as D' by lra.
    apply sq_zero in A, B, C, D, D'. lra.
  - intros (A & B & C & D & E). rewrite A, B, C, D, E. ring.
Qed.

Lemma shearless_traction mu g n : shearless g -> traction mu g n = v0.
Proof.
  intros (A & B & C & D & E). destruct (g 0%nat) as [a1 a2 a3] eqn:E0, (g 1%nat) as [b1 b2 b3] eqn:E1, (g 2%nat) as [c1 c2 c3] eqn:E2.
  cbn in *. assert (b1 = - a2) as -> by lra. assert (c2 = - b3) as -> by lra. assert (c1 = - a3) as -> by lra. subst.
  unfold traction, mul3, mul3t, div3, dot. rewrite E0, E1, E2. apply vec_eq; cbn; field.
Qed.

(** ** Turning the axes *)

Lemma app_lin Q a b c (r : vec) :
  app Q (vadd (vscale (vx r) a) (vadd (vscale (vy r) b) (vscale (vz r) c)))
  = vadd (vscale (vx r) (app Q a)) (vadd (vscale (vy r) (app Q b)) (vscale (vz r) (app Q c))).
Proof. unfold app, dot. apply vec_eq; cbn; ring. Qed.

Lemma dot_app Q a b : orthogonal Q -> dot (app Q a) (app Q b) = dot a b.
Proof.
  intros O. transitivity (dot (back Q (app Q a)) b).
  - unfold back, app, dot. cbn. ring.
  - rewrite O. reflexivity.
Qed.

(** the gradients of turned vector components *)
Definition turned (Q : turn) (G : nat -> vec) : nat -> vec :=
  let comb r := app Q (vadd (vscale (vx r) (G 0%nat)) (vadd (vscale (vy r) (G 1%nat)) (vscale (vz r) (G 2%nat)))) in
  fun k => match k with 0%nat => comb (r1 Q) | 1%nat => comb (r2 Q) | _ => comb (r3 Q) end.

Lemma turned_div Q G : orthogonal Q -> div3 (turned Q G) = div3 G.
Proof.
  intros O. unfold div3, turned.
  pose proof (O (V 1 0 0)) as A. pose proof (O (V 0 1 0)) as B. pose proof (O (V 0 0 1)) as C.
  destruct Q as [[a1 a2 a3] [b1 b2 b3] [c1 c2 c3]]. unfold back, app, dot, vadd, vscale in *. cbn in *.
  destruct (G 0%nat) as [x1 x2 x3], (G 1%nat) as [y1 y2 y3], (G 2%nat) as [z1 z2 z3]. cbn.
  injection A as A1 A2 A3. injection B as B1 B2 B3. injection C as C1 C2 C3.
  match type of A1 with ?l = _ => set (q11 := l) in * end.
  match type of A2 with ?l = _ => set (q12 := l) in * end.
  match type of A3 with ?l = _ => set (q13 := l) in * end.
  match type of B1 with ?l = _ => set (q21 := l) in * end.
  match type of B2 with ?l = _ => set (q22 := l) in * end.
  match type of B3 with ?l = _ => set (q23 := l) in * end.
  match type of C1 with ?l = _ => set (q31 := l) in * end.
  match type of C2 with ?l = _ => set (q32 := l) in * end.
  match type of C3 with ?l = _ => set (q33 := l) in * end.
  transitivity (x1 * q11 + x2 * q12 + x3 * q13 + y1 * q21 + y2 * q22 + y3 * q23 + z1 * q31 + z2 * q32 + z3 * q33).
  - unfold q11, q12, q13, q21, q22, q23, q31, q32, q33. ring.
  - rewrite A1, A2, A3, B1, B2, B3, C1, C2, C3. ring.
Qed.

Lemma turned_mul3 Q G n : orthogonal Q -> mul3 (turned Q G) (app Q n) = app Q (mul3 G n).
Proof.
  intros O. unfold mul3, turned. rewrite !dot_app by exact O. unfold app, dot. apply vec_eq; cbn; ring.
Qed.

Lemma turned_mul3t Q G n : orthogonal Q -> mul3t (turned Q G) (app Q n) = app Q (mul3t G n).
Proof.
  intros O. transitivity (app Q (mul3t G (back Q (app Q n)))); [|rewrite O; reflexivity].
  generalize (app Q n) as m. intros m. unfold mul3t, turned, app, back, dot. apply vec_eq; cbn; ring.
Qed.

Lemma turned_traction Q mu G n : orthogonal Q -> traction mu (turned Q G) (app Q n) = app Q (traction mu G n).
Proof.
  intros O. unfold traction. rewrite turned_mul3, turned_mul3t, turned_div by exact O.
  generalize (mul3 G n), (mul3t G n), (div3 G). intros a b c. unfold app, dot. apply vec_eq; cbn; ring.
Qed.

(** the flux through a face, from the state *)
Lemma flux_normal_state gamma gas mu kappa c g n F :
  1 < gamma -> length (Model_Euler.mT c) = 2%nat -> 0 < mass c -> 0 <= Spec_Euler.pressure gamma c ->
  let q := SetProperty gas mu kappa in
  let pg := snd (ConservativeToPrimitive gamma q c g) in
  let F' := MinusViscousFluxNormal gamma q c g n F in
  mass F' = mass F
  /\ velocity_of F' = vsub (velocity_of F) (traction mu pg n)
  /\ energy F' = energy F - (dot (vscale (/ mass c) (velocity_of c)) (traction mu pg n) + kappa * dot (pg 4%nat) n).
Proof.
  intros G L M P. set (U := fun k (_ : vec) => Spec_Euler.five c k).
  assert (c = at_place U v0) as Ec.
  { destruct c as [c0 c1 ct ce]. cbn in L. destruct ct as [|c2 [|c3 [|]]]; try discriminate. reflexivity. }
  assert (0 < U 0%nat v0) as M' by exact M.
  assert (0 <= pres gamma U v0) as P' by (rewrite <- pres_pressure by lra; rewrite <- Ec; exact P).
  pose proof (flux_normal gamma gas mu kappa U v0 g G M' P' n F) as H. rewrite <- Ec in H.
  cbv zeta in *. destruct H as (A & B & C). split; [exact A|]. split; [exact B|]. rewrite C. f_equal. f_equal.
  f_equal. unfold vel, U, velocity_of. apply vec_eq; cbn; unfold Rdiv; ring.
Qed.

Lemma tuple3_ext s t : length (Model_Euler.mT s) = 2%nat -> length (Model_Euler.mT t) = 2%nat ->
  mass s = mass t -> velocity_of s = velocity_of t -> energy s = energy t -> s = t.
Proof.
  destruct s as [a b st e], t as [a' b' tt e']. cbn. intros L1 L2.
  destruct st as [|s2 [|s3 [|]]]; try discriminate. destruct tt as [|t2 [|t3 [|]]]; try discriminate.
  unfold velocity_of, mY, mZ. cbn. intros -> E ->. injection E as -> -> ->. reflexivity.
Qed.

Lemma turn_velocity Q t : velocity_of (turn_state Q t) = app Q (velocity_of t).
Proof. unfold turn_state, velocity_of, mY, mZ. apply vec_eq; reflexivity. Qed.

Lemma turn_pressure Q gamma c : orthogonal Q -> length (Model_Euler.mT c) = 2%nat ->
  Spec_Euler.pressure gamma (turn_state Q c) = Spec_Euler.pressure gamma c.
Proof.
  intros O L. unfold Spec_Euler.pressure. f_equal. f_equal. cbn [mass turn_state]. f_equal.
  transitivity (dot (velocity_of (turn_state Q c)) (velocity_of (turn_state Q c))).
  - unfold velocity_of, dot, mY, mZ, Model_Euler.momentum, turn_state. cbn. ring.
  - rewrite turn_velocity, dot_app by exact O. destruct c as [c0 c1 ct ce]. cbn in L.
    destruct ct as [|c2 [|c3 [|]]]; try discriminate. unfold velocity_of, dot, mY, mZ, Model_Euler.momentum. cbn. ring.
Qed.

Lemma primitive_state gamma c : 1 < gamma -> length (Model_Euler.mT c) = 2%nat -> 0 < mass c ->
  0 <= Spec_Euler.pressure gamma c ->
  Model_Euler.ConservativeToPrimitive gamma c =
  mkTuple (mass c) (mX c / mass c) [mY c / mass c; mZ c / mass c] (Spec_Euler.pressure gamma c).
Proof.
  intros G L M P. rewrite Proof_Euler.C2P_physical; [|exact G|exact M|].
  - destruct c as [c0 c1 ct ce]. cbn in L. destruct ct as [|c2 [|c3 [|]]]; try discriminate. reflexivity.
  - unfold Spec_Euler.pressure in P. apply Rmult_le_reg_l with (gamma - 1); lra.
Qed.

Lemma app_vdiv Q a c : app Q (vdiv a c) = vdiv (app Q a) c.
Proof. unfold app, dot, vdiv, Rdiv. apply vec_eq; cbn; ring. Qed.
Lemma app_vsub Q a b : app Q (vsub a b) = vsub (app Q a) (app Q b).
Proof. unfold app, dot. apply vec_eq; cbn; ring. Qed.
Lemma app_vadd Q a b : app Q (vadd a b) = vadd (app Q a) (app Q b).
Proof. unfold app, dot. apply vec_eq; cbn; ring. Qed.
Lemma app_vscale Q k a : app Q (vscale k a) = vscale k (app Q a).
Proof. unfold app, dot. apply vec_eq; cbn; ring. Qed.

Definition weighted (g : nat -> vec) (u : vec) : vec :=
  vadd (vscale (vx u) (g 1%nat)) (vadd (vscale (vy u) (g 2%nat)) (vscale (vz u) (g 3%nat))).

Lemma temperature_closed gamma gas mu kappa c g :
  1 < gamma -> length (Model_Euler.mT c) = 2%nat -> 0 < mass c -> 0 <= Spec_Euler.pressure gamma c ->
  let u := vscale (/ mass c) (velocity_of c) in
  snd (ConservativeToPrimitive gamma (SetProperty gas mu kappa) c g) 4%nat
  = vdiv (vsub (vdiv (vscale (gamma - 1) (vadd (vsub (g 4%nat) (weighted g u)) (vscale (dot u u / 2) (g 0%nat)))) (mass c))
               (vscale (Spec_Euler.pressure gamma c / (mass c * mass c)) (g 0%nat))) gas.
Proof.
  intros G L M P. cbv zeta. unfold ConservativeToPrimitive. rewrite primitive_state by assumption.
  set (p := Spec_Euler.pressure gamma c). clearbody p.
  unfold mY at 1 2 3, mZ at 1 2 3. cbn [snd mass mX energy Model_Euler.mT nth SetProperty R_].
  f_equal. f_equal. f_equal. f_equal.
  unfold weighted, velocity_of, vdiv, dot, mY, mZ, Rdiv. apply vec_eq; cbn; field; lra.
Qed.

Section Turn.
  Variables (gamma gas mu kappa : R) (Q : turn) (c : Tuple) (g : nat -> vec).
  Hypothesis G : 1 < gamma.
  Hypothesis O : orthogonal Q.
  Hypothesis L : length (Model_Euler.mT c) = 2%nat.
  Hypothesis M : 0 < mass c.
  Hypothesis P : 0 <= Spec_Euler.pressure gamma c.
  Let q := SetProperty gas mu kappa.
  Let pg := snd (ConservativeToPrimitive gamma q c g).
  Let pg' := snd (ConservativeToPrimitive gamma q (turn_state Q c) (turn_gradient Q g)).

  Lemma turn_prims : Model_Euler.ConservativeToPrimitive gamma (turn_state Q c) =
    mkTuple (mass c) (dot (r1 Q) (velocity_of c) / mass c)
      [dot (r2 Q) (velocity_of c) / mass c; dot (r3 Q) (velocity_of c) / mass c] (Spec_Euler.pressure gamma c).
  Proof.
    rewrite primitive_state; try assumption; try reflexivity.
    - rewrite turn_pressure by assumption. reflexivity.
    - rewrite turn_pressure by assumption. exact P.
  Qed.

  Lemma turn_velocity_gradients k : (k < 3)%nat -> pg' k = turned Q pg k.
  Proof.
    intros K. unfold pg', pg, ConservativeToPrimitive. rewrite turn_prims, primitive_state by assumption.
    unfold mY, mZ. cbn [snd mass mX energy Model_Euler.mT nth turn_gradient].
    unfold turned. destruct k as [|[|[|k]]]; [| | |lia]; cbv iota; unfold velocity_of, vdiv, app, dot, Rdiv, mY, mZ; apply vec_eq; cbn; ring.
  Qed.

  Lemma turn_temperature : pg' 4%nat = app Q (pg 4%nat).
  Proof.
    unfold pg', pg, q.
    rewrite temperature_closed; try assumption; try reflexivity.
    2: rewrite turn_pressure by assumption; exact P.
    rewrite temperature_closed by assumption.
    rewrite turn_pressure by assumption. rewrite turn_velocity.
    replace (vscale (/ mass (turn_state Q c)) (app Q (velocity_of c))) with (app Q (vscale (/ mass c) (velocity_of c)))
      by apply app_vscale.
    rewrite (dot_app Q _ _ O).
    change (mass (turn_state Q c)) with (mass c).
    generalize (vscale (/ mass c) (velocity_of c)) as u. intros u.
    rewrite app_vdiv, app_vsub, app_vdiv, !app_vscale, app_vadd, app_vsub, app_vscale.
    change (turn_gradient Q g 4%nat) with (app Q (g 4%nat)). change (turn_gradient Q g 0%nat) with (app Q (g 0%nat)).
    do 6 f_equal.
    transitivity (app Q (weighted g (back Q (app Q u)))); [|rewrite O; reflexivity].
    generalize (app Q u) as m. intros m. unfold weighted, turn_gradient, app, back, dot. apply vec_eq; cbn; ring.
  Qed.

  Lemma turn_flux n f : length (Model_Euler.mT f) = 2%nat ->
    MinusViscousFluxNormal gamma q (turn_state Q c) (turn_gradient Q g) (app Q n) (turn_state Q f)
    = turn_state Q (MinusViscousFluxNormal gamma q c g n f).
  Proof.
    intros Lf.
    assert (0 <= Spec_Euler.pressure gamma (turn_state Q c)) as P' by (rewrite turn_pressure by assumption; exact P).
    pose proof (flux_normal_state gamma gas mu kappa (turn_state Q c) (turn_gradient Q g) (app Q n) (turn_state Q f) G eq_refl M P') as (A & B & C).
    pose proof (flux_normal_state gamma gas mu kappa c g n f G L M P) as (A' & B' & C').
    fold q in A, B, C, A', B', C'. fold pg in B', C'. fold pg' in B, C.
    assert (traction mu pg' (app Q n) = app Q (traction mu pg n)) as T.
    { rewrite <- turned_traction by exact O. unfold traction, mul3, mul3t, div3.
      rewrite !turn_velocity_gradients by lia. reflexivity. }
    rewrite T in B, C. rewrite turn_temperature, (dot_app Q _ _ O) in C.
    change (mass (turn_state Q c)) with (mass c) in C. rewrite turn_velocity, <- app_vscale, (dot_app Q _ _ O) in C.
    rewrite turn_velocity in B.
    apply tuple3_ext.
    - unfold MinusViscousFluxNormal. destruct (ConservativeToPrimitive _ _ _ _). reflexivity.
    - reflexivity.
    - rewrite A. cbn [mass turn_state]. symmetry. exact A'.
    - rewrite B, turn_velocity, B', app_vsub. reflexivity.
    - rewrite C. cbn [energy turn_state]. rewrite C'. reflexivity.
  Qed.
End Turn.

(** ** A moving observer *)

Definition boost_gradient (b : vec) (U : fields) (x : vec) (dU : nat -> vec) : nat -> vec := fun k =>
  match k with
  | 0%nat => dU 0%nat
  | 1%nat => vadd (dU 1%nat) (vscale (vx b) (dU 0%nat))
  | 2%nat => vadd (dU 2%nat) (vscale (vy b) (dU 0%nat))
  | 3%nat => vadd (dU 3%nat) (vscale (vz b) (dU 0%nat))
  | _ => vadd (vadd (dU 4%nat) (weighted dU b)) (vscale (dot b b / 2) (dU 0%nat))
  end.

Lemma slope_scale c f x a : slope f x a -> slope (fun y => f y * c) x (vscale c a).
Proof.
  intros A. eapply slope_eq; [apply (slope_mult f (fun _ => c) x a v0 A (slope_const c x))|].
  apply vec_eq; cbn; ring.
Qed.

Lemma boost_slopes b U x dU : (forall k, (k < 5)%nat -> slope (U k) x (dU k)) ->
  forall k, (k < 5)%nat -> slope (boost_field b U k) x (boost_gradient b U x dU k).
Proof.
  intros H k K. pose proof (H 0%nat ltac:(lia)) as H0. pose proof (H 1%nat ltac:(lia)) as H1.
  pose proof (H 2%nat ltac:(lia)) as H2. pose proof (H 3%nat ltac:(lia)) as H3. pose proof (H 4%nat ltac:(lia)) as H4.
  destruct k as [|[|[|[|[|k]]]]]; [| | | | |lia]; unfold boost_field, boost_gradient; cbv iota.
  - exact H0.
  - apply slope_plus; [exact H1|apply slope_scale; exact H0].
  - apply slope_plus; [exact H2|apply slope_scale; exact H0].
  - apply slope_plus; [exact H3|apply slope_scale; exact H0].
  - apply slope_plus.
    + apply slope_plus; [exact H4|].
      eapply slope_eq; [apply slope_plus; [apply slope_plus|]; apply slope_scale; [exact H1|exact H2|exact H3]|].
      unfold weighted. apply vec_eq; cbn; ring.
    + eapply slope_ext; [|apply slope_scale; exact H0]. intros y. cbv beta. field.
Qed.

Section Boost.
  Variables (gamma gas mu kappa : R) (b : vec) (U : fields) (x : vec) (dU dU' : nat -> vec).
  Hypothesis G : 1 < gamma.
  Hypothesis S : forall k, (k < 5)%nat -> slope (U k) x (dU k).
  Hypothesis S' : forall k, (k < 5)%nat -> slope (boost_field b U k) x (dU' k).
  Hypothesis M : 0 < U 0%nat x.
  Hypothesis P : 0 <= pres gamma U x.
  Let q := SetProperty gas mu kappa.
  Let pg := snd (ConservativeToPrimitive gamma q (at_place U x) dU).
  Let pg' := snd (ConservativeToPrimitive gamma q (at_place (boost_field b U) x) dU').

  Lemma boost_unique k : (k < 5)%nat -> dU' k = boost_gradient b U x dU k.
  Proof. intros K. eapply slope_unique; [apply S'; exact K|apply boost_slopes; [exact S|exact K]]. Qed.

  Lemma boost_pres : pres gamma (boost_field b U) x = pres gamma U x.
  Proof. unfold pres, vel, boost_field, dot. field. lra. Qed.

  Lemma boost_grads i : (i < 3)%nat -> pg' i = pg i.
  Proof.
    intros K. unfold pg, pg', q.
    rewrite (grads_v gamma gas mu kappa U x dU G M P i K).
    rewrite (grads_v gamma gas mu kappa (boost_field b U) x dU' G M ltac:(rewrite boost_pres; exact P) i K).
    rewrite !boost_unique by lia. unfold vel.
    destruct i as [|[|[|i]]]; [| | |lia]; unfold boost_field, boost_gradient, vdiv; apply vec_eq; cbn; field; lra.
  Qed.

  Lemma boost_temperature : pg' 4%nat = pg 4%nat.
  Proof.
    unfold pg, pg', q.
    assert (0 <= Spec_Euler.pressure gamma (at_place U x)) as P1 by (rewrite pres_pressure by lra; exact P).
    assert (Spec_Euler.pressure gamma (at_place (boost_field b U) x) = Spec_Euler.pressure gamma (at_place U x)) as E.
    { rewrite !pres_pressure by (cbn; lra). apply boost_pres. }
    rewrite !temperature_closed; try assumption; try reflexivity; [|rewrite E; exact P1].
    rewrite E. cbn [mass at_place].
    change (boost_field b U 0%nat x) with (U 0%nat x).
    rewrite (boost_unique 0) by lia. change (boost_gradient b U x dU 0%nat) with (dU 0%nat).
    do 4 f_equal.
    unfold weighted. rewrite !boost_unique by lia. unfold boost_gradient, weighted, velocity_of, mY, mZ, dot.
    apply vec_eq; cbn; field; lra.
  Qed.

  Lemma boost_flux n F :
    let f := MinusViscousFluxNormal gamma q (at_place U x) dU n F in
    let f' := MinusViscousFluxNormal gamma q (at_place (boost_field b U) x) dU' n F in
    mass f' = mass f /\ velocity_of f' = velocity_of f
    /\ energy f' = energy f - dot b (vsub (velocity_of F) (velocity_of f)).
  Proof.
    pose proof (flux_normal gamma gas mu kappa U x dU G M P n F) as (A & B & C).
    pose proof (flux_normal gamma gas mu kappa (boost_field b U) x dU' G M ltac:(rewrite boost_pres; exact P) n F) as (A' & B' & C').
    fold q in A, B, C, A', B', C'. fold pg in B, C. fold pg' in B', C'. cbv zeta.
    assert (traction mu pg' n = traction mu pg n) as T.
    { unfold traction, mul3, mul3t, div3. rewrite !boost_grads by lia. reflexivity. }
    rewrite T in B', C'. rewrite boost_temperature in C'.
    split; [rewrite A, A'; reflexivity|]. split; [rewrite B, B'; reflexivity|].
    rewrite C, C', B. generalize (traction mu pg n) as t. intros t. generalize (pg 4%nat) as h. intros h.
    unfold vel, boost_field, dot. cbn. field. lra.
  Qed.
End Boost.
