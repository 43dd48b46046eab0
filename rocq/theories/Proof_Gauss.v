(** The rules of Gauss-Legendre and Gauss-Lobatto and their products. *)
From Coq Require Import Reals QArith Qreals List Lia Lra.
From Coquelicot Require Import Coquelicot.
From Verif Require Import RSum Vec3 Spec_Gauss Proof_Integral Model_Gauss.
Import ListNotations.
Open Scope R_scope.

(** ** [Quadrature] is linear in the integrand *)
Fixpoint quad {A} (f : A -> R) (xs : list A) (ws : list R) : R :=
  match xs, ws with x :: xs, w :: ws => f x * w + quad f xs ws | _, _ => 0 end.
Lemma Quadrature_quad {A} (f : A -> R) xs ws : Quadrature f xs ws = quad f xs ws.
Proof.
  unfold Quadrature. assert (forall s xs ws, fold_left (fun sum cw => sum + f (fst cw) * snd cw) (combine xs ws) s = s + quad f xs ws) as K.
  { intros s xs'. revert s. induction xs' as [|x xs' IH]; intros s [|w ws']; cbn; try ring. rewrite IH. ring. }
  rewrite K. ring.
Qed.
Lemma quad_ext {A} (f g : A -> R) xs : forall ws, (forall x, f x = g x) -> quad f xs ws = quad g xs ws.
Proof. induction xs; intros [|w ws] E; cbn; auto. rewrite E, IHxs; auto. Qed.
Lemma quad_add {A} (f g : A -> R) xs : forall ws, quad (fun x => f x + g x) xs ws = quad f xs ws + quad g xs ws.
Proof. induction xs; intros [|w ws]; cbn; try ring. rewrite IHxs. ring. Qed.
Lemma quad_mul {A} c (f : A -> R) xs : forall ws, quad (fun x => c * f x) xs ws = c * quad f xs ws.
Proof. induction xs; intros [|w ws]; cbn; try ring. rewrite IHxs. ring. Qed.
Lemma quad_zero {A} (xs : list A) : forall ws, quad (fun _ => 0) xs ws = 0.
Proof. induction xs; intros [|w ws]; cbn; auto. rewrite IHxs. ring. Qed.
Lemma quad_rsum {A} n (f : nat -> A -> R) xs ws : quad (fun x => rsum n (fun i => f i x)) xs ws = rsum n (fun i => quad (f i) xs ws).
Proof. induction n; cbn [rsum]; [apply quad_zero|]. rewrite quad_add, IHn. reflexivity. Qed.
Lemma quad_app {A} (f : A -> R) xs : forall ws ys vs, length xs = length ws -> quad f (xs ++ ys) (ws ++ vs) = quad f xs ws + quad f ys vs.
Proof. induction xs; intros [|w ws] ys vs L; cbn in *; try discriminate; try ring. rewrite IHxs by lia. ring. Qed.
Lemma quad_map {A B} (f : B -> R) (p : A -> B) c ys : forall vs, quad f (map p ys) (map (fun b => c * b) vs) = c * quad (fun y => f (p y)) ys vs.
Proof. induction ys; intros [|v vs]; cbn; try ring. rewrite IHys. ring. Qed.
Lemma flat_map_length {A B} (f : A -> list B) n xs : (forall x, length (f x) = n) -> length (flat_map f xs) = (length xs * n)%nat.
Proof. intros H. induction xs; cbn; auto. rewrite app_length, H, IHxs. reflexivity. Qed.

Lemma quad_product {A B C} (f : C -> R) (p : A -> B -> C) xs : forall ws ys vs, length ys = length vs ->
  quad f (flat_map (fun x => map (p x) ys) xs) (flat_map (fun a => map (fun b => a * b) vs) ws)
  = quad (fun x => quad (fun y => f (p x y)) ys vs) xs ws.
Proof.
  induction xs as [|x xs IH]; intros [|w ws] ys vs L; cbn; auto.
  - destruct (map (p x) ys ++ _); auto.
  - rewrite quad_app by (rewrite !map_length; auto). rewrite quad_map, IH by auto. ring.
Qed.
Lemma quad_map_flat {C} (f : C -> R) xs : forall ws c, quad f xs (map (fun b => c * b) ws) = c * quad f xs ws.
Proof. induction xs; intros [|w ws] c; cbn; try ring. rewrite IHxs. ring. Qed.
Lemma cube_weights wx wy wz : Hexahedron_weights wx wy wz = flat_map (fun a => map (fun b => a * b) (Quadrangle_weights wy wz)) wx.
Proof.
  unfold Hexahedron_weights, Quadrangle_weights. induction wx as [|a wx IH]; cbn; auto. rewrite IH. f_equal. clear.
  induction wy as [|b wy IH]; cbn; auto. rewrite IH, map_app, map_map. f_equal. apply map_ext. intros. ring.
Qed.
Lemma cube_coords px py pz : Hexahedron_coords px py pz =
  flat_map (fun x => map (fun yz => V x (vy yz) (vz yz)) (flat_map (fun y => map (fun z => V 0 y z) pz) py)) px.
Proof.
  unfold Hexahedron_coords. induction px as [|x px IH]; cbn; auto. rewrite IH. f_equal. clear.
  induction py as [|y py IH]; cbn; auto. rewrite IH, map_app, map_map. f_equal.
Qed.
Lemma square_quad f px py wx wy : length py = length wy ->
  quad f (Quadrangle_coords px py) (Quadrangle_weights wx wy) = quad (fun x => quad (fun y => f (V x y 0)) py wy) px wx.
Proof. intros L. apply (quad_product f (fun x y => V x y 0)); auto. Qed.
Lemma cube_quad f px py pz wx wy wz : length py = length wy -> length pz = length wz ->
  quad f (Hexahedron_coords px py pz) (Hexahedron_weights wx wy wz)
  = quad (fun x => quad (fun y => quad (fun z => f (V x y z)) pz wz) py wy) px wx.
Proof.
  intros Ly Lz. rewrite cube_weights, cube_coords.
  rewrite (quad_product f (fun x yz => V x (vy yz) (vz yz))).
  - apply quad_ext. intros x. unfold Quadrangle_weights.
    apply (quad_product (fun yz => f (V x (vy yz) (vz yz))) (fun y z => V 0 y z)); auto.
  - unfold Quadrangle_weights. rewrite (flat_map_length _ (length pz)), (flat_map_length _ (length wz)); [|intros; apply map_length..]. congruence.
Qed.

(** ** The moments *)
Definition has_moments (xs ws : list R) (d : nat) : Prop :=
  length xs = length ws /\ forall k, (k <= d)%nat -> quad (fun x => x ^ k) xs ws = moment k.

Lemma sqrt_is x y : 0 <= y -> y * y = x -> sqrt x = y.
Proof. intros H <-. apply sqrt_square. exact H. Qed.

Ltac powers := unfold moment; cbn [quad pow INR].
Ltac below k := repeat (destruct k as [|k]; [|]); try (exfalso; lia).

Lemma legendre1 : has_moments (Legendre_points 1) (Legendre_weights 1) 1.
Proof. split; [reflexivity|]. intros [|[|k]] H; [..|exfalso; lia]; cbn [Legendre_points Legendre_weights]; powers; field. Qed.
Lemma legendre2 : has_moments (Legendre_points 2) (Legendre_weights 2) 3.
Proof.
  split; [reflexivity|]. cbn [Legendre_points Legendre_weights].
  assert (sqrt (1 / 3) * sqrt (1 / 3) = 1 / 3) as H by (apply sqrt_sqrt; lra).
  set (a := sqrt (1 / 3)) in *. clearbody a.
  intros [|[|[|[|k]]]] L; [..|exfalso; lia]; powers; field_simplify_eq [H]; lra.
Qed.
Lemma legendre3 : has_moments (Legendre_points 3) (Legendre_weights 3) 5.
Proof.
  split; [reflexivity|]. cbn [Legendre_points Legendre_weights].
  assert (sqrt (6 / 10) * sqrt (6 / 10) = 6 / 10) as H by (apply sqrt_sqrt; lra).
  set (a := sqrt (6 / 10)) in *. clearbody a.
  assert (a * a * (a * a) = 36 / 100) as H2 by (rewrite H; lra).
  intros [|[|[|[|[|[|k]]]]]] L; [..|exfalso; lia]; powers; field_simplify_eq; lra.
Qed.

(** the even powers of [a] when [a * a = p + q * s] and [s * s = t], with and without a factor [s] *)
Lemma even_powers a s p q t : a * a = p + q * s -> s * s = t ->
  let P2 := p * p + q * q * t in let Q2 := 2 * p * q in
  let P3 := P2 * p + Q2 * q * t in let Q3 := P2 * q + Q2 * p in
  let P4 := P3 * p + Q3 * q * t in let Q4 := P3 * q + Q3 * p in
  (a * a * (a * a) = P2 + Q2 * s /\ a * a * (a * a) * (a * a) = P3 + Q3 * s
   /\ a * a * (a * a) * (a * a) * (a * a) = P4 + Q4 * s)
  /\ (s * (a * a) = q * t + p * s /\ s * (a * a * (a * a)) = Q2 * t + P2 * s
      /\ s * (a * a * (a * a) * (a * a)) = Q3 * t + P3 * s /\ s * (a * a * (a * a) * (a * a) * (a * a)) = Q4 * t + P4 * s).
Proof. intros H <-. cbv zeta. rewrite !H. repeat split; ring. Qed.
Ltac weigh := match goal with |- ?g => idtac end; powers; field_simplify_eq; lra.

Lemma legendre4 : has_moments (Legendre_points 4) (Legendre_weights 4) 7.
Proof.
  split; [reflexivity|]. cbn [Legendre_points Legendre_weights].
  assert (sqrt (12 / 10) * sqrt (12 / 10) = 6 / 5) as Hs by (rewrite sqrt_sqrt; lra).
  pose proof (sqrt_pos (12 / 10)) as Ps.
  assert (sqrt 30 = 5 * sqrt (12 / 10)) as E30 by (apply sqrt_is; [lra|nra]). rewrite E30. clear E30.
  set (s := sqrt (12 / 10)) in *. clearbody s.
  assert (s <= 3 / 2) by nra.
  assert (sqrt ((3 + 2 * s) / 7) * sqrt ((3 + 2 * s) / 7) = 3 / 7 + 2 / 7 * s) as Ha by (rewrite sqrt_sqrt; lra).
  assert (sqrt ((3 - 2 * s) / 7) * sqrt ((3 - 2 * s) / 7) = 3 / 7 + (- 2 / 7) * s) as Hb by (rewrite sqrt_sqrt; lra).
  set (a := sqrt ((3 + 2 * s) / 7)) in *. set (b := sqrt ((3 - 2 * s) / 7)) in *. clearbody a b.
  destruct (even_powers a s _ _ _ Ha Hs) as [(A2 & A3 & A4) (S1 & S2 & S3 & S4)].
  destruct (even_powers b s _ _ _ Hb Hs) as [(B2 & B3 & B4) (T1 & T2 & T3 & T4)].
  intros [|[|[|[|[|[|[|[|k]]]]]]]] L; [..|exfalso; lia]; weigh.
Qed.
Lemma legendre5 : has_moments (Legendre_points 5) (Legendre_weights 5) 9.
Proof.
  split; [reflexivity|]. cbn [Legendre_points Legendre_weights].
  assert (sqrt (40 / 7) * sqrt (40 / 7) = 40 / 7) as Hs by (rewrite sqrt_sqrt; lra).
  pose proof (sqrt_pos (40 / 7)) as Ps.
  assert (sqrt 70 = 7 / 2 * sqrt (40 / 7)) as E70 by (apply sqrt_is; [lra|nra]). rewrite E70. clear E70.
  set (s := sqrt (40 / 7)) in *. clearbody s.
  assert (s <= 5) by nra.
  assert (sqrt ((5 + s) / 9) * sqrt ((5 + s) / 9) = 5 / 9 + 1 / 9 * s) as Ha by (rewrite sqrt_sqrt; lra).
  assert (sqrt ((5 - s) / 9) * sqrt ((5 - s) / 9) = 5 / 9 + (- 1 / 9) * s) as Hb by (rewrite sqrt_sqrt; lra).
  set (a := sqrt ((5 + s) / 9)) in *. set (b := sqrt ((5 - s) / 9)) in *. clearbody a b.
  destruct (even_powers a s _ _ _ Ha Hs) as [(A2 & A3 & A4) (S1 & S2 & S3 & S4)].
  destruct (even_powers b s _ _ _ Hb Hs) as [(B2 & B3 & B4) (T1 & T2 & T3 & T4)].
  intros [|[|[|[|[|[|[|[|[|[|k]]]]]]]]]] L; [..|exfalso; lia]; weigh.
Qed.
Lemma lobatto2 : has_moments (Lobatto_points 2) (Lobatto_weights 2) 1.
Proof. split; [reflexivity|]. intros [|[|k]] H; [..|exfalso; lia]; cbn [Lobatto_points Lobatto_weights]; powers; field. Qed.
Lemma lobatto3 : has_moments (Lobatto_points 3) (Lobatto_weights 3) 3.
Proof. split; [reflexivity|]. intros [|[|[|[|k]]]] H; [..|exfalso; lia]; cbn [Lobatto_points Lobatto_weights]; powers; field. Qed.
Lemma lobatto4 : has_moments (Lobatto_points 4) (Lobatto_weights 4) 5.
Proof.
  split; [reflexivity|]. cbn [Lobatto_points Lobatto_weights].
  assert (sqrt (1 / 5) * sqrt (1 / 5) = 1 / 5) as H by (apply sqrt_sqrt; lra).
  set (a := sqrt (1 / 5)) in *. clearbody a.
  assert (a * a * (a * a) = 1 / 25) as H2 by (rewrite H; lra).
  intros [|[|[|[|[|[|k]]]]]] L; [..|exfalso; lia]; weigh.
Qed.
Lemma lobatto5 : has_moments (Lobatto_points 5) (Lobatto_weights 5) 7.
Proof.
  split; [reflexivity|]. cbn [Lobatto_points Lobatto_weights].
  assert (sqrt 21 * sqrt 21 = 21) as H by (apply sqrt_sqrt; lra).
  set (a := sqrt 21) in *. clearbody a.
  assert (a * a * (a * a) = 441) as H2 by (rewrite H; lra).
  assert (a * a * (a * a) * (a * a) = 9261) as H3 by (rewrite H; lra).
  intros [|[|[|[|[|[|[|[|k]]]]]]]] L; [..|exfalso; lia]; weigh.
Qed.
Lemma lobatto6 : has_moments (Lobatto_points 6) (Lobatto_weights 6) 9.
Proof.
  split; [reflexivity|]. cbn [Lobatto_points Lobatto_weights].
  assert (sqrt 7 * sqrt 7 = 7) as Hs by (rewrite sqrt_sqrt; lra).
  pose proof (sqrt_pos 7) as Ps.
  set (s := sqrt 7) in *. clearbody s.
  assert (s <= 7 / 2) by nra.
  assert (sqrt ((7 + 2 * s) / 21) * sqrt ((7 + 2 * s) / 21) = 1 / 3 + 2 / 21 * s) as Ha by (rewrite sqrt_sqrt; lra).
  assert (sqrt ((7 - 2 * s) / 21) * sqrt ((7 - 2 * s) / 21) = 1 / 3 + (- 2 / 21) * s) as Hb by (rewrite sqrt_sqrt; lra).
  set (a := sqrt ((7 + 2 * s) / 21)) in *. set (b := sqrt ((7 - 2 * s) / 21)) in *. clearbody a b.
  destruct (even_powers a s _ _ _ Ha Hs) as [(A2 & A3 & A4) (S1 & S2 & S3 & S4)].
  destruct (even_powers b s _ _ _ Hb Hs) as [(B2 & B3 & B4) (T1 & T2 & T3 & T4)].
  intros [|[|[|[|[|[|[|[|[|[|k]]]]]]]]]] L; [..|exfalso; lia]; weigh.
Qed.
Lemma legendre_moments q : (1 <= q <= 5)%nat -> has_moments (Legendre_points q) (Legendre_weights q) (2 * q - 1).
Proof.
  intros H. destruct q as [|[|[|[|[|[|q]]]]]]; try (exfalso; lia).
  exact legendre1. exact legendre2. exact legendre3. exact legendre4. exact legendre5.
Qed.
Lemma lobatto_moments q : (2 <= q <= 6)%nat -> has_moments (Lobatto_points q) (Lobatto_weights q) (2 * q - 3).
Proof.
  intros H. destruct q as [|[|[|[|[|[|[|q]]]]]]]; try (exfalso; lia).
  exact lobatto2. exact lobatto3. exact lobatto4. exact lobatto5. exact lobatto6.
Qed.

(** ** Polynomials *)
Lemma quad_poly1 d c xs ws : quad (poly1 d c) xs ws = rsum (S d) (fun i => c i * quad (fun x => x ^ i) xs ws).
Proof.
  unfold poly1. rewrite (quad_rsum (S d) (fun i x => c i * x ^ i)). apply rsum_ext. intros. apply quad_mul.
Qed.
Lemma exact1 xs ws d c : has_moments xs ws d -> quad (poly1 d c) xs ws = rsum (S d) (fun i => c i * moment i).
Proof. intros [_ H]. rewrite quad_poly1. apply rsum_ext. intros. rewrite H by lia. reflexivity. Qed.
Lemma exact1_int xs ws d c : has_moments xs ws d -> is_RInt (V := R_NormedModule) (poly1 d c) (-1) 1 (quad (poly1 d c) xs ws).
Proof. intros H. rewrite (exact1 xs ws d c H). apply poly1_int. Qed.

Lemma quad_mono2 i j px py wx wy : length py = length wy ->
  quad (fun p => vx p ^ i * vy p ^ j) (Quadrangle_coords px py) (Quadrangle_weights wx wy)
  = quad (fun x => x ^ i) px wx * quad (fun y => y ^ j) py wy.
Proof.
  intros L. rewrite square_quad by auto. cbn [vx vy].
  rewrite (quad_ext _ (fun x => quad (fun y => y ^ j) py wy * x ^ i)); [rewrite quad_mul; ring|].
  intros x. rewrite quad_mul. ring.
Qed.
Lemma quad_mono3 i j k px py pz wx wy wz : length py = length wy -> length pz = length wz ->
  quad (fun p => vx p ^ i * vy p ^ j * vz p ^ k) (Hexahedron_coords px py pz) (Hexahedron_weights wx wy wz)
  = quad (fun x => x ^ i) px wx * quad (fun y => y ^ j) py wy * quad (fun z => z ^ k) pz wz.
Proof.
  intros Ly Lz. rewrite cube_quad by auto. cbn [vx vy vz].
  rewrite (quad_ext _ (fun x => quad (fun y => y ^ j) py wy * quad (fun z => z ^ k) pz wz * x ^ i)); [rewrite quad_mul; ring|].
  intros x. rewrite (quad_ext _ (fun y => x ^ i * quad (fun z => z ^ k) pz wz * y ^ j)); [rewrite quad_mul; ring|].
  intros y. rewrite quad_mul. ring.
Qed.
Lemma quad_sum3 (coords : list vec) ws n (m : nat -> nat) (l : nat -> nat -> nat) c :
  quad (fun p => rsum n (fun i => rsum (m i) (fun j => rsum (l i j) (fun k => c i j k * (vx p ^ i * vy p ^ j * vz p ^ k))))) coords ws
  = rsum n (fun i => rsum (m i) (fun j => rsum (l i j) (fun k => c i j k * quad (fun p => vx p ^ i * vy p ^ j * vz p ^ k) coords ws))).
Proof.
  rewrite (quad_rsum n (fun i p => rsum (m i) (fun j => rsum (l i j) (fun k => c i j k * (vx p ^ i * vy p ^ j * vz p ^ k))))).
  apply rsum_ext. intros i _.
  rewrite (quad_rsum (m i) (fun j p => rsum (l i j) (fun k => c i j k * (vx p ^ i * vy p ^ j * vz p ^ k)))).
  apply rsum_ext. intros j _.
  rewrite (quad_rsum (l i j) (fun k p => c i j k * (vx p ^ i * vy p ^ j * vz p ^ k))).
  apply rsum_ext. intros k _. apply quad_mul.
Qed.
Lemma quad_sum2 (coords : list vec) ws n (m : nat -> nat) c :
  quad (fun p => rsum n (fun i => rsum (m i) (fun j => c i j * (vx p ^ i * vy p ^ j)))) coords ws
  = rsum n (fun i => rsum (m i) (fun j => c i j * quad (fun p => vx p ^ i * vy p ^ j) coords ws)).
Proof.
  rewrite (quad_rsum n (fun i p => rsum (m i) (fun j => c i j * (vx p ^ i * vy p ^ j)))).
  apply rsum_ext. intros i _.
  rewrite (quad_rsum (m i) (fun j p => c i j * (vx p ^ i * vy p ^ j))).
  apply rsum_ext. intros j _. apply quad_mul.
Qed.

Lemma exact2 px py wx wy dx dy c : has_moments px wx dx -> has_moments py wy dy ->
  over_square (poly2 dx dy c) (quad (fun p => poly2 dx dy c (vx p) (vy p)) (Quadrangle_coords px py) (Quadrangle_weights wx wy)).
Proof.
  intros [Lx Hx] [Ly Hy]. eapply integral2_val; [apply poly2_int|]. unfold poly2.
  rewrite (quad_sum2 _ _ (S dx) (fun _ => S dy)). apply rsum_ext. intros i Hi. apply rsum_ext. intros j Hj.
  rewrite quad_mono2, Hx, Hy by (auto; lia). reflexivity.
Qed.
Lemma exact3 px py pz wx wy wz dx dy dz c : has_moments px wx dx -> has_moments py wy dy -> has_moments pz wz dz ->
  over_cube (poly3 dx dy dz c)
    (quad (fun p => poly3 dx dy dz c (vx p) (vy p) (vz p)) (Hexahedron_coords px py pz) (Hexahedron_weights wx wy wz)).
Proof.
  intros [Lx Hx] [Ly Hy] [Lz Hz]. eapply integral3_val; [apply (sum3_int _ _ _ _ _ _ (S dx) (fun _ => S dy) (fun _ _ => S dz) c _ cube_monomial)|].
  unfold poly3. rewrite (quad_sum3 _ _ (S dx) (fun _ => S dy) (fun _ _ => S dz)).
  apply rsum_ext. intros i Hi. apply rsum_ext. intros j Hj. apply rsum_ext. intros k Hk.
  rewrite quad_mono3, Hx, Hy, Hz by (auto; lia). reflexivity.
Qed.

(** positive weights *)
Lemma legendre_positive q : (1 <= q <= 5)%nat -> forall w, In w (Legendre_weights q) -> 0 < w.
Proof.
  intros H w I. assert (sqrt 30 < 18) by (rewrite <- (sqrt_square 18) by lra; apply sqrt_lt_1_alt; lra).
  assert (sqrt 70 < 10) by (rewrite <- (sqrt_square 10) by lra; apply sqrt_lt_1_alt; lra).
  pose proof (sqrt_pos 30). pose proof (sqrt_pos 70).
  destruct q as [|[|[|[|[|[|q]]]]]]; try (exfalso; lia); cbn [Legendre_weights In] in I;
  repeat (destruct I as [<-|I]; [lra|]); destruct I.
Qed.
Lemma lobatto_positive q : (2 <= q <= 6)%nat -> forall w, In w (Lobatto_weights q) -> 0 < w.
Proof.
  intros H w I. assert (sqrt 7 < 14) by (rewrite <- (sqrt_square 14) by lra; apply sqrt_lt_1_alt; lra).
  pose proof (sqrt_pos 7).
  destruct q as [|[|[|[|[|[|[|q]]]]]]]; try (exfalso; lia); cbn [Lobatto_weights In] in I;
  repeat (destruct I as [<-|I]; [lra|]); destruct I.
Qed.
