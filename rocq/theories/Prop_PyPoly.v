(** Correction functions and Lagrange's polynomials of the Python package. *)
From Coq Require Import Reals List Arith Lra Lia.
From Coquelicot Require Import Coquelicot.
From Verif Require Import Arrays RSum Spec_Gauss Model_PyEuler Model_PyPoly Spec_PyPoly Proof_PyPoly Proof_PyCorrect Proof_PyLagrange.
Import ListNotations.
Open Scope R_scope.

(** ** C128: correction functions *)

(** [Radau(degree)]: the second function belongs to the left end.  Values, mirror images, gradients,
    orthogonality and degree. *)
Theorem py_radau : forall degree, Radau_ok degree = true ->
  corrects (fun x => snd (Radau_value degree x)) (fun x => fst (Radau_value degree x)) /\
  mirrored (fun x => snd (Radau_value degree x)) (fun x => fst (Radau_value degree x)) /\
  (forall x, is_derive (fun x => fst (Radau_value degree x)) x (fst (Radau_gradient degree x)) /\
             is_derive (fun x => snd (Radau_value degree x)) x (snd (Radau_gradient degree x))) /\
  orthogonal_below (degree - 1) (fun x => fst (Radau_value degree x)) /\
  orthogonal_below (degree - 1) (fun x => snd (Radau_value degree x)) /\
  polynomial degree (fun x => fst (Radau_value degree x)) /\ polynomial degree (fun x => snd (Radau_value degree x)).
Proof.
  intros degree H. unfold Radau_ok in H. apply Nat.leb_le in H. destruct degree as [|n]; [lia|].
  replace (S n - 1)%nat with n by lia.
  split; [apply radau_ends|]. split; [apply radau_mirror|]. split; [intros; apply radau_derive|].
  destruct (radau_orthogonal n), (radau_poly n). auto.
Qed.
Print Assumptions py_radau.

Example py_radau_example : Radau_ok 2 = true /\ forall x,
  Radau_value 2 x = ((3 * x * x + 2 * x - 1) / 4, (3 * x * x - 2 * x - 1) / 4) /\
  Radau_gradient 2 x = ((3 * x + 1) / 2, (3 * x - 1) / 2).
Proof.
  split; [reflexivity|]. intros x. split.
  - unfold Radau_value, eval_legendre. cbn [legendre2 fst snd Nat.sub INR pow]. f_equal; field.
  - unfold Radau_gradient. cbn [Radau_loop]. unfold eval_legendre. cbn [legendre2 fst snd INR pow]. f_equal; field.
Qed.

(** [Vincent(degree, mu)] of degree two or more, or of degree one with mu(0) = 1 *)
Theorem py_vincent : forall degree mu v, Vincent_init degree mu = Some v ->
  ((2 <= degree)%nat \/ mu O = 1) ->
  Vincent_degree v = degree /\
  corrects (fun x => fst (Vincent_value v x)) (fun x => snd (Vincent_value v x)) /\
  mirrored (fun x => fst (Vincent_value v x)) (fun x => snd (Vincent_value v x)) /\
  (forall x, is_derive (fun x => fst (Vincent_value v x)) x (fst (Vincent_gradient v x)) /\
             is_derive (fun x => snd (Vincent_value v x)) x (snd (Vincent_gradient v x))) /\
  orthogonal_below (degree - 2) (fun x => snd (Vincent_value v x)) /\
  polynomial degree (fun x => snd (Vincent_value v x)).
Proof.
  intros degree mu v E H. unfold Vincent_init in E.
  destruct (Nat.leb_spec 1 degree) as [A|A]; [|discriminate]. destruct (Nat.leb_spec degree 10); [|discriminate].
  cbn [andb] in E. injection E as <-. set (k := (degree - 1)%nat).
  assert (K : (0 < k)%nat \/ mu k = 1).
  { destruct H; [left; unfold k; lia|]. destruct (Nat.eq_dec degree 1); [right; unfold k; subst degree; auto|left; unfold k; lia]. }
  unfold Vincent_degree, Vincent_value. cbn [fst snd v_k].
  destruct (right_ends k (mu k) K) as [E1 E2]. fold (right_of k (mu k)).
  split; [unfold k; lia|]. split.
  { unfold corrects. replace (- -1) with 1 by ring. replace (- (1)) with (-1) by ring. tauto. }
  split; [intros x; reflexivity|]. split; [intros x; apply vincent_derive|].
  split; [replace (degree - 2)%nat with (k - 1)%nat by (unfold k; lia); apply right_orthogonal|].
  replace degree with (k + 1)%nat at 1 by (unfold k; lia). apply right_poly.
Qed.
Print Assumptions py_vincent.

(** The three named choices: the first gives Radau's polynomials, the second one vanishes at the far end
    and the zeros of a Legendre polynomial, the last one has zero slope at the far end. *)
Theorem py_vincent_choices : forall degree v,
  (Vincent_init degree discontinuous_galerkin = Some v ->
     forall x, Vincent_value v x = (snd (Radau_value degree x), fst (Radau_value degree x))) /\
  (Vincent_init degree spectral_difference = Some v ->
     forall x, snd (Vincent_value v x) = (1 + x) / 2 * eval_legendre (degree - 1) x) /\
  (Vincent_init degree huynh_lumping_lobatto = Some v ->
     is_derive (fun x => snd (Vincent_value v x)) (-1) 0 /\ is_derive (fun x => fst (Vincent_value v x)) 1 0).
Proof.
  intros degree v. unfold Vincent_init.
  destruct (Nat.leb_spec 1 degree) as [A|A]; [|repeat split; discriminate].
  destruct (Nat.leb_spec degree 10); [|repeat split; discriminate]. cbn [andb].
  destruct degree as [|k]; [lia|]. replace (S k - 1)%nat with k by lia.
  split; [|split]; intros E; injection E as <-; unfold Vincent_value; cbn [fst snd].
  - intros x. f_equal.
    + apply (eq_trans (right_dg k (- x))). symmetry. apply (radau_mirror k x).
    + apply (right_dg k x).
  - intros x. apply (right_sd k x).
  - pose proof (right_lump k) as HL. split; [exact HL|].
    replace 0 with (- 0) by ring. apply (derive_mirror (right_of k (huynh_lumping_lobatto k))).
    replace (- (1)) with (-1) by ring. exact HL.
Qed.
Print Assumptions py_vincent_choices.

Example py_vincent_example : exists v, Vincent_init 2 huynh_lumping_lobatto = Some v /\ forall x,
  Vincent_value v x = ((x - 1) ^ 2 / 4, (x + 1) ^ 2 / 4) /\ Vincent_gradient v x = ((x - 1) / 2, (x + 1) / 2).
Proof.
  eexists. split; [reflexivity|]. intros x. split.
  - unfold Vincent_value, Vincent_right, eval_legendre, eval_legendre_prev, huynh_lumping_lobatto.
    cbn [v_k next_ratio prev_ratio legendre2 fst snd Nat.sub Nat.add INR pow]. f_equal; field.
  - unfold Vincent_gradient, huynh_lumping_lobatto.
    cbn [v_k next_ratio prev_ratio Vincent_loop fst snd Nat.sub Nat.add Nat.ltb Nat.leb INR pow]. unfold eval_legendre.
    cbn [legendre2 fst snd INR]. f_equal; field.
Qed.

(** [Huynh(degree, n_lump)]: if the linear solver returned a solution of the system it was given and the
    Gauss-Legendre points are exact, then the conditions of the documentation hold. *)
Theorem py_huynh : forall solve roots degree n_lump c,
  (forall n A b z, solve n A b = Some z -> forall l, (l < n)%nat -> rsum n (fun i => A l i * z i) = b l) ->
  (forall n, (1 <= n)%nat -> integrates (2 * n - 1) (fst (roots n)) (snd (roots n))) ->
  Huynh_init solve roots degree n_lump = Some c ->
  corrects (fun x => fst (Huynh_value degree c x)) (fun x => snd (Huynh_value degree c x)) /\
  mirrored (fun x => fst (Huynh_value degree c x)) (fun x => snd (Huynh_value degree c x)) /\
  lumped n_lump (fun x => snd (Huynh_value degree c x)) /\
  orthogonal_below (degree - n_lump) (fun x => snd (Huynh_value degree c x)) /\
  polynomial degree (fun x => snd (Huynh_value degree c x)) /\
  (forall x, is_derive (fun x => fst (Huynh_value degree c x)) x (fst (Huynh_gradient degree c x)) /\
             is_derive (fun x => snd (Huynh_value degree c x)) x (snd (Huynh_gradient degree c x))).
Proof.
  intros solve roots degree n_lump c HS HR E. unfold Huynh_init in E.
  destruct (Nat.leb_spec 1 degree) as [A1|]; [|discriminate]. destruct (Nat.leb_spec degree 10) as [A2|]; [|discriminate].
  destruct (Nat.leb_spec 1 n_lump) as [A3|]; [|discriminate]. destruct (Nat.leb_spec n_lump degree) as [A4|]; [|discriminate].
  cbn [andb] in E. pose proof (HR degree A1) as Q. destruct (roots degree) as [x w] eqn:Ro. cbn [fst snd] in Q.
  assert (S : forall l, (l <= degree)%nat -> rsum (degree + 1) (fun i => Huynh_a degree n_lump x w l i * c i) = Huynh_b degree l).
  { intros l Hl. apply (HS _ _ _ _ E). lia. }
  unfold Huynh_value, Huynh_gradient. cbn [fst snd].
  pose proof (huynh_at_1 degree n_lump x w c (conj A3 A4) S) as V1.
  pose proof (huynh_lumped degree n_lump x w c (conj A3 A4) S) as VL.
  assert (V0 : Huynh_right degree c (-1) = 0).
  { destruct VL as (d & D0 & _ & DL). rewrite <- D0. apply DL. lia. }
  split; [|split; [|split; [|split; [|split]]]].
  - unfold corrects. replace (- -1) with 1 by ring. replace (- (1)) with (-1) by ring. auto.
  - intros y. reflexivity.
  - exact VL.
  - exact (huynh_orthogonal degree n_lump x w c (conj A3 A4) S Q).
  - exact (g_poly degree n_lump c (conj A3 A4)).
  - intros y. split.
    + apply (derive_mirror (Huynh_right degree c)). apply (huynh_derive degree n_lump c (conj A3 A4)).
    + apply (huynh_derive degree n_lump c (conj A3 A4)).
Qed.
Print Assumptions py_huynh.

(** a concrete solution of the system: degree 2, one lumping condition *)
Example py_huynh_example : let x := [- (1 / sqrt 3); 1 / sqrt 3] in let w := [1; 1] in
  let c := fun i => nth i [-1 / 4; 1 / 2; 3 / 4] 0 in
  Huynh_init (fun _ _ _ => Some c) (fun _ => (x, w)) 2 1 = Some c /\ integrates 3 x w /\
  (forall l, (l < 3)%nat -> rsum 3 (fun i => Huynh_a 2 1 x w l i * c i) = Huynh_b 2 l) /\
  Huynh_value 2 c 0 = (-1 / 4, -1 / 4).
Proof.
  intros x w c. assert (Q : (1 / sqrt 3) * (1 / sqrt 3) = 1 / 3).
  { replace (1 / sqrt 3 * (1 / sqrt 3)) with (1 / (sqrt 3 * sqrt 3)) by (field; apply Rgt_not_eq, sqrt_lt_R0; lra).
    rewrite sqrt_sqrt by lra. reflexivity. }
  subst x. set (y := 1 / sqrt 3) in *.
  split; [reflexivity|]. split.
  - split; [reflexivity|]. intros i Hi. subst w. cbn [combine map fst snd fold_right].
    apply (is_RInt_val' _ _ _ (1 ^ S i / INR (S i) - (-1) ^ S i / INR (S i))).
    + apply (is_RInt_derive (V := R_CompleteNormedModule) (fun t => t ^ S i / INR (S i)) (fun t => t ^ i)).
      * intros t _. auto_derive; [auto|]. cbn [Nat.pred]. rewrite !Rmult_1_l.
        match goal with |- _ = ?r => change (@eq R (INR (S i) * t ^ i * / INR (S i)) r) end. field. apply not_0_INR. lia.
      * intros t _. apply (@ex_derive_continuous R_AbsRing R_NormedModule). auto_derive. auto.
    + destruct i as [|[|[|[|i]]]]; [| | | |lia]; cbn [INR pow]; nra.
  - split.
    + intros l Hl. subst w c. destruct l as [|[|[|l]]]; [| | |lia]; cbn [rsum]; unfold Huynh_a, Huynh_b, eval_legendre;
        cbn [Nat.ltb Nat.leb Nat.sub Nat.eqb combine fold_left fst snd legendre2 nth pow fact Nat.mul Nat.add INR]; nra.
    + unfold Huynh_value, Huynh_right. subst c. cbn [rsum Nat.add nth pow]. f_equal; field.
Qed.

(** ** C129: the far end *)

(** Every [Vincent] object that can be constructed vanishes at the far end: false for degree one with the
    default choice, which is the constant one and has gradient zero. *)
Theorem py_vincent_far_end_refuted : exists degree v, Vincent_init degree huynh_lumping_lobatto = Some v /\
  (forall x, Vincent_value v x = (1, 1)) /\ (forall x, Vincent_gradient v x = (0, 0)) /\
  ~ corrects (fun x => fst (Vincent_value v x)) (fun x => snd (Vincent_value v x)).
Proof.
  exists 1%nat. eexists. split; [reflexivity|].
  assert (A : forall x, Vincent_value (mkVincent (1 - 1) (huynh_lumping_lobatto (1 - 1)) (1 - huynh_lumping_lobatto (1 - 1))) x = (1, 1)).
  { intros x. unfold Vincent_value, Vincent_right, eval_legendre, eval_legendre_prev, huynh_lumping_lobatto.
    cbn [v_k next_ratio prev_ratio legendre2 fst snd Nat.sub Nat.add INR pow]. f_equal; field. }
  split; [exact A|]. split.
  - intros x. unfold Vincent_gradient, huynh_lumping_lobatto.
    cbn [v_k next_ratio prev_ratio Vincent_loop fst snd Nat.sub Nat.add Nat.ltb Nat.leb INR pow]. unfold eval_legendre.
    cbn [legendre2 fst snd INR]. f_equal; field.
  - unfold corrects. rewrite !A. cbn [fst snd]. lra.
Qed.
Print Assumptions py_vincent_far_end_refuted.

(** exactly the objects of degree one with mu(0) other than 1 are wrong *)
Theorem py_vincent_far_end_partial : forall degree mu v, Vincent_init degree mu = Some v ->
  (corrects (fun x => fst (Vincent_value v x)) (fun x => snd (Vincent_value v x)) <-> ((2 <= degree)%nat \/ mu O = 1)).
Proof.
  intros degree mu v E. split; [|intros H; apply (py_vincent degree mu v E H)].
  intros (A & B & C & D). destruct (le_lt_dec 2 degree) as [L|L]; [left; exact L|right].
  unfold Vincent_init in E. destruct degree as [|[|n]]; [discriminate| |lia]. cbn in E. injection E as <-.
  unfold Vincent_value, Vincent_right, eval_legendre, eval_legendre_prev in *.
  cbn [v_k next_ratio prev_ratio legendre2 fst snd Nat.add INR] in C. lra.
Qed.
Print Assumptions py_vincent_far_end_partial.

Example py_vincent_far_end_example : exists v, Vincent_init 1 discontinuous_galerkin = Some v /\
  forall x, Vincent_value v x = ((1 - x) / 2, (1 + x) / 2).
Proof.
  eexists. split; [reflexivity|]. intros x.
  unfold Vincent_value, Vincent_right, eval_legendre, eval_legendre_prev, discontinuous_galerkin.
  cbn [v_k next_ratio prev_ratio legendre2 fst snd Nat.sub Nat.add INR]. f_equal; field.
Qed.

(** ** C130: Lagrange's polynomials *)

(** For distinct points the values and gradients exist; the i-th polynomial is one at the i-th point and zero at
    the others, the gradient is the derivative, the degree is that reported, and polynomials of smaller
    degree than the number of points are reproduced. *)
Theorem py_lagrange : forall points, NoDup points -> exists l l' : nat -> R -> R,
  (forall i x, (i < length points)%nat ->
     IthLagrange_value i points x = Some (l i x) /\ IthLagrange_gradient i points x = Some (l' i x) /\
     is_derive (l i) x (l' i x)) /\
  (forall x, LagrangeBasis_value points x = Some (map (fun i => l i x) (seq 0 (length points))) /\
             LagrangeBasis_gradient points x = Some (map (fun i => l' i x) (seq 0 (length points)))) /\
  (forall i j, (i < length points)%nat -> (j < length points)%nat ->
     l i (nth j points 0) = if (i =? j)%nat then 1 else 0) /\
  (forall i, (i < length points)%nat -> polynomial (length points - 1) (l i)) /\
  (forall d f, (d < length points)%nat -> polynomial d f -> forall x, interpolate points l f x = f x).
Proof.
  intros points N. exists (ell points), (ell' points). split; [|split; [|split; [|split]]].
  - intros i x H. split; [apply value_ell; auto|]. split; [apply gradient_ell; auto|apply ell_derive; auto].
  - intros x. unfold LagrangeBasis_value, LagrangeBasis_gradient. split.
    + apply (basis_list (fun i => IthLagrange_value i points x) (fun i => ell points i x)). intros. apply value_ell; auto. lia.
    + apply (basis_list (fun i => IthLagrange_gradient i points x) (fun i => ell' points i x)). intros. apply gradient_ell; auto. lia.
  - intros i j A B. apply ell_cardinal; auto.
  - intros i A. apply ell_poly; auto.
  - intros d f A B x. apply (reproduce points N d); auto.
Qed.
Print Assumptions py_lagrange.

(** Two equal points: the evaluation divides by zero. *)
Theorem py_lagrange_equal_points : forall points x, ~ NoDup points -> LagrangeBasis_value points x = None.
Proof. intros points x H. apply equal_points. exact H. Qed.
Print Assumptions py_lagrange_equal_points.

Example py_lagrange_example : NoDup [-1; 0; 2] /\ forall x,
  IthLagrange_value 1 [-1; 0; 2] x = Some ((x + 1) * (2 - x) / 2) /\ IthLagrange_gradient 1 [-1; 0; 2] x = Some ((1 - 2 * x) / 2).
Proof.
  split.
  - repeat constructor; cbn [In]; lra.
  - intros x. unfold IthLagrange_value, IthLagrange_gradient, div. cbn -[Rplus Rmult Rminus Ropp Rdiv IZR Req_EM_T].
    repeat (destruct (Req_EM_T _ _); [lra|]). cbn [bind]. split; f_equal; field.
Qed.
