(** C136, C137, C138: Taylor and Legendre expansions of the Python package *)
From Coq Require Import Reals List Arith Lra Lia.
From Coquelicot Require Import Coquelicot.
From Verif Require Import Arrays RSum Model_PyEuler Model_PyPoly Spec_PyPoly Proof_PyPoly.
From Verif Require Import Model_PyIntegrator Proof_PyIntegrator Model_PyExpansion Spec_PyExpansion Proof_PyExpansion.
Import ListNotations.
Open Scope R_scope.

(** a Legendre object as constructed, and after its coefficients have been set in one of the three ways *)
Inductive made roots inv degree c : Legendre -> Prop :=
| Init e : Legendre_init roots inv degree c = Some e -> made roots inv degree c e
| Ready e : ready roots inv degree c e -> made roots inv degree c e
with ready roots inv degree c : Legendre -> Prop :=
| Set_coeff e n a e' : made roots inv degree c e -> l_set_coeff e n a = Some e' -> ready roots inv degree c e'
| Set_taylor e a : made roots inv degree c e -> ready roots inv degree c (l_set_taylor_coeff e a)
| Approximate e f e' : made roots inv degree c e -> l_approximate e f = Some e' -> ready roots inv degree c e'.
Scheme made_rec := Induction for made Sort Prop with ready_rec := Induction for ready Sort Prop.
Combined Scheme made_ready from made_rec, ready_rec.

Lemma made_frame roots inv degree c : x_left c <> x_right c ->
  (forall e, made roots inv degree c e -> frame roots inv degree c e) /\ (forall e, ready roots inv degree c e -> frame roots inv degree c e).
Proof.
  intros X. apply made_ready; auto.
  - intros e E. apply init_frame, E.
  - intros e n a e' _ F E. unfold l_set_coeff in E. destruct (n =? l_n e)%nat; [|discriminate]. injection E as <-. exact F.
  - intros e f e' _ F E. unfold l_approximate in E. destruct (global_to_local _ _); [|discriminate]. cbn [bind] in E. injection E as <-. exact F.
Qed.
Lemma ready_represents roots inv degree c e : x_left c <> x_right c -> inverts inv -> ready roots inv degree c e -> represents degree c e.
Proof.
  intros X V H. destruct H as [e n a e' M E|e a M|e f e' M E]; apply (proj1 (made_frame roots inv degree c X)) in M.
  - unfold l_set_coeff in E. destruct (n =? l_n e)%nat; [|discriminate]. injection E as <-.
    apply (set_represents roots inv degree c (mkLegendre (l_n e) (l_integrator e) (l_inverse e) a (l_taylor e))). exact M.
  - apply (inverse_represents roots inv degree c); assumption.
  - unfold l_approximate in E. destruct (global_to_local _ _); [|discriminate]. cbn [bind] in E. injection E as <-.
    match goal with |- represents _ _ (l_set_taylor ?x) => apply (set_represents roots inv degree c x) end. exact M.
Qed.

(** ** C136 *)
(** the basis: Legendre polynomials of the local coordinate, their derivatives, and their inner products *)
Theorem py_legendre_basis roots inv degree c e : x_left c <> x_right c -> made roots inv degree c e ->
  exists basis : nat -> R -> R,
    (forall x, exists xi, global_to_local c x = Some xi /\ forall k, basis k x = eval_legendre k xi) /\
    (forall x, exists v, l_basis_values e x = Some v /\ forall k, v k = basis k x) /\
    (forall j, (j <= degree)%nat -> derivatives_of (basis j) (fun k x => l_basis_derivatives e x k j)) /\
    (forall j x, l_basis_gradients e x j = l_basis_derivatives e x 1 j) /\
    (forall j x, l_basis_hessians e x j = l_basis_derivatives e x 2 j) /\
    (forall j k, is_RInt (fun x => basis j x * basis k x) (x_left c) (x_right c) (if (j =? k)%nat then l_weight e k else 0)).
Proof.
  intros X M. apply (proj1 (made_frame roots inv degree c X)) in M. exists (fun k x => eval_legendre k (xi c x)).
  split; [intros x; exists (xi c x); split; [apply local_is, X|reflexivity]|].
  split; [intros x; eexists; split; [apply (values_are roots inv degree c X e x M)|reflexivity]|].
  split; [|split; [|split]].
  - intros j Hj. split; [intros x; apply (basis_row roots inv degree c X e j x M); lia|]. intros k x. apply basis_derive.
  - intros. apply basis_first.
  - intros. apply basis_second.
  - intros j k. apply (basis_orthogonal roots inv degree c X e j k M).
Qed.
Print Assumptions py_legendre_basis.

(** the approximation is the sum of the modes; its derivatives, mean value, energy, values at the ends and truncations *)
Theorem py_legendre_values roots inv degree c e : x_left c <> x_right c -> inverts inv -> ready roots inv degree c e ->
  (forall x xi, global_to_local c x = Some xi -> l_value e x = rsum (degree + 1) (fun k => l_modes e k * eval_legendre k xi)) /\
  (exists d, derivatives_of (l_value e) d /\ (forall x, l_gradient e x = d 1%nat x) /\
     (forall k x, (k <= degree)%nat -> l_derivatives e x k = Some (d k x)) /\
     (forall k, l_boundary e k true = d k (x_left c) /\ l_boundary e k false = d k (x_right c))) /\
  mean (x_left c) (x_right c) (l_value e) (l_average e) /\
  is_RInt (fun x => l_value e x * l_value e x) (x_left c) (x_right c) (rsum (degree + 1) (l_energy e)) /\
  (forall d x xi, global_to_local c x = Some xi -> truncated_value d e x =
     if (d <=? degree)%nat then Some (rsum (d + 1) (fun k => l_modes e k * eval_legendre k xi)) else None).
Proof.
  intros X V H. assert (F := proj2 (made_frame roots inv degree c X) e H). assert (Rp := ready_represents _ _ _ _ _ X V H).
  split; [|split; [|split; [|split]]].
  - intros x y E. rewrite (local_is c X) in E. injection E as <-. apply (value_modes roots inv degree c X e x F Rp).
  - destruct (taylor_object (l_n e) (l_center e) (l_taylor e)) as (d & _).
    destruct (frame_parts _ _ _ _ _ F) as (_ & M & _). assert (N := proj1 F).
    exists (tsum (l_n e) (l_center e) (l_taylor e)). split; [split; [reflexivity|apply tsum_derive]|]. split; [intros; apply gradient_tsum|]. split.
    + intros k x K. unfold l_derivatives. rewrite derivatives_tsum, N. destruct (Nat.ltb_spec k (degree + 1)); [|lia]. rewrite Bool.orb_true_r. reflexivity.
    + intros k. rewrite N, M. split; rewrite (boundary_is roots inv degree c e k _ F Rp); reflexivity.
  - apply (mean_is roots inv degree c X e F Rp).
  - apply (energy_is roots inv degree c X e F Rp).
  - intros d x y E. rewrite (local_is c X) in E. injection E as <-. apply (truncated_is roots inv degree c e d x X F).
Qed.
Print Assumptions py_legendre_values.

(** what was set is what is represented; polynomials of the degree are reproduced *)
Theorem py_legendre_setters roots inv degree c e : x_left c <> x_right c -> inverts inv -> gauss roots (degree + 1) -> made roots inv degree c e ->
  (forall a, exists e', l_set_coeff e (degree + 1) a = Some e' /\ forall k, l_modes e' k = a k) /\
  (forall n a, n <> (degree + 1)%nat -> l_set_coeff e n a = None) /\
  (forall a x, l_value (l_set_taylor_coeff e a) x = rsum (degree + 1) (fun k => a k * (x - x_center c) ^ k)) /\
  (forall f, polynomial degree f -> exists e', l_approximate e f = Some e' /\ forall x, l_value e' x = f x) /\
  (forall f, exists e', l_approximate e f = Some e').
Proof.
  intros X V G M. apply (proj1 (made_frame roots inv degree c X)) in M. assert (N := proj1 M).
  destruct (frame_parts _ _ _ _ _ M) as (C & Ce & _). split; [|split; [|split; [|split]]].
  - intros a. unfold l_set_coeff. rewrite N, Nat.eqb_refl. eexists. split; [reflexivity|]. reflexivity.
  - intros n a Hn. unfold l_set_coeff. rewrite N. destruct (Nat.eqb_spec n (degree + 1)); [contradiction|reflexivity].
  - intros a x. unfold l_value, l_set_taylor_coeff, l_center, l_coordinate. cbn [l_n l_taylor l_integrator]. rewrite (proj1 (proj2 M)), N.
    unfold global_to_value, dot. apply rsum_ext. intros k _. unfold taylor_values. rewrite x_power_is. reflexivity.
  - intros f D. destruct (reproduces roots inv degree c X G e f M D) as (e' & E & _ & _ & K). exists e'. auto.
  - intros f. destruct (approximate_frame roots inv degree c X e f M) as (e' & E & _). exists e'. exact E.
Qed.
Print Assumptions py_legendre_setters.

(** two terms on the element [1, 5]: the points are [-+ sqrt (1/3)], and matrices of size two are inverted by
    Cramer's rule *)
Definition two_roots (n : nat) : list R * list R := ([- sqrt (1 / 3); sqrt (1 / 3)], [1; 1]).
Definition inv2 (n : nat) (a : nat -> nat -> R) : option (nat -> nat -> R) :=
  let d := a 0%nat 0%nat * a 1%nat 1%nat - a 0%nat 1%nat * a 1%nat 0%nat in
  if (n =? 2)%nat then
    if Req_EM_T d 0 then None else
    Some (fun i j => (match i, j with 0, 0 => a 1%nat 1%nat | 0, _ => - a 0%nat 1%nat | _, 0 => - a 1%nat 0%nat | _, _ => a 0%nat 0%nat end)%nat / d)
  else None.
Lemma inv2_inverts : inverts inv2.
Proof.
  intros n a m E i j Hi Hj. unfold inv2 in E. destruct (Nat.eqb_spec n 2) as [->|]; [|discriminate].
  destruct (Req_EM_T _ 0) as [|D]; [discriminate|]. injection E as <-. cbn [rsum].
  destruct i as [|[|i]]; [| |lia]; (destruct j as [|[|j]]; [| |lia]); cbn [Nat.eqb]; split; field; exact D.
Qed.
Lemma two_gauss : gauss two_roots 2.
Proof.
  split; [reflexivity|]. split; [reflexivity|]. intros i Hi. cbn [two_roots fst snd combine map fold_right].
  assert (S : sqrt (1 / 3) * sqrt (1 / 3) = 1 / 3) by (apply sqrt_sqrt; lra). set (q := sqrt (1 / 3)) in *.
  apply (@is_RInt_ext R_NormedModule (fun y => y ^ i)); [reflexivity|].
  evar_last; [apply (@is_RInt_derive R_CompleteNormedModule (fun y => y ^ (i + 1) / INR (i + 1)) (fun y => y ^ i))|].
  - intros y _. auto_derive; [trivial|]. rewrite Nat.add_1_r. cbn [pred]. field. apply not_0_INR. lia.
  - intros y _. apply continuity_pt_filterlim, derivable_continuous_pt, derivable_pt_pow.
  - unfold minus, plus, opp. cbn -[pow INR Nat.add]. destruct i as [|[|[|[|i]]]]; [| | | |lia]; cbn -[q]; nra.
Qed.
Example py_legendre_example : let c := Linear 1 5 in
  x_left c <> x_right c /\ inverts inv2 /\ gauss two_roots 2 /\
  exists e e', Legendre_init two_roots inv2 1 c = Some e /\ l_approximate e (fun x => 3 * x + 2) = Some e' /\
    ready two_roots inv2 1 c e' /\ l_value e' 4 = 14 /\ l_average e' = 11 /\ l_derivatives e' 4 1 = Some 3 /\
    truncated_value 0 e' 4 = Some 11 /\ rsum 2 (l_energy e') = 532.
Proof.
  intros c. assert (X : x_left c <> x_right c) by (cbn; lra). split; [exact X|]. split; [exact inv2_inverts|]. split; [exact two_gauss|].
  assert (exists e, Legendre_init two_roots inv2 1 c = Some e) as (e & E).
  { unfold Legendre_init, inv2. cbn [Nat.ltb Nat.leb negb jacobian_degree c Nat.eqb Nat.add]. unfold Integrator_init. cbn [two_roots fst snd length Nat.eqb Nat.leb].
    cbn [bind]. destruct (Req_EM_T _ 0) as [Z|]; [exfalso|cbn [bind]; eexists; reflexivity].
    unfold legendre_to_taylor, legendre_matrix, eye in Z. cbn [Nat.sub seq fold_left Nat.eqb Nat.leb] in Z. cbn [pow] in Z. assert (J2 : local_to_jacobian c 0 = 2) by (unfold c, local_to_jacobian, linear_jacobian; lra). rewrite J2 in Z. lra. }
  assert (M : made two_roots inv2 1 c e) by (constructor; exact E).
  assert (PF : polynomial 1 (fun x => 3 * x + 2)).
  { exists (fun k => match k with O => 2 | _ => 3 end). intros x. unfold Spec_Gauss.poly1. cbn. ring. }
  destruct (py_legendre_setters two_roots inv2 1 c e X inv2_inverts two_gauss M) as (_ & _ & _ & A & _).
  destruct (A _ PF) as (e' & Ae & V). clear A.
  assert (Rd : ready two_roots inv2 1 c e') by (econstructor 3; eassumption).
  destruct (py_legendre_values two_roots inv2 1 c e' X inv2_inverts Rd) as (Sm & (d & (D0 & DS) & _ & DK & _) & Me & En & Tr).
  assert (Av : l_average e' = 11).
  { assert (I : is_RInt (l_value e') 1 5 44).
    { apply (@is_RInt_ext R_NormedModule (fun x => 3 * x + 2)); [intros x _; symmetry; apply V|].
      evar_last; [apply (@is_RInt_derive R_CompleteNormedModule (fun x => 3 * x ^ 2 / 2 + 2 * x) (fun x => 3 * x + 2))|].
      - intros y _. auto_derive; [trivial|field].
      - intros y _. apply continuity_pt_filterlim. reg.
      - unfold minus, plus, opp. cbn. field. }
    unfold mean in Me. cbn [c x_left x_right] in Me. apply (@is_RInt_unique R_CompleteNormedModule) in Me. apply (@is_RInt_unique R_CompleteNormedModule) in I. rewrite I in Me. lra. }
  exists e, e'. split; [exact E|]. split; [exact Ae|]. split; [exact Rd|]. split; [rewrite V; lra|]. split; [exact Av|]. split; [|split].
  - rewrite DK by lia. f_equal. assert (W : is_derive (d 0%nat) 4 3).
    { apply (is_derive_ext (fun x => 3 * x + 2)); [intros x; rewrite D0, V; reflexivity|]. auto_derive; [trivial|ring]. }
    apply is_derive_unique in W. rewrite (is_derive_unique _ _ _ (DS 0%nat 4)) in W. exact W.
  - destruct (py_legendre_basis two_roots inv2 1 c e X M) as (basis & L & _). destruct (L 4) as (y & Ly & _).
    rewrite (Tr 0%nat 4 y Ly). cbn [Nat.leb]. f_equal. cbn [Nat.add rsum]. unfold l_average in Av. rewrite Av. cbn. ring.
  - assert (I : is_RInt (fun x => l_value e' x * l_value e' x) 1 5 532).
    { apply (@is_RInt_ext R_NormedModule (fun x => (3 * x + 2) * (3 * x + 2))); [intros x _; rewrite !V; reflexivity|].
      evar_last; [apply (@is_RInt_derive R_CompleteNormedModule (fun x => (3 * x + 2) ^ 3 / 9) (fun x => (3 * x + 2) * (3 * x + 2)))|].
      - intros y _. auto_derive; [trivial|field].
      - intros y _. apply continuity_pt_filterlim. reg.
      - unfold minus, plus, opp. cbn. field. }
    cbn [c x_left x_right Nat.add] in En. apply (@is_RInt_unique R_CompleteNormedModule) in En. apply (@is_RInt_unique R_CompleteNormedModule) in I. rewrite I in En. symmetry. exact En.
Qed.

(** ** C137 *)
(** a Taylor expansion: every derivative exists, but those of order above the degree are not returned *)
Theorem py_taylor_derivatives n c a : exists d, derivatives_of (global_to_value n c a) d /\
  (forall x, global_to_gradient n c a x = d 1%nat x) /\
  (forall k x, (k < n)%nat -> global_to_derivatives n c a x k = Some (d k x)).
Proof. destruct (taylor_object n c a) as (d & D & G & K & _). exists d. auto. Qed.
Print Assumptions py_taylor_derivatives.
Theorem py_taylor_derivatives_refuted : exists n c a d x k, (1 <= n)%nat /\ derivatives_of (global_to_value n c a) d /\
  (d k x = 0) /\ global_to_derivatives n c a x k = None.
Proof.
  destruct (taylor_object 1 0 (fun _ => 7)) as (d & D & _ & _ & K). exists 1%nat, 0, (fun _ => 7), d, 3, 1%nat.
  split; [lia|]. split; [exact D|]. destruct (K 1%nat 3 (le_n 1)) as (Z & N). split; [exact Z|apply N; lia].
Qed.
Print Assumptions py_taylor_derivatives_refuted.
Example py_taylor_example : global_to_value 3 1 (fun k => INR k) 3 = 10 /\ global_to_derivatives 3 1 (fun k => INR k) 3 1 = Some 9 /\
  global_to_derivatives 3 1 (fun k => INR k) 3 2 = Some 4.
Proof.
  split; [|split].
  - unfold global_to_value, dot. cbn [rsum]. unfold taylor_values. rewrite !x_power_is. cbn. ring.
  - rewrite derivatives_tsum. cbn [Nat.eqb Nat.ltb Nat.leb orb]. f_equal. rewrite <- gradient_tsum.
    unfold global_to_gradient, dot. cbn [rsum]. unfold taylor_gradients. cbn. ring.
  - rewrite derivatives_tsum. cbn [Nat.eqb Nat.ltb Nat.leb orb]. f_equal. unfold tsum. cbn [rsum]. rewrite !derivatives_2. unfold taylor_hessians. cbn. ring.
Qed.
