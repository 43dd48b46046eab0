(** C138, C139: Lagrange expansions of the Python package *)
From Coq Require Import Reals List Arith Lra Lia FunctionalExtensionality.
From Coquelicot Require Import Coquelicot.
From Verif Require Import Arrays RSum Spec_Gauss Proof_Integral Proof_Gauss Model_PyEuler Model_PyPoly Spec_PyPoly Proof_PyPoly Proof_PyLagrange.
From Verif Require Import Model_PyIntegrator Proof_PyIntegrator Model_PyExpansion Spec_PyExpansion Proof_PyExpansion Model_PyNodal Proof_PyNodal.
From Verif Require Prop_PyExpansion.
Import ListNotations.
Open Scope R_scope.

(** the objects of the three classes: as constructed, and after the values have been set in one of the three ways *)
Inductive made kind roots inv degree c : Lagrange -> Prop :=
| Init e : Nodal_init kind roots inv degree c = Some e -> made kind roots inv degree c e
| Ready e : ready kind roots inv degree c e -> made kind roots inv degree c e
with ready kind roots inv degree c : Lagrange -> Prop :=
| Set_coeff e n a e' : made kind roots inv degree c e -> g_set_coeff e n a = Some e' -> ready kind roots inv degree c e'
| Set_taylor e a : made kind roots inv degree c e -> ready kind roots inv degree c (g_set_taylor_coeff e a)
| Approximate e f : made kind roots inv degree c e -> ready kind roots inv degree c (g_approximate_by kind e f).
Scheme made_rec := Induction for made Sort Prop with ready_rec := Induction for ready Sort Prop.
Combined Scheme made_ready from made_rec, ready_rec.
(** what is known about the quadrature rule: Gauss-Legendre rules are given; Gauss-Lobatto rules are exact up to six points *)
Definition exact_rule kind roots degree : Prop :=
  match kind with LobattoRoots => (degree <= 5)%nat | _ => gauss roots (degree + 1) end.

Definition local_nodes kind (roots : nat -> list R * list R) degree : list R :=
  match kind with
  | UniformRoots => uniform_roots (degree + 1)
  | LegendreRoots => fst (roots (degree + 1)%nat)
  | LobattoRoots => match GaussLobatto_points (degree + 1) with Some p => p | None => [] end
  end.
Definition object kind (roots : nat -> list R * list R) inv degree c e : Prop := exists ps ws rts b, nodal ps ws rts inv b degree c e /\
  (b = true -> ps = rts) /\ (exact_rule kind roots degree -> integrates (2 * degree - 1) ps ws) /\
  (kind = LobattoRoots -> nth 0 rts 0 = -1 /\ nth degree rts 0 = 1) /\
  rts = local_nodes kind roots degree /\ (kind <> UniformRoots -> b = true) /\
  (kind = LegendreRoots -> exact_rule kind roots degree -> integrates (2 * degree) ps ws) /\
  (kind = LobattoRoots -> List.Forall (fun w => 0 < w) ws /\ length ws = (degree + 1)%nat).
Lemma moments_integrate d ps ws : has_moments ps ws d -> integrates d ps ws.
Proof.
  intros (L & H). split; [exact L|]. intros i Hi. specialize (H i Hi). rewrite (quad_combine 0 _ _ _ L) in H.
  change (fold_right Rplus 0 (map (fun q => snd q * fst q ^ i) (combine ps ws))) with (Proof_PyCorrect.quadr (fun x => x ^ i) (combine ps ws)).
  rewrite H. apply moment_int.
Qed.
Lemma integrates_less d d' ps ws : (d' <= d)%nat -> integrates d ps ws -> integrates d' ps ws.
Proof. intros L (A & B). split; [exact A|]. intros i Hi. apply B. lia. Qed.
Lemma init_object kind roots inv degree c e : Nodal_init kind roots inv degree c = Some e -> object kind roots inv degree c e.
Proof.
  intros E. destruct kind; cbn [Nodal_init] in E.
  - unfold UniformRoots_init in E. destruct (Integrator_init _ _ _) as [i|] eqn:I; [|discriminate]. cbn [bind] in E.
    exists (fst (roots (degree + 1)%nat)), (snd (roots (degree + 1)%nat)), (uniform_roots (degree + 1)), false.
    split; [apply (nodal_init _ _ _ _ _ _ _ i); assumption|]. split; [discriminate|]. split; [|split; [discriminate|split; [reflexivity|split; [congruence|split; discriminate]]]].
    intros (_ & G). apply (integrates_less (2 * (degree + 1) - 1)); [lia|exact G].
  - unfold LegendreRoots_init in E. destruct (Integrator_init _ _ _) as [i|] eqn:I; [|discriminate]. cbn [bind] in E.
    exists (fst (roots (degree + 1)%nat)), (snd (roots (degree + 1)%nat)), (fst (roots (degree + 1)%nat)), true.
    split; [apply (nodal_init _ _ _ _ _ _ _ i); assumption|]. split; [reflexivity|]. split; [|split; [discriminate|split; [reflexivity|split; [reflexivity|split; [|discriminate]]]]].
    + intros (_ & G). apply (integrates_less (2 * (degree + 1) - 1)); [lia|exact G].
    + intros _ (_ & G). apply (integrates_less (2 * (degree + 1) - 1)); [lia|exact G].
  - unfold LobattoRoots_init in E. destruct (GaussLobatto_points _) as [ps|] eqn:P; [|discriminate]. cbn [bind] in E.
    destruct (GaussLobatto_weights _) as [ws|] eqn:W; [|discriminate]. cbn [bind] in E.
    destruct (Integrator_init _ _ _) as [i|] eqn:I; [|discriminate]. cbn [bind] in E.
    exists ps, ws, ps, true. split; [apply (nodal_init _ _ _ _ _ _ _ i); assumption|]. split; [reflexivity|].
    assert (B : (2 <= degree + 1 <= 10)%nat).
    { revert P. generalize (degree + 1)%nat. intros k P. do 11 (destruct k as [|k]; [try discriminate; lia|]). discriminate. }
    destruct (tables _ _ _ B P W) as (T0 & T1 & _ & _ & _ & Pos). replace (degree + 1 - 1)%nat with degree in T1 by lia.
    split; [|split; [auto|split; [unfold local_nodes; rewrite P; reflexivity|split; [reflexivity|split; [discriminate|]]]]].
    + cbn [exact_rule]. intros D. apply (integrates_less (2 * (degree + 1) - 3)); [lia|]. apply moments_integrate, (small_moments (degree + 1)); [lia|exact P|exact W].
    + intros _. split; [exact Pos|]. revert W. generalize (degree + 1)%nat B. intros k Bk W.
      do 11 (destruct k as [|k]; [try discriminate; try (injection W as <-; reflexivity); lia|]). discriminate.
Qed.
Lemma update_object kind roots inv degree c e v t : object kind roots inv degree c e -> object kind roots inv degree c (g_update e v t).
Proof. exact (fun H => H). Qed.
Lemma made_object kind roots inv degree c :
  (forall e, made kind roots inv degree c e -> object kind roots inv degree c e) /\ (forall e, ready kind roots inv degree c e -> object kind roots inv degree c e).
Proof.
  apply made_ready; auto.
  - intros e E. apply init_object, E.
  - intros e n a e' _ F E. unfold g_set_coeff in E. destruct (n =? g_n e)%nat; [|discriminate]. injection E as <-. exact F.
  - intros e f _ F. destruct kind; exact F.
Qed.
(** an update by [g_set_values] or [g_set_taylor_coeff] *)
Lemma ready_update kind roots inv degree c e : ready kind roots inv degree c e -> exists e0, made kind roots inv degree c e0 /\
  ((exists v, e = g_set_values e0 v) \/ exists t, e = g_set_taylor_coeff e0 t).
Proof.
  intros H. destruct H as [e n a e' M E|e a M|e f M]; exists e; (split; [exact M|]).
  - unfold g_set_coeff in E. destruct (n =? g_n e)%nat; [|discriminate]. injection E as <-. left. eexists. reflexivity.
  - right. eexists. reflexivity.
  - left. destruct kind; eexists; reflexivity.
Qed.

(** ** C138 *)
(** the basis: one at its own node and zero at the others; derivatives at any point, at the nodes and at the ends *)
Theorem py_nodal_basis kind roots inv degree c e : x_left c <> x_right c -> inverts inv -> made kind roots inv degree c e ->
  exists basis : nat -> R -> R,
    (forall x, exists v, g_basis_values e x = Some v /\ length v = (degree + 1)%nat /\ forall j, (j <= degree)%nat -> nth j v 0 = basis j x) /\
    (forall i j, (i <= degree)%nat -> (j <= degree)%nat -> basis j (g_points e i) = if (j =? i)%nat then 1 else 0) /\
    (forall j, (j <= degree)%nat -> derivatives_of (basis j) (fun k x => g_basis_derivatives e x k j)) /\
    (forall j x, g_basis_gradients e x j = g_basis_derivatives e x 1 j) /\
    (forall j x, g_basis_hessians e x j = g_basis_derivatives e x 2 j) /\
    (forall i k j, (i <= degree)%nat -> g_node_basis e i k j = g_basis_derivatives e (g_points e i) k j) /\
    (forall k j, g_boundary_basis kind e k true j = g_basis_derivatives e (x_left c) k j /\
                 g_boundary_basis kind e k false j = g_basis_derivatives e (x_right c) k j).
Proof.
  intros X V M. apply (proj1 (made_object kind roots inv degree c)) in M. destruct M as (ps & ws & rts & b & F & _ & _ & Lo & _).
  assert (C : g_coordinate e = c) by apply F. assert (N : g_n e = (degree + 1)%nat) by apply F.
  assert (PT : g_points e = fun k => local_to_global c (nth k rts 0)) by apply F.
  exists (fun j x => ell rts j (xi c x)). split; [|split; [|split; [|split; [|split; [|split]]]]].
  - intros x. rewrite (g_values_list ps ws rts inv b degree c X V e F x). eexists. split; [reflexivity|]. split; [rewrite map_length, seq_length; reflexivity|].
    intros j Hj. rewrite (nth_indep _ 0 (ell rts 0 (xi c x))) by (rewrite map_length, seq_length; lia).
    rewrite (map_nth (fun j => ell rts j (xi c x)) (seq 0 (degree + 1)) 0%nat j), seq_nth by lia. reflexivity.
  - intros i j Hi Hj. rewrite PT. rewrite (xi_point rts c X i).
    apply (ell_cardinal rts (roots_distinct ps ws rts inv b degree c V e F)); rewrite (roots_length ps ws rts inv b degree c e F); lia.
  - intros j Hj. split; [|intros k x; apply g_basis_derive]. intros x. apply (g_basis_row ps ws rts inv b degree c X V e F). lia.
  - intros. apply g_basis_first.
  - intros. apply g_basis_second.
  - intros i k j Hi. apply (node_is ps ws rts inv b degree c e F). lia.
  - intros k j. assert (Hi : forall x, (if (g_n e - 1 <? k)%nat then 0 else g_basis_derivatives e x k j) = g_basis_derivatives e x k j).
    { intros x. rewrite N. destruct (Nat.ltb_spec (degree + 1 - 1) k); [|reflexivity]. symmetry. apply (g_basis_high ps ws rts inv b degree c e F). lia. }
    unfold g_boundary_basis. rewrite C. destruct kind.
    + auto.
    + split; [rewrite <- (Hi (x_left c))|rewrite <- (Hi (x_right c))]; destruct (g_n e - 1 <? k)%nat; reflexivity.
    + destruct (Lo eq_refl) as (L0 & L1). rewrite N. split.
      * rewrite (node_is ps ws rts inv b degree c e F) by lia. f_equal. rewrite PT, L0, map_is. field.
      * rewrite (node_is ps ws rts inv b degree c e F) by lia. f_equal. replace (degree + 1 - 1)%nat with degree by lia. rewrite PT, L1, map_is. field.
Qed.
Print Assumptions py_nodal_basis.

(** the approximation interpolates the values; its derivatives at any point, at the nodes and at the ends; the mean value *)
Theorem py_nodal_values kind roots inv degree c e : x_left c <> x_right c -> inverts inv -> ready kind roots inv degree c e ->
  (forall x v, g_basis_values e x = Some v -> g_value e x = rsum (degree + 1) (fun j => g_values e j * nth j v 0)) /\
  (forall i, (i <= degree)%nat -> g_value e (g_points e i) = g_values e i) /\
  (exists d, derivatives_of (g_value e) d /\ (forall x, g_gradient e x = d 1%nat x) /\
     (forall k x, (k <= degree)%nat -> g_derivatives e x k = Some (d k x)) /\
     (forall i k, (i <= degree)%nat -> g_node_value e i k = d k (g_points e i)) /\
     (forall k, g_boundary kind e k true = d k (x_left c) /\ g_boundary kind e k false = d k (x_right c))) /\
  (exact_rule kind roots degree -> exists q, g_average e = Some q /\ mean (x_left c) (x_right c) (g_value e) q).
Proof.
  intros X V H. assert (M : made kind roots inv degree c e) by (constructor; exact H).
  destruct (py_nodal_basis kind roots inv degree c e X V M) as (basis & BV & _ & _ & _ & _ & _ & BB).
  destruct (proj2 (made_object kind roots inv degree c) e H) as (ps & ws & rts & b & F & Ga & Ru & Lo & _).
  assert (C : g_coordinate e = c) by apply F. assert (N : g_n e = (degree + 1)%nat) by apply F.
  assert (PT : g_points e = fun k => local_to_global c (nth k rts 0)) by apply F.
  assert (Rp : nodal_represents degree c e).
  { destruct (ready_update _ _ _ _ _ _ H) as (e0 & M0 & U).
    destruct U as [(v & ->)|(t & ->)].
    - apply (set_values_represents ps ws rts inv b degree c e0 v F).
    - apply (set_taylor_represents ps ws rts inv b degree c V e0 t F). }
  split; [|split; [|split]].
  - intros x v E. rewrite (g_value_is ps ws rts inv b degree c X V e F x Rp). rewrite (g_values_list ps ws rts inv b degree c X V e F x) in E.
    injection E as <-. apply rsum_ext. intros j Hj. f_equal. rewrite (nth_indep _ 0 (ell rts 0 (xi c x))) by (rewrite map_length, seq_length; lia).
    rewrite (map_nth (fun j => ell rts j (xi c x)) (seq 0 (degree + 1)) 0%nat j), seq_nth by lia. reflexivity.
  - intros i Hi. apply (g_value_node ps ws rts inv b degree c X V e F); [lia|exact Rp].
  - exists (tsum (g_n e) (g_center e) (g_taylor e)). split; [split; [reflexivity|apply tsum_derive]|]. split; [intros; apply gradient_tsum|].
    assert (NV : forall i k, (i <= degree)%nat -> g_node_value e i k = tsum (g_n e) (g_center e) (g_taylor e) k (g_points e i)).
    { intros i k Hi. rewrite (node_value_is ps ws rts inv b degree c X V e F i k) by (lia || exact Rp).
      rewrite N, (center_m ps ws rts inv b degree c e F). reflexivity. }
    split; [|split; [exact NV|]].
    + intros k x K. unfold g_derivatives. rewrite derivatives_tsum, N. destruct (Nat.ltb_spec k (degree + 1)); [|lia]. rewrite Bool.orb_true_r. reflexivity.
    + intros k.
      assert (GB : forall left, dot (g_n e) (g_values e) (g_boundary_basis kind e k left) = tsum (g_n e) (g_center e) (g_taylor e) k (if left then x_left c else x_right c)).
      { intros left. rewrite (center_m ps ws rts inv b degree c e F), N, Rp. unfold dot. apply rsum_ext. intros j _. f_equal.
        destruct left; [apply (proj1 (BB k j))|apply (proj2 (BB k j))]. }
      unfold g_boundary. destruct kind; [split; apply (GB true) || apply (GB false)..|].
      destruct (Lo eq_refl) as (L0 & L1). rewrite N. split.
      * rewrite <- N, NV by lia. f_equal. rewrite PT, L0, map_is. field.
      * rewrite NV by lia. rewrite N. f_equal. replace (degree + 1 - 1)%nat with degree by lia. rewrite PT, L1, map_is. field.
  - intros Ex. destruct (ready_update _ _ _ _ _ _ H) as (e0 & M0 & U).
    destruct U as [(v & ->)|(t & ->)]; apply (update_average ps ws rts inv b degree c X V e0 _ _ F Rp (integrates_less (2 * degree - 1) degree ps ws ltac:(lia) (Ru Ex)) Ga).
Qed.
Print Assumptions py_nodal_values.

(** what was set is what is represented *)
Theorem py_nodal_setters kind roots inv degree c e : x_left c <> x_right c -> inverts inv -> made kind roots inv degree c e ->
  (forall a, exists e', g_set_coeff e (degree + 1) a = Some e' /\ forall k, g_values e' k = a k) /\
  (forall n a, n <> (degree + 1)%nat -> g_set_coeff e n a = None) /\
  (forall a x, g_value (g_set_taylor_coeff e a) x = rsum (degree + 1) (fun k => a k * (x - x_center c) ^ k)) /\
  (kind <> LobattoRoots -> forall f, (forall i, g_values (g_approximate_by kind e f) i = f (g_points e i)) /\
     (polynomial degree f -> forall x, g_value (g_approximate_by kind e f) x = f x)).
Proof.
  intros X V M. destruct (proj1 (made_object kind roots inv degree c) e M) as (ps & ws & rts & b & F & _).
  assert (C : g_coordinate e = c) by apply F. assert (N : g_n e = (degree + 1)%nat) by apply F.
  split; [|split; [|split]].
  - intros a. unfold g_set_coeff. rewrite N, Nat.eqb_refl. eexists. split; reflexivity.
  - intros n a Hn. unfold g_set_coeff. rewrite N. destruct (Nat.eqb_spec n (degree + 1)); [contradiction|reflexivity].
  - intros a x. unfold g_value, g_set_taylor_coeff, g_update, g_update_average, g_center, g_coordinate. cbn [g_n g_taylor g_integrator].
    fold (g_coordinate e). rewrite C, N. unfold global_to_value, dot. apply rsum_ext. intros k _. unfold taylor_values. rewrite x_power_is. reflexivity.
  - intros K f. assert (g_approximate_by kind e f = g_approximate e f) as -> by (destruct kind; [reflexivity|reflexivity|destruct (K eq_refl)]).
    split; [reflexivity|]. intros D. exact (nodal_reproduces ps ws rts inv b degree c X V e f F D).
Qed.
Print Assumptions py_nodal_setters.

(** the uniform roots are the centers of equal parts *)
Theorem py_uniform_roots n i : (i < n)%nat -> length (uniform_roots n) = n /\ nth i (uniform_roots n) 0 = -1 + (2 * INR i + 1) / INR n.
Proof.
  intros H. unfold uniform_roots. split; [rewrite map_length, seq_length; reflexivity|].
  set (f := fun i => (2 / INR n / 2 - 1) + INR i * (((1 - 2 / INR n / 2) - (2 / INR n / 2 - 1)) / INR (n - 1))).
  rewrite (nth_indep _ 0 (f 0%nat)) by (rewrite map_length, seq_length; exact H). rewrite (map_nth f), seq_nth by exact H. cbn [Nat.add]. unfold f. clear f.
  pose proof (lt_INR 0 n ltac:(lia)) as Pn. cbn [INR] in Pn.
  destruct (Nat.eq_dec n 1) as [->|N1].
  - replace i with 0%nat by lia. change (INR 0) with 0. rewrite Rmult_0_l. cbn [INR]. field.
  - rewrite minus_INR by lia. pose proof (lt_INR 1 n ltac:(lia)) as P1. cbn [INR] in *. field. lra.
Qed.
Print Assumptions py_uniform_roots.

(** ** C139: [LagrangeOnLobattoRoots.approximate] *)
(** the inner nodes are sampled, the ends are sampled a little inside *)
Theorem py_lobatto_approximate roots inv degree c e f : x_left c <> x_right c -> inverts inv -> made LobattoRoots roots inv degree c e ->
  (forall i, (0 < i < degree)%nat -> g_value (lobatto_approximate e f) (g_points e i) = f (g_points e i)) /\
  g_value (lobatto_approximate e f) (x_left c) = f (x_left c + 1 / 10 ^ 10) /\
  g_value (lobatto_approximate e f) (x_right c) = f (x_right c - 1 / 10 ^ 10) /\
  ((forall x y, f x = f y) -> forall x, g_value (lobatto_approximate e f) x = f x).
Proof.
  intros X V M. destruct (proj1 (made_object LobattoRoots roots inv degree c) e M) as (ps & ws & rts & b & F & _ & _ & Lo & _).
  destruct (Lo eq_refl) as (L0 & L1). assert (N : g_n e = (degree + 1)%nat) by apply F.
  assert (PT : g_points e = fun k => local_to_global c (nth k rts 0)) by apply F.
  assert (D : (0 < degree)%nat). { destruct degree; [|lia]. rewrite L0 in L1. lra. }
  assert (Rd : ready LobattoRoots roots inv degree c (lobatto_approximate e f)) by (apply (Approximate LobattoRoots _ _ _ _ e f M)).
  destruct (py_nodal_values LobattoRoots roots inv degree c _ X V Rd) as (_ & Nd & _).
  assert (P0 : g_points e 0%nat = x_left c) by (rewrite PT, L0, map_is; field).
  assert (P1 : g_points e degree = x_right c) by (rewrite PT, L1, map_is; field).
  assert (K : forall i, (i <= degree)%nat -> g_value (lobatto_approximate e f) (g_points e i) =
    if (i =? g_n e - 1)%nat then f (g_points e i - 1 / 10 ^ 10) else if (i =? 0)%nat then f (g_points e i + 1 / 10 ^ 10) else f (g_points e i)).
  { intros i Hi. exact (Nd i Hi). }
  rewrite N in K. split; [|split; [|split]].
  - intros i Hi. rewrite K by lia. destruct (Nat.eqb_spec i (degree + 1 - 1)); [lia|]. destruct (Nat.eqb_spec i 0); [lia|reflexivity].
  - rewrite <- P0, K by lia. destruct (Nat.eqb_spec 0 (degree + 1 - 1)); [lia|reflexivity].
  - rewrite <- P1, K by lia. destruct (Nat.eqb_spec degree (degree + 1 - 1)); [reflexivity|lia].
  - intros Cf x.
    assert (E : lobatto_approximate e f = g_approximate e f).
    { unfold lobatto_approximate, g_approximate. f_equal. apply functional_extensionality. intros i.
      destruct (i =? g_n e - 1)%nat; [apply Cf|]. destruct (i =? 0)%nat; [apply Cf|reflexivity]. }
    rewrite E. apply (nodal_reproduces ps ws rts inv b degree c X V e f F).
    exists (fun k => match k with O => f 0 | _ => 0 end). intros y. unfold Spec_Gauss.poly1. rewrite rsum_first, (rsum_zero degree).
    + rewrite (Cf y 0). cbn. ring.
    + intros i Hi. ring.
Qed.
Print Assumptions py_lobatto_approximate.

Definition two_roots := Prop_PyExpansion.two_roots.
Definition inv2 := Prop_PyExpansion.inv2.
Lemma two_init kind : let c := Linear 1 5 in exists e, Nodal_init kind two_roots inv2 1 c = Some e.
Proof.
  intros c. assert (J2 : forall x, local_to_global c x = 3 + 2 * x) by (intros x; rewrite map_is; unfold c; cbn [x_left x_right]; field).
  assert (Q : sqrt (1 / 3) > 0) by (apply sqrt_lt_R0; lra).
  destruct kind; cbn [Nodal_init].
  all: unfold UniformRoots_init, LegendreRoots_init, LobattoRoots_init, Integrator_init, two_roots, Prop_PyExpansion.two_roots; cbn [Nat.add GaussLobatto_points GaussLobatto_weights bind fst snd length Nat.eqb Nat.leb].
  all: unfold Lagrange_init, inv2, Prop_PyExpansion.inv2; cbn [bind Nat.eqb Nat.add Nat.leb Nat.ltb negb].
  all: destruct (Req_EM_T _ 0) as [Z|]; [exfalso|cbn [bind]; eexists; reflexivity].
  all: unfold base_rows, taylor_values in Z.
  all: cbn [i_coordinate] in Z; rewrite !x_power_is, !J2 in Z; cbn [pow] in Z.
  - assert (U0 := proj2 (py_uniform_roots 2 0 ltac:(lia))). assert (U1 := proj2 (py_uniform_roots 2 1 ltac:(lia))). cbn [INR] in U0, U1.
    rewrite U0, U1 in Z. lra.
  - cbn [nth] in Z. lra.
  - cbn [nth] in Z. lra.
Qed.
(** two terms on the element [1, 5], for all three kinds *)
Example py_nodal_example kind : let c := Linear 1 5 in
  x_left c <> x_right c /\ inverts inv2 /\ exact_rule kind two_roots 1 /\
  exists e, Nodal_init kind two_roots inv2 1 c = Some e /\ let e' := g_set_taylor_coeff e (fun k => match k with O => 11 | _ => 3 end) in
    ready kind two_roots inv2 1 c e' /\ g_value e' 4 = 14 /\ g_derivatives e' 4 1 = Some 3 /\ g_boundary kind e' 0 true = 5 /\
    g_average e' = Some 11 /\ g_values e' 0%nat < 11 < g_values e' 1%nat.
Proof.
  intros c. assert (X : x_left c <> x_right c) by (cbn; lra). split; [exact X|]. split; [exact Prop_PyExpansion.inv2_inverts|].
  assert (G : exact_rule kind two_roots 1) by (destruct kind; cbn [exact_rule Nat.add]; [apply Prop_PyExpansion.two_gauss|apply Prop_PyExpansion.two_gauss|lia]).
  split; [exact G|]. destruct (two_init kind) as (e & E). exists e. split; [exact E|]. intros e'.
  assert (M : made kind two_roots inv2 1 c e) by (constructor; exact E).
  assert (Rd : ready kind two_roots inv2 1 c e') by (apply Set_taylor, M). split; [exact Rd|].
  assert (V : forall x, g_value e' x = 3 * x + 2).
  { intros x. destruct (py_nodal_setters kind two_roots inv2 1 c e X Prop_PyExpansion.inv2_inverts M) as (_ & _ & S & _). unfold e'. rewrite S. change (x_center c) with ((1 + 5) / 2). cbn [Nat.add rsum pow]. field. }
  destruct (py_nodal_values kind two_roots inv2 1 c e' X Prop_PyExpansion.inv2_inverts Rd) as (_ & Nd & (d & (D0 & DS) & _ & DK & _ & DB) & Me).
  split; [rewrite V; lra|]. split; [|split; [|split]].
  - rewrite DK by lia. f_equal. assert (W : is_derive (d 0%nat) 4 3).
    { apply (is_derive_ext (fun x => 3 * x + 2)); [intros x; rewrite D0, V; reflexivity|]. auto_derive; [trivial|ring]. }
    apply is_derive_unique in W. rewrite (is_derive_unique _ _ _ (DS 0%nat 4)) in W. exact W.
  - rewrite (proj1 (DB 0%nat)), D0, V. cbn. lra.
  - destruct (Me G) as (q & -> & I). f_equal.
    assert (I' : is_RInt (g_value e') 1 5 44).
    { apply (@is_RInt_ext R_NormedModule (fun x => 3 * x + 2)); [intros x _; symmetry; apply V|].
      evar_last; [apply (@is_RInt_derive R_CompleteNormedModule (fun x => 3 * x ^ 2 / 2 + 2 * x) (fun x => 3 * x + 2))|].
      - intros y _. auto_derive; [trivial|field].
      - intros y _. apply continuity_pt_filterlim. reg.
      - unfold minus, plus, opp. cbn. field. }
    unfold mean in I. cbn [c x_left x_right] in I. apply (@is_RInt_unique R_CompleteNormedModule) in I. apply (@is_RInt_unique R_CompleteNormedModule) in I'. rewrite I' in I. lra.
  - rewrite <- !Nd, !V by lia.
    assert (PT : g_points e' = g_points e) by reflexivity. rewrite PT.
    assert (J2 : forall x, local_to_global c x = 3 + 2 * x) by (intros x; rewrite map_is; unfold c; cbn [x_left x_right]; field).
    assert (Q : sqrt (1 / 3) > 0) by (apply sqrt_lt_R0; lra).
    assert (exists a, a > 0 /\ g_points e 0%nat = 3 - a /\ g_points e 1%nat = 3 + a) as (a & A & -> & ->); [|lra].
    clear - E J2 Q. destruct kind; cbn [Nodal_init] in E.
    all: unfold UniformRoots_init, LegendreRoots_init, LobattoRoots_init, Integrator_init, two_roots, Prop_PyExpansion.two_roots in E; cbn [Nat.add GaussLobatto_points GaussLobatto_weights bind fst snd length Nat.eqb Nat.leb] in E.
    all: unfold Lagrange_init in E; cbn [bind Nat.eqb Nat.add Nat.leb Nat.ltb negb uniform_roots length map seq] in E.
    all: destruct (inv2 _ _) as [m|]; [|discriminate]; cbn [bind] in E; injection E as <-; cbn [g_points i_coordinate]; unfold linear_center, linear_jacobian.
    + exists 1.  split; [lra|]. cbn [nth INR Nat.sub]. split; field.
    + exists (2 * sqrt (1 / 3)). cbn [nth]. split; [|split]; lra.
    + exists 2. cbn [nth]. split; [|split]; lra.
Qed.
(** expected: an expansion of degree p represents polynomials of degree p exactly after [approximate], as those on
    the other two kinds of nodes do; on Lobatto nodes the function x becomes another linear function *)
Theorem py_lobatto_approximate_refuted : exists roots inv degree c e f, x_left c <> x_right c /\ inverts inv /\ exact_rule LobattoRoots roots degree /\
  made LobattoRoots roots inv degree c e /\ polynomial degree f /\
  exists x, g_value (g_approximate_by LobattoRoots e f) x <> f x.
Proof.
  destruct (two_init LobattoRoots) as (e & E). set (c := Linear 1 5) in *. assert (X : x_left c <> x_right c) by (cbn; lra).
  assert (M : made LobattoRoots two_roots inv2 1 c e) by (constructor; exact E).
  exists two_roots, inv2, 1%nat, c, e, (fun x => x). split; [exact X|]. split; [exact Prop_PyExpansion.inv2_inverts|]. split; [cbn; lia|]. split; [exact M|]. split.
  - exists (fun k => match k with O => 0 | _ => 1 end). intros x. unfold Spec_Gauss.poly1. cbn. ring.
  - exists (x_left c). destruct (py_lobatto_approximate two_roots inv2 1 c e (fun x => x) X Prop_PyExpansion.inv2_inverts M) as (_ & L & _).
    cbn [g_approximate_by]. rewrite L. pose proof (pow_lt 10 10 ltac:(lra)) as P. pose proof (Rdiv_lt_0_compat 1 (10 ^ 10) ltac:(lra) P). lra.
Qed.
Print Assumptions py_lobatto_approximate_refuted.
