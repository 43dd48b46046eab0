From Coq Require Import Reals Lra Lia List FunctionalExtensionality.
From Verif Require Import Model_Temporal Spec_Temporal.
Import ListNotations.
Open Scope R_scope.

Lemma linear_comb {I} (a : Column I -> Column I) : linear a ->
  forall c d u v, a (fun j => c * u j + d * v j) = fun i => c * a u i + d * a v i.
Proof.
  intros (L1 & L2) c d u v. extensionality i.
  rewrite (L1 (fun j => c * u j) (fun j => d * v j)), !L2. reflexivity.
Qed.

Lemma rk_taylor {I} (a : Column I -> Column I) : linear a -> forall k, (1 <= k <= 3)%nat ->
  forall s t dt i, s_solution (RK_Update (Constant a) k s t dt) i = taylor k a dt (s_solution s) i.
Proof.
  intros L k Hk s t dt i.
  assert (LC := linear_comb a L).
  assert (C1 : forall c u, a (fun j => c * u j) = fun i => c * a u i).
  { intros c u. extensionality j. apply L. }
  assert (E1 : forall u v : Column I, a (fun j => u j + dt * v j) = fun i => a u i + dt * a v i).
  { intros u v. replace (fun j => u j + dt * v j) with (fun j => 1 * u j + dt * v j)
      by (extensionality j; ring). rewrite LC. extensionality j. ring. }
  destruct s as [t0 u]. assert (K : k = 1%nat \/ k = 2%nat \/ k = 3%nat) by lia.
  destruct K as [-> | [-> | ->]];
    unfold RK_Update, RK1_Update, RK2_Update, RK3_Update, Euler_Update, NextSolution, SetTime,
      SetSolutionColumn, GetResidualColumn, Constant, cadd, cscale;
    cbn [s_solution s_time taylor power fact INR]; simpl fact; simpl INR.
  - field.
  - rewrite E1. field.
  - rewrite E1. rewrite C1.
    replace (fun i0 : I => 3 * u i0 + (u i0 + dt * a u i0 + dt * (a u i0 + dt * a (a u) i0)))
      with (fun i0 : I => 4 * u i0 + (2 * dt) * a u i0 + (dt * dt) * a (a u) i0)
      by (extensionality j; ring).
    replace (fun i0 : I => 4 * u i0 + (2 * dt) * a u i0 + (dt * dt) * a (a u) i0)
      with (fun i0 : I => 1 * (fun j => 4 * u j + (2 * dt) * a u j) i0 + (dt * dt) * a (a u) i0)
      by (extensionality j; ring).
    rewrite LC, LC. field.
Qed.


Lemma rk_cases k : (1 <= k <= 3)%nat -> k = 1%nat \/ k = 2%nat \/ k = 3%nat.
Proof. lia. Qed.

Ltac open_rk :=
  unfold RK_Update, RK1_Update, RK2_Update, RK3_Update, Euler_Update, NextSolution, SetTime,
      SetSolutionColumn, GetResidualColumn, Constant, cadd, cscale; cbn [s_solution s_time].

Lemma convex_use {I} (P : Column I -> Prop) w u v z : convex P -> 0 <= w <= 1 -> P u -> P v ->
  (forall i, z i = w * u i + (1 - w) * v i) -> P z.
Proof.
  intros C Hw Hu Hv E. replace z with (fun i => w * u i + (1 - w) * v i); [apply C; auto|].
  extensionality i. symmetry. apply E.
Qed.

Lemma rk_convex_step {I} (P : Column I -> Prop) residual dt : convex P ->
  (forall t u, P u -> P (fun i => u i + dt * residual t u i)) ->
  forall k, (1 <= k <= 3)%nat -> forall s t, P (s_solution s) ->
  P (s_solution (RK_Update residual k s t dt)).
Proof.
  intros C H k Hk [t0 u] t Hu. simpl in Hu.
  destruct (rk_cases k Hk) as [-> | [-> | ->]]; open_rk.
  - apply H. auto.
  - set (u1 := fun i => u i + dt * residual t u i).
    assert (P1 : P u1) by (apply H; auto).
    apply (convex_use P (1 / 2) _ u _ C) with (2 := H (t + dt) u1 P1); auto; [lra|].
    intros i. cbv beta. try change (u1 i) with (u i + dt * residual t u i). field.
  - set (u1 := fun i => u i + dt * residual t u i).
    assert (P1 : P u1) by (apply H; auto).
    set (u2 := fun i => / 4 * (3 * u i + (u1 i + dt * residual (t + dt) u1 i))).
    assert (P2 : P u2).
    { apply (convex_use P (1 / 4) _ u _ C) with (2 := H (t + dt) u1 P1); auto; [lra|].
      intros i. unfold u2. field. }
    change (P (fun i => / 3 * (2 * (u2 i + dt * residual (t + dt / 2) u2 i) + u i))).
    apply (convex_use P (2 / 3) _ u _ C) with (2 := H (t + dt / 2) u2 P2); auto; [lra|].
    intros i. cbv beta. field.
Qed.

Lemma rk_convex {I} (P : Column I -> Prop) residual dt : convex P ->
  (forall t u, P u -> P (fun i => u i + dt * residual t u i)) ->
  forall k, (1 <= k <= 3)%nat -> forall ts s, P (s_solution s) ->
  P (s_solution (fold_left (fun s t => RK_Update residual k s t dt) ts s)).
Proof.
  intros C H k Hk. induction ts as [|t ts IH]; intros s Hs; simpl; auto.
  apply IH. apply rk_convex_step; auto.
Qed.

Lemma rk_invariant {I} (l : Column I -> R) residual : functional l ->
  (forall t u, l (residual t u) = 0) ->
  forall k, (1 <= k <= 3)%nat -> forall steps s,
  l (s_solution (fold_left (fun s td => RK_Update residual k s (fst td) (snd td)) steps s)) =
  l (s_solution s).
Proof.
  intros (L1 & L2) H k Hk.
  assert (E : forall dt t u, l (fun i => u i + dt * residual t u i) = l u).
  { intros dt t u. rewrite (L1 u (fun i => dt * residual t u i)), L2, H. ring. }
  assert (S : forall s t dt, l (s_solution (RK_Update residual k s t dt)) = l (s_solution s)).
  { intros [t0 u] t dt. destruct (rk_cases k Hk) as [-> | [-> | ->]]; open_rk.
    - apply E.
    - rewrite L2, (L1 (fun i => _) u), !E. field.
    - rewrite L2, (L1 (fun i => 2 * _) u), L2, E, L2, (L1 (fun i => 3 * u i) (fun i => _)), L2, !E.
      field. }
  induction steps as [|[t dt] ts IH]; intros s; simpl; auto. rewrite IH. apply S.
Qed.

(** the antiderivative is one *)
Lemma rk_poly {I} (p : I -> list R) : forall k, (1 <= k <= 3)%nat ->
  (forall i, (length (p i) <= match k with 3 => 4 | _ => k end)%nat) ->
  forall s t dt i,
  s_solution (RK_Update (fun t _ i => poly (p i) t) k s t dt) i =
  s_solution s i + integral (p i) t (t + dt).
Proof.
  intros k Hk HL [t0 u] t dt i. specialize (HL i). unfold integral.
  destruct (rk_cases k Hk) as [-> | [-> | ->]]; open_rk;
    (destruct (p i) as [|c0 [|c1 [|c2 [|c3 [|c4 r]]]]]; simpl in HL; try lia;
     simpl; field).
Qed.
