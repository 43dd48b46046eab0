(** C23, C24, C25: time stepping *)
From Coq Require Import Reals Lra Lia List.
From Verif Require Import Model_Temporal Spec_Temporal Proof_Temporal.
Import ListNotations.
Open Scope R_scope.

Theorem C23_matches_exponential_series :
  forall I (a : Column I -> Column I), linear a -> forall k, (1 <= k <= 3)%nat ->
  forall s t dt i, s_solution (RK_Update (Constant a) k s t dt) i = taylor k a dt (s_solution s) i.
Proof. exact @rk_taylor. Qed.
Print Assumptions C23_matches_exponential_series.

Theorem C24_convex_sets_are_kept :
  forall I (P : Column I -> Prop) residual dt, convex P ->
  (forall t u, P u -> P (fun i => u i + dt * residual t u i)) ->
  forall k, (1 <= k <= 3)%nat -> forall ts s, P (s_solution s) ->
  P (s_solution (fold_left (fun s t => RK_Update residual k s t dt) ts s)).
Proof. exact @rk_convex. Qed.
Print Assumptions C24_convex_sets_are_kept.

Theorem C24_linear_invariants_are_kept :
  forall I (l : Column I -> R) residual, functional l -> (forall t u, l (residual t u) = 0) ->
  forall k, (1 <= k <= 3)%nat -> forall steps s,
  l (s_solution (fold_left (fun s td => RK_Update residual k s (fst td) (snd td)) steps s)) =
  l (s_solution s).
Proof. exact @rk_invariant. Qed.
Print Assumptions C24_linear_invariants_are_kept.

(** [k] coefficients are a polynomial of degree below [k]; the third scheme is exact even for
    four coefficients *)
Theorem C25_polynomials_in_time :
  forall I (p : I -> list R) k, (1 <= k <= 3)%nat ->
  (forall i, (length (p i) <= match k with 3 => 4 | _ => k end)%nat) ->
  forall s t dt i,
  s_solution (RK_Update (fun t _ i => poly (p i) t) k s t dt) i =
  s_solution s i + integral (p i) t (t + dt).
Proof. exact @rk_poly. Qed.
Print Assumptions C25_polynomials_in_time.

(** ** Examples *)

(** rotation in the plane, a non-trivial linear operator *)
Definition rotation (u : Column bool) : Column bool := fun i => if i then u false else - u true.

Example C23_nonvacuous : linear rotation /\
  s_solution (RK_Update (Constant rotation) 3 (mkSystem 0 (fun i : bool => if i then 1 else 0)) 0 (1 / 2)) true
    = 7 / 8.
Proof.
  split.
  - split; intros; destruct i; unfold rotation; ring.
  - rewrite rk_taylor by (lia || (split; intros; destruct i; unfold rotation; ring)).
    simpl. unfold rotation. field.
Qed.

(** decay at rate 1 with a step of 1/2 keeps the interval [0,1]; a mean-free residual keeps the
    sum *)
Definition decay (_ : R) (u : Column unit) : Column unit := fun i => - u i.
Definition swap (t : R) (u : Column bool) : Column bool :=
  fun i => if i then t * u false else - (t * u false).
Definition total (u : Column bool) : R := u true + u false.

Example C24_nonvacuous :
  convex (fun u : Column unit => 0 <= u tt <= 1) /\
  (forall t u, 0 <= u tt <= 1 -> 0 <= u tt + 1 / 2 * decay t u tt <= 1) /\
  functional total /\ (forall t u, total (swap t u) = 0).
Proof.
  unfold convex, functional, decay, total, swap. repeat split; intros; try lra; try nra.
Qed.

(** the third scheme integrates 1 + 3 t^2 from 1 to 3 *)
Example C25_nonvacuous :
  s_solution (RK_Update (fun t _ (i : unit) => poly [1; 0; 3] t) 3 (mkSystem 0 (fun _ : unit => 0)) 1 2) tt = 28.
Proof.
  rewrite (rk_poly (fun _ => [1; 0; 3])) by (simpl; lia). unfold integral. simpl. field.
Qed.
