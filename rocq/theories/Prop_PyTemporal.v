(** C133, C134, C135: time integrators and the time loop of the Python package *)
From Coq Require Import Reals Lra Lia List.
From Verif Require Import Arrays Model_Temporal Spec_Temporal Model_PyTemporal Spec_PyTemporal Proof_PyTemporal.
Import ListNotations.
Open Scope R_scope.

(** ** C133 *)
(** without limiter an update is one step of an explicit Runge-Kutta method that meets the order conditions *)
Theorem py_rk_orders order : (1 <= order <= 4)%nat ->
  exists rows b, length rows = order /\ length b = order /\ order_conditions order rows b /\
  forall I residual s dt t,
    rk_update (I:=I) residual (fun u => u) order s dt t = Some (mkSystem (t + dt) (butcher rows b residual t dt (s_solution s))).
Proof.
  intros H. exists (fst (tableau order)), (snd (tableau order)).
  split; [|split; [|split]].
  - assert (order = 1 \/ order = 2 \/ order = 3 \/ order = 4)%nat as [->|[->|[->| ->]]] by lia; reflexivity.
  - assert (order = 1 \/ order = 2 \/ order = 3 \/ order = 4)%nat as [->|[->|[->| ->]]] by lia; reflexivity.
  - apply tableau_order, H.
  - intros. exact (butcher_form residual order s dt t H).
Qed.
Print Assumptions py_rk_orders.

Theorem py_rk_other_orders I residual limit order s dt t : ~ (1 <= order <= 4)%nat -> rk_update (I:=I) residual limit order s dt t = None.
Proof. intros H. destruct order as [|[|[|[|[|order]]]]]; try reflexivity; lia. Qed.
Print Assumptions py_rk_other_orders.

(** linear systems: the exponential series up to the order *)
Theorem py_rk_linear I (a : Column I -> Column I) order s dt t : linear a -> (1 <= order <= 4)%nat ->
  exists s', rk_update (fun _ => a) (fun u => u) order s dt t = Some s' /\ s_time s' = t + dt /\
    forall i, s_solution s' i = taylor order a dt (s_solution s) i.
Proof. exact (rk_series a order s dt t). Qed.
Print Assumptions py_rk_linear.

(** polynomials in time: degree order - 1, orders 3 and 4 both degree 3 *)
Theorem py_rk_polynomial I (p : I -> list R) order s dt t : (1 <= order <= 4)%nat ->
  (forall i, (length (p i) <= match order with 3 | 4 => 4 | _ => order end)%nat) ->
  exists s', rk_update (fun t _ i => poly (p i) t) (fun u => u) order s dt t = Some s' /\
    forall i, s_solution s' i = s_solution s i + integral (p i) t (t + dt).
Proof. exact (rk_quadrature p order s dt t). Qed.
Print Assumptions py_rk_polynomial.

(** ** C134 *)
Theorem py_rk_convex I (P : Column I -> Prop) residual limit dt order s t : convex P -> (1 <= order <= 3)%nat ->
  (forall t u, P u -> P (fun i => u i + dt * residual t u i)) -> (forall u, P u -> P (limit u)) -> P (s_solution s) ->
  exists s', rk_update residual limit order s dt t = Some s' /\ s_time s' = t + dt /\ P (s_solution s').
Proof. exact (rk_keeps P residual limit dt order s t). Qed.
Print Assumptions py_rk_convex.
Theorem py_rk_invariant I (l : Column I -> R) residual limit dt order s t : functional l -> (1 <= order <= 4)%nat ->
  (forall t u, l (residual t u) = 0) -> (forall u, l (limit u) = l u) ->
  exists s', rk_update residual limit order s dt t = Some s' /\ l (s_solution s') = l (s_solution s).
Proof. exact (rk_conserves l residual limit dt order s t). Qed.
Print Assumptions py_rk_invariant.

(** orders 1 to 3 only: a step of order 4 can leave a convex set that Euler steps keep *)
Theorem py_rk4_leaves_convex_sets : exists (P : Column unit -> Prop) residual dt s,
  convex P /\ (forall t u, P u -> P (fun i => u i + dt * residual t u i)) /\ P (s_solution s) /\
  exists s', rk_update residual (fun u => u) 4 s dt 0 = Some s' /\ ~ P (s_solution s').
Proof.
  exists (fun u => 0 <= u tt), (fun t u _ => if Rlt_dec (u tt) 0 then -100 else if Rlt_dec t (1 / 4) then 1 else - u tt), 1, (mkSystem 0 (fun _ => 0)).
  split; [intros u v w W A B; nra|]. split.
  - intros t u H. destruct (Rlt_dec (u tt) 0); [lra|]. destruct (Rlt_dec t (1 / 4)); lra.
  - split; [cbn; lra|]. eexists. split; [reflexivity|]. cbn [s_solution s_time set_time set_solution_column]. open_py.
    repeat (match goal with |- context [Rlt_dec ?a ?b] => destruct (Rlt_dec a b); try lra end).
Qed.
Print Assumptions py_rk4_leaves_convex_sets.

(** ** C135 *)
(** frames are written at equally spaced times from t_start to t_stop, the first one with the initial state, each
    reached from the one before by updates that respect the greatest step and all suggestions *)
Theorem py_frames S (update : S -> R -> R -> option S) suggestions fuel t_start t_stop n_step n_frame s fs steps :
  t_start <= t_stop ->
  solve_and_write update suggestions fuel t_start t_stop n_step n_frame s = Some (fs, steps) ->
  length fs = (n_frame + 1)%nat /\ nth_error fs 0 = Some (t_start, s) /\
  (forall i, (i <= n_frame)%nat -> exists si, nth_error fs i = Some (t_start + INR i * ((t_stop - t_start) / INR n_frame), si)) /\
  (exists si, nth_error fs n_frame = Some (t_stop, si) /\
     chain update suggestions ((t_stop - t_start) / INR n_step) s t_start steps si t_stop) /\
  (forall i x y, nth_error fs i = Some x -> nth_error fs (i + 1) = Some y ->
     exists l, chain update suggestions ((t_stop - t_start) / INR n_step) (snd x) (fst x) l (snd y) (fst y)).
Proof.
  unfold solve_and_write. destruct (Nat.eqb_spec n_step 0) as [|A]; [discriminate|]. destruct (Nat.eqb_spec n_frame 0) as [|B]; [discriminate|].
  cbn [orb]. intros T E. assert (P := lt_0_INR n_frame ltac:(lia)).
  assert (D : 0 <= (t_stop - t_start) / INR n_frame) by (apply Rmult_le_pos; [lra|left; apply Rinv_0_lt_compat; exact P]).
  destruct (frames_spec _ _ _ _ _ _ _ _ _ _ D E) as (L & F & Z & Q & s' & N & C).
  assert (X : t_start + INR n_frame * ((t_stop - t_start) / INR n_frame) = t_stop) by (field; lra). rewrite X in N, C.
  split; [lia|]. split; [exact Z|]. split; [exact F|]. split; [exists s'; auto|].
  intros i x y. replace (i + 1)%nat with (Datatypes.S i) by lia. apply Q.
Qed.
Print Assumptions py_frames.

(** with suggestions bounded from below and updates that succeed, every frame is reached *)
Theorem py_loop_ends S (update : S -> R -> R -> option S) suggestions t_start t_stop n_step n_frame s m :
  t_start < t_stop -> (0 < n_step)%nat -> (0 < n_frame)%nat -> 0 < m -> (forall s d, In d (suggestions s) -> m <= d) ->
  (forall s dt t, exists s', update s dt t = Some s') ->
  exists fuel, solve_and_write update suggestions fuel t_start t_stop n_step n_frame s <> None.
Proof. exact (solve_total update suggestions t_start t_stop n_step n_frame s m). Qed.
Print Assumptions py_loop_ends.

(** ** Examples *)
Definition turn (u : Column bool) : Column bool := fun i => if i then u false else - u true.
(** a quarter of the exact series of the rotation *)
Example py_rk_linear_example : linear turn /\
  exists s', rk_update (fun _ => turn) (fun u => u) 4 (mkSystem 7 (fun i : bool => if i then 1 else 0)) (1 / 2) 3 = Some s' /\
    s_time s' = 7 / 2 /\ s_solution s' true = 337 / 384 /\ s_solution s' false = - (23 / 48).
Proof.
  split; [split; intros; destruct i; unfold turn; ring|].
  eexists. split; [reflexivity|]. cbn [s_time set_time]. split; [field|]. open_py. unfold turn. cbn [s_solution]. split; field.
Qed.
(** the orders are sharp: u' = t^4 is not integrated exactly by order 4, u' = t by order 1 *)
Example py_rk_polynomial_example :
  (exists s', rk_update (fun t _ (_ : unit) => poly [1; 0; 0; 4] t) (fun u => u) 4 (mkSystem 0 (fun _ => 5)) 2 1 = Some s' /\ s_solution s' tt = 87) /\
  (exists s', rk_update (fun t _ (_ : unit) => poly [0; 0; 0; 0; 1] t) (fun u => u) 4 (mkSystem 0 (fun _ => 0)) 1 0 = Some s' /\ s_solution s' tt = 5 / 24).
Proof.
  split; (eexists; split; [reflexivity|]); open_py; cbn [s_solution poly]; field.
Qed.
(** decay with a clipping limiter stays in the unit interval; an exchange keeps the sum *)
Example py_rk_convex_example :
  exists s', rk_update (fun _ u (_ : unit) => - u tt) (fun u _ => Rmin 1 (u tt)) 3 (mkSystem 0 (fun _ => 1)) 1 0 = Some s' /\
    s_time s' = 0 + 1 /\ 0 <= s_solution s' tt <= 1.
Proof.
  apply (py_rk_convex unit (fun u => 0 <= u tt <= 1)); [..|cbn; lra]; try lia.
  - intros u v w W A B. nra.
  - intros t u H. lra.
  - intros u H. unfold Rmin. destruct (Rle_dec 1 (u tt)); lra.
Qed.
Example py_rk_invariant_example : exists s',
  rk_update (fun t u (i : bool) => if i then t * u false else - (t * u false)) (fun u => u) 4 (mkSystem 0 (fun i : bool => if i then 1 else 2)) (1 / 2) 1 = Some s' /\
  s_solution s' true + s_solution s' false = 3.
Proof.
  destruct (py_rk_invariant bool (fun u => u true + u false) (fun t u (i : bool) => if i then t * u false else - (t * u false)) (fun u => u) (1 / 2) 4
    (mkSystem 0 (fun i : bool => if i then 1 else 2)) 1) as (s' & E & L); try lia.
  - split; intros; ring.
  - intros; ring.
  - reflexivity.
  - exists s'. split; [exact E|]. rewrite L. cbn. ring.
Qed.
(** u' = 1 from 0 to 1 with three steps at most 1/3 long, a suggestion of 2/5 and two frames: steps 1/3 and 1/6 in each *)
Definition grow (u dt t : R) : option R := Some (u + dt).
Definition two_steps (u : R) : list R := [2 / 5; 1].
Lemma grow_step fuel dt_max t_next u t d u' t' : t < t_next -> Rmin dt_max (Rmin (Rmin (t_next - t) (2 / 5)) 1) = d -> u + d = u' -> t + d = t' ->
  advance grow two_steps (S fuel) dt_max t_next u t =
  bind (advance grow two_steps fuel dt_max t_next u' t') (fun r => Some (fst r, (t, d) :: snd r)).
Proof. intros L <- <- <-. cbn [advance]. destruct (Rlt_dec t t_next); [reflexivity|contradiction]. Qed.
Lemma grow_done fuel dt_max t u : advance grow two_steps fuel dt_max t u t = Some (u, t, []).
Proof. destruct fuel; cbn [advance]; destruct (Rlt_dec t t); [lra|reflexivity|lra|reflexivity]. Qed.
Lemma Rmin_l a b : a <= b -> Rmin a b = a. Proof. intros. unfold Rmin. destruct (Rle_dec a b); lra. Qed.
Lemma Rmin_r a b : b <= a -> Rmin a b = b. Proof. intros. unfold Rmin. destruct (Rle_dec a b); lra. Qed.
Lemma grow_frame u t : advance grow two_steps 5 (1 / 3) (t + 1 / 2) u t = Some (u + 1 / 2, t + 1 / 2, [(t, 1 / 3); (t + 1 / 3, 1 / 6)]).
Proof.
  rewrite (grow_step 4 _ _ _ _ (1 / 3) (u + 1 / 3) (t + 1 / 3)); [|lra| |lra|lra].
  2: { rewrite (Rmin_r (t + 1 / 2 - t)), (Rmin_l (2 / 5)), Rmin_l by lra. reflexivity. }
  rewrite (grow_step 3 _ _ _ _ (1 / 6) (u + 1 / 2) (t + 1 / 2)); [|lra| |lra|lra].
  2: { rewrite (Rmin_l (t + 1 / 2 - (t + 1 / 3))), (Rmin_l (t + 1 / 2 - (t + 1 / 3))), Rmin_r by lra. lra. }
  rewrite grow_done. reflexivity.
Qed.
Example py_frames_example :
  exists fs, solve_and_write grow two_steps 5 0 1 3 2 7 = Some (fs, [(0, 1 / 3); (1 / 3, 1 / 6); (1 / 2, 1 / 3); (5 / 6, 1 / 6)]) /\
  fs = [(0, 7); (1 / 2, 15 / 2); (1, 8)].
Proof.
  eexists. split; [|reflexivity]. unfold solve_and_write. cbn [Nat.eqb orb].
  replace ((1 - 0) / INR 3) with (1 / 3) by (cbn [INR]; field). replace ((1 - 0) / INR 2) with (1 / 2) by (cbn [INR]; field).
  cbn [frames]. rewrite grow_frame. cbn [bind fst snd]. rewrite grow_frame. cbn [bind fst snd app].
  replace (0 + 1 / 2) with (1 / 2) by lra. replace (7 + 1 / 2) with (15 / 2) by lra.
  replace (1 / 2 + 1 / 2) with 1 by lra. replace (15 / 2 + 1 / 2) with 8 by lra.
  replace (0 + 1 / 3) with (1 / 3) by lra. replace (1 / 2 + 1 / 3) with (5 / 6) by lra. reflexivity.
Qed.
