(** C176, C177: time steps of the Python package *)
From Coq Require Import Reals List Arith ZArith Lra Lia.
From Verif Require Import Arrays Model_PyEuler Model_PyMarch.
Import ListNotations.
Open Scope R_scope.

(** ** C176 *)
Lemma cfl3 p : (p <= 8)%nat -> exists c, dg_cfl p 3 = Some c /\ 0 < c.
Proof. intros H. do 9 (destruct p as [|p]; [eexists; split; [reflexivity|lra]|]). lia. Qed.
Lemma factor_pos p : 1 <= spatial_factor p.
Proof.
  do 7 (destruct p as [|p]; [cbn [spatial_factor]; lra|]). cbn [spatial_factor]. assert (7 <= INR (S (S (S (S (S (S (S p)))))))) by (replace 7 with (INR 7) by (cbn; lra); apply le_INR; lia). set (y := INR _) in *. nra.
Qed.
(** the suggested step of an element *)
Theorem py_step_size h p lambda_c lambda_d : 0 < h -> 0 <= lambda_d -> (p <= 8)%nat ->
  exists dt c, dg_cfl p 3 = Some c /\ blazek dg_cfl h p lambda_c lambda_d = Some dt /\ blazek fr_cfl h p lambda_c lambda_d = Some (2 * dt) /\ 0 < dt /\
    (1 / 10 ^ 16 <= lambda_c -> dt * (lambda_c + spatial_factor p * lambda_d) = c * h) /\
    dt * lambda_c <= c * h /\ dt * lambda_d <= c * h.
Proof.
  intros H D P. destruct (cfl3 p P) as (c & C & Cp). pose proof (factor_pos p) as F. set (f := spatial_factor p) in *. pose proof (Rmax_l lambda_c (1 / 10 ^ 16)) as M1. pose proof (Rmax_r lambda_c (1 / 10 ^ 16)) as M2. assert (E : 0 < 1 / 10 ^ 16) by (apply Rdiv_lt_0_compat; [lra|apply pow_lt; lra]).
  unfold blazek. fold f. set (m := Rmax _ _) in *. assert (W : 0 < m + f * lambda_d) by nra. exists (h / (m + f * lambda_d) * c), c. unfold fr_cfl. rewrite C. unfold div. destruct (Req_EM_T (m + f * lambda_d) 0); [lra|]. cbn [bind].
  assert (Q : h / (m + f * lambda_d) * c * (m + f * lambda_d) = c * h) by (field; lra). assert (Pd : 0 < h / (m + f * lambda_d) * c) by (apply Rmult_lt_0_compat; [apply Rdiv_lt_0_compat; assumption|exact Cp]). split; [reflexivity|]. split; [reflexivity|]. split; [f_equal; ring|]. split; [exact Pd|].
  set (dt := h / (m + f * lambda_d) * c) in *. clearbody dt. split; [|split].
  - intros L. replace m with lambda_c in Q by (unfold m; rewrite Rmax_left; lra). exact Q.
  - clearbody m f. rewrite <- Q. apply Rmult_le_compat_l; [lra|]. assert (0 <= f * lambda_d) by (apply Rmult_le_pos; lra). lra.
  - clearbody m f. rewrite <- Q. apply Rmult_le_compat_l; [lra|]. assert (0 <= (f - 1) * lambda_d) by (apply Rmult_le_pos; lra). lra.
Qed.
Print Assumptions py_step_size.
(** degrees above 8 raise *)
Theorem py_step_degree h p lambda_c lambda_d : (9 <= p)%nat -> blazek dg_cfl h p lambda_c lambda_d = None /\ blazek fr_cfl h p lambda_c lambda_d = None.
Proof.
  intros P. assert (C : dg_cfl p 3 = None) by (unfold dg_cfl; replace (nth_error (cfl_column 3) p) with (@None Z) by (symmetry; apply nth_error_None; cbn; lia); reflexivity). unfold blazek, fr_cfl. rewrite C. destruct (div _ _); split; reflexivity.
Qed.
Print Assumptions py_step_degree.
(** the step respects the numbers of the third and the fourth order, and from degree 2 on those of the second *)
Theorem py_step_order h p order c lambda_d lambda_c dt : 0 < h -> 0 <= lambda_d -> (order = 3 \/ order = 4 \/ (order = 2 /\ 2 <= p) \/ (order = 1 /\ 1 <= p))%nat -> dg_cfl p order = Some c ->
  blazek dg_cfl h p lambda_c lambda_d = Some dt -> dt * lambda_c <= c * h.
Proof.
  intros H D O C B. assert (P : (p <= 8)%nat) by (destruct (le_lt_dec p 8); [assumption|]; destruct (py_step_degree h p lambda_c lambda_d ltac:(lia)) as (N & _); congruence).
  destruct (py_step_size h p lambda_c lambda_d H D P) as (dt' & c3 & C3 & B' & _ & _ & _ & L & _). rewrite B in B'. injection B' as <-. apply (Rle_trans _ _ _ L). apply Rmult_le_compat_r; [lra|].
  do 9 (destruct p as [|p]; [destruct O as [->|[->|[(-> & O)|(-> & O)]]]; try lia; cbn in C, C3; injection C as <-; injection C3 as <-; lra|]). lia.
Qed.
Print Assumptions py_step_order.
(** but not those of the second order for degree 0 and 1 *)
Theorem py_step_order_refuted : exists h p lambda_c lambda_d dt c, 0 < h /\ 0 < lambda_c /\ 0 <= lambda_d /\ (p <= 1)%nat /\ blazek dg_cfl h p lambda_c lambda_d = Some dt /\ dg_cfl p 2 = Some c /\ c * h < dt * lambda_c.
Proof.
  destruct (py_step_size 1 0 1 0 ltac:(lra) ltac:(lra) ltac:(lia)) as (dt & c & C & B & _ & _ & E & _). cbn in C. injection C as <-.
  exists 1, 0%nat, 1, 0, dt, (1000 / 1000). split; [lra|]. split; [lra|]. split; [lra|]. split; [lia|]. split; [exact B|]. split; [reflexivity|]. assert (1 / 10 ^ 16 <= 1) by (cbn; lra). specialize (E H). lra.
Qed.
Print Assumptions py_step_order_refuted.
(** degree 2, length 1/2, speed 3, diffusion 1/2: [0.209 * 0.5 / (3 + 6 * 0.5)] *)
Example py_step_example : exists dt, blazek dg_cfl (1 / 2) 2 3 (1 / 2) = Some dt /\ dt = 209 / 12000 /\ spatial_factor 7 = 147.
Proof.
  destruct (py_step_size (1 / 2) 2 3 (1 / 2) ltac:(lra) ltac:(lra) ltac:(lia)) as (dt & c & C & B & _ & _ & E & _). cbn in C. injection C as <-. exists dt. split; [exact B|]. assert (1 / 10 ^ 16 <= 3) by (cbn; lra). specialize (E H). cbn [spatial_factor] in E |- *. split; [lra|]. cbn. lra.
Qed.

(** ** C177 *)
Section Marching.
  Context {S : Type}.
  Variables (suggestions : S -> option (list R)) (update : S -> R -> R -> option S) (viscosity : S -> option S).
  (** consecutive steps from state to state *)
  Inductive path (v : bool) : S -> R -> list (S * R * R) -> S -> R -> Prop :=
  | Stop s t : path v s t [] s t
  | Go s t dt s1 s2 l s' t' : update s dt t = Some s1 -> (if v then viscosity s1 else Some s1) = Some s2 -> path v s2 (t + dt) l s' t' -> path v s t ((s, t, dt) :: l) s' t'.
  Definition admissible (dt_max : R) (step : S * R * R) : Prop :=
    let '(s, _, dt) := step in 0 < dt <= dt_max /\ exists l, suggestions s = Some l /\ forall d, In d l -> dt <= d.
  Hypothesis positive : forall s l, suggestions s = Some l -> forall d, In d l -> 0 < d.
  Lemma fold_min l : forall d, fold_left Rmin l d <= d /\ (forall x, In x l -> fold_left Rmin l d <= x) /\ (0 < d -> (forall x, In x l -> 0 < x) -> 0 < fold_left Rmin l d) /\
    (forall m, m <= d -> (forall x, In x l -> m <= x) -> m <= fold_left Rmin l d) /\ (fold_left Rmin l d = d \/ In (fold_left Rmin l d) l).
  Proof.
    induction l as [|a l IH]; intros d; cbn [fold_left]; [repeat split; auto; [lra|intros x []]|]. destruct (IH (Rmin d a)) as (A & B & C & D & E). pose proof (Rmin_l d a). pose proof (Rmin_r d a). repeat split.
    - lra.
    - intros x [<-|Hx]; [lra|apply B, Hx].
    - intros P Q. apply C; [apply Rmin_glb_lt; [exact P|apply Q; left; reflexivity]|intros x Hx; apply Q; right; exact Hx].
    - intros m M Q. apply D; [apply Rmin_glb; [exact M|apply Q; left; reflexivity]|intros x Hx; apply Q; right; exact Hx].
    - destruct E as [E|E]; [|right; right; exact E]. rewrite E. unfold Rmin. destruct (Rle_dec d a); [left; reflexivity|right; left; reflexivity].
  Qed.
  Lemma march_is v fuel : forall dt_max t_next s t steps s' t' out, 0 < dt_max -> t <= t_next -> march suggestions update viscosity v fuel dt_max t_next s t steps = Some (s', t', out) ->
    t' = t_next /\ exists l, out = steps ++ l /\ path v s t l s' t' /\ forall x, In x l -> admissible dt_max x.
  Proof.
    induction fuel as [|fuel IH]; intros dt_max t_next s t steps s' t' out M L E; cbn [march] in E; (destruct (Rlt_dec t t_next) as [Lt|Ge]; [|injection E as <- <- <-; split; [lra|exists []; rewrite app_nil_r; repeat split; [constructor|intros x []]]]); [discriminate|].
    unfold suggest_delta_t in E. destruct (suggestions s) as [l|] eqn:Sg; [|discriminate]. cbn [bind] in E. set (d := fold_left Rmin l (t_next - t)) in *. destruct (fold_min l (t_next - t)) as (F1 & F2 & F3 & _). fold d in F1, F2, F3.
    assert (Dp : 0 < d) by (apply F3; [lra|apply (positive s l Sg)]). pose proof (Rmin_l dt_max d). pose proof (Rmin_r dt_max d). assert (Dt : 0 < Rmin dt_max d) by (apply Rmin_glb_lt; assumption). set (dt := Rmin dt_max d) in *.
    destruct (update s dt t) as [s1|] eqn:U; [|discriminate]. cbn [bind] in E. destruct (if v then viscosity s1 else Some s1) as [s2|] eqn:Vi; [|discriminate]. cbn [bind] in E.
    assert (Nx : t + dt <= t_next) by lra. destruct (IH _ _ _ _ _ _ _ _ M Nx E) as (T & l' & O & Pa & Ad). split; [exact T|]. exists ((s, t, dt) :: l'). rewrite O, <- app_assoc. split; [reflexivity|]. split; [econstructor; eassumption|].
    intros x [<-|Hx]; [|apply Ad, Hx]. cbn. split; [lra|]. exists l. split; [exact Sg|]. intros y Hy. specialize (F2 y Hy). lra.
  Qed.
  Hypotheses (d_min : R) (d_pos : 0 < d_min) (bounded : forall s, exists l, suggestions s = Some l /\ forall d, In d l -> d_min <= d).
  Hypotheses (updates : forall s dt t, exists s', update s dt t = Some s') (viscous : forall s, exists s', viscosity s = Some s').
  Lemma march_ends v n : forall dt_max t_next s t steps, d_min <= dt_max -> t_next - t <= INR n * d_min -> exists r, march suggestions update viscosity v n dt_max t_next s t steps = Some r.
  Proof.
    induction n as [|n IH]; intros dt_max t_next s t steps M L; cbn [march]; (destruct (Rlt_dec t t_next) as [Lt|Ge]; [|eexists; reflexivity]); [cbn in L; lra|].
    destruct (bounded s) as (l & Sg & Lo). unfold suggest_delta_t. rewrite Sg. cbn [bind]. destruct (fold_min l (t_next - t)) as (F1 & F2 & _ & F4 & F5). set (d := fold_left Rmin l (t_next - t)) in *. set (dt := Rmin dt_max d).
    destruct (updates s dt t) as (s1 & ->). cbn [bind]. destruct (viscous s1) as (s2 & V). assert (exists s2, (if v then viscosity s1 else Some s1) = Some s2) as (s3 & ->) by (destruct v; [exists s2; exact V|eexists; reflexivity]). cbn [bind].
    assert (Dt : dt = t_next - t \/ d_min <= dt). { destruct F5 as [F5|F5]; [|right; apply Rmin_glb; [exact M|apply Lo, F5]]. unfold dt, Rmin. destruct (Rle_dec dt_max d); [right; exact M|left; exact F5]. }
    apply IH; [exact M|]. rewrite S_INR in L. destruct Dt as [->|Dt]; [|lra]. pose proof (pos_INR n). nra.
  Qed.
  Lemma frames_are fuel dt_max h n : forall s t out, 0 < dt_max -> 0 < h -> frames suggestions update viscosity fuel n dt_max h s t = Some out ->
    length out = n /\ forall i x, nth_error out i = Some x -> snd x = t + INR (i + 1) * h.
  Proof.
    induction n as [|n IH]; intros s t out M H E; cbn [frames] in E; [injection E as <-; split; [reflexivity|intros [|i] x X; discriminate]|].
    destruct (march _ _ _ _ _ _ _ _ _ _) as [[[s1 t1] steps]|] eqn:Ma; [|discriminate]. cbn [bind] in E. destruct (march_is true fuel dt_max (t + h) s t [] s1 t1 steps M ltac:(lra) Ma) as (T & _).
    destruct (frames _ _ _ fuel n dt_max h s1 t1) as [rest|] eqn:Fr; [|discriminate]. cbn [bind] in E. injection E as <-. destruct (IH _ _ _ M H Fr) as (Ln & Ti). split; [cbn; congruence|]. intros [|i] x X; cbn [nth_error] in X.
    - injection X as <-. cbn. lra.
    - rewrite (Ti i x X), T. replace (INR (Datatypes.S i + 1)) with (INR (i + 1) + 1) by (rewrite <- S_INR; f_equal; lia). ring.
  Qed.
  Lemma frames_end fuel dt_max h n : d_min <= dt_max -> 0 < h -> h <= INR fuel * d_min -> forall s t, exists out, frames suggestions update viscosity fuel n dt_max h s t = Some out.
  Proof.
    intros M H L. induction n as [|n IH]; intros s t; cbn [frames]; [eexists; reflexivity|]. destruct (march_ends true fuel dt_max (t + h) s t [] M ltac:(lra)) as ([[s1 t1] st] & ->). cbn [bind]. destruct (IH s1 t1) as (rest & ->). cbn [bind]. eexists. reflexivity.
  Qed.
End Marching.
(** the steps between two frames: positive, no larger than allowed by any element or by the maximum, consecutive, and the last one ends exactly at the next frame *)
Theorem py_march {S : Type} suggestions update viscosity v fuel dt_max t_next (s : S) t s' t' steps : (forall s l, suggestions s = Some l -> forall d, In d l -> 0 < d) -> 0 < dt_max -> t <= t_next ->
  march suggestions update viscosity v fuel dt_max t_next s t [] = Some (s', t', steps) -> t' = t_next /\ path update viscosity v s t steps s' t' /\ forall x, In x steps -> admissible suggestions dt_max x.
Proof. intros P M L E. destruct (march_is suggestions update viscosity P v fuel _ _ _ _ _ _ _ _ M L E) as (T & l & -> & Pa & Ad). auto. Qed.
Print Assumptions py_march.
(** the loop ends if the suggestions are bounded from below *)
Theorem py_march_ends {S : Type} suggestions update viscosity v d_min n dt_max t_next (s : S) t : 0 < d_min -> (forall s, exists l, suggestions s = Some l /\ forall d, In d l -> d_min <= d) ->
  (forall s dt t, exists s', update s dt t = Some s') -> (forall s, exists s', viscosity s = Some s') -> d_min <= dt_max -> t_next - t <= INR n * d_min ->
  exists r, march suggestions update viscosity v n dt_max t_next s t [] = Some r.
Proof. intros P B U V M L. exact (march_ends suggestions update viscosity d_min P B U V v n dt_max t_next s t [] M L). Qed.
Print Assumptions py_march_ends.
(** the frames are written at equidistant times from the first to the last *)
Theorem py_frames {S : Type} suggestions update viscosity fuel a b n_step n_frame (s : S) out : (forall s l, suggestions s = Some l -> forall d, In d l -> 0 < d) -> a < b ->
  solve_and_write suggestions update viscosity fuel a b n_step n_frame s = Some out ->
  (1 <= n_step)%nat /\ (1 <= n_frame)%nat /\ length out = (n_frame + 1)%nat /\ (forall i x, nth_error out i = Some x -> snd x = a + INR i * ((b - a) / INR n_frame)) /\ exists s', nth_error out n_frame = Some (s', b).
Proof.
  intros P L E. unfold solve_and_write, div in E. destruct (Req_EM_T (INR n_step) 0) as [|Ns]; [discriminate|]. destruct (Req_EM_T (INR n_frame) 0) as [|Nf]; [discriminate|]. cbn [bind] in E. destruct (viscosity s) as [s1|]; [|discriminate]. cbn [bind] in E.
  destruct (frames _ _ _ _ _ _ _ _ _) as [rest|] eqn:Fr; [|discriminate]. cbn [bind] in E. injection E as <-. assert (S1 : (1 <= n_step)%nat) by (destruct n_step; [cbn in Ns; lra|lia]). assert (F1 : (1 <= n_frame)%nat) by (destruct n_frame; [cbn in Nf; lra|lia]).
  assert (Sp : 0 < INR n_step) by (apply lt_0_INR; lia). assert (Fp : 0 < INR n_frame) by (apply lt_0_INR; lia).
  destruct (frames_are suggestions update viscosity P fuel ((b - a) / INR n_step) ((b - a) / INR n_frame) n_frame s1 a rest ltac:(apply Rdiv_lt_0_compat; lra) ltac:(apply Rdiv_lt_0_compat; lra) Fr) as (Ln & Ti). split; [exact S1|]. split; [exact F1|]. split; [cbn; lia|].
  assert (Tm : forall i x, nth_error ((s1, a) :: rest) i = Some x -> snd x = a + INR i * ((b - a) / INR n_frame)). { intros [|i] x X; cbn [nth_error] in X; [injection X as <-; cbn; lra|]. rewrite (Ti i x X). do 3 f_equal. lia. }
  split; [exact Tm|]. destruct (nth_error ((s1, a) :: rest) n_frame) as [[s' t']|] eqn:X; [|apply nth_error_None in X; cbn in X; lia]. exists s'. specialize (Tm _ _ X). cbn in Tm. subst t'. do 2 f_equal. field. lra.
Qed.
Print Assumptions py_frames.
Theorem py_frames_end {S : Type} suggestions update viscosity d_min fuel a b n_step n_frame (s : S) : 0 < d_min -> (forall s, exists l, suggestions s = Some l /\ forall d, In d l -> d_min <= d) ->
  (forall s dt t, exists s', update s dt t = Some s') -> (forall s, exists s', viscosity s = Some s') -> a < b -> (1 <= n_step)%nat -> (1 <= n_frame)%nat ->
  d_min <= (b - a) / INR n_step -> (b - a) / INR n_frame <= INR fuel * d_min -> exists out, solve_and_write suggestions update viscosity fuel a b n_step n_frame s = Some out.
Proof.
  intros P B U V L S1 F1 M N. unfold solve_and_write, div. assert (Sp : 0 < INR n_step) by (apply lt_0_INR; lia). assert (Fp : 0 < INR n_frame) by (apply lt_0_INR; lia). destruct (Req_EM_T (INR n_step) 0); [lra|]. destruct (Req_EM_T (INR n_frame) 0); [lra|]. cbn [bind]. destruct (V s) as (s1 & ->). cbn [bind].
  destruct (frames_end suggestions update viscosity d_min P B U V fuel ((b - a) / INR n_step) ((b - a) / INR n_frame) n_frame M ltac:(apply Rdiv_lt_0_compat; lra) N s1 a) as (out & ->). cbn [bind]. eexists. reflexivity.
Qed.
Print Assumptions py_frames_end.
(** an animation ends its steps at the next frame or at the end, but its states differ from those written: viscosity is not updated *)
Theorem py_animation {S : Type} suggestions update viscosity fuel dt_max h t_stop (s : S) t s' t' steps : (forall s l, suggestions s = Some l -> forall d, In d l -> 0 < d) -> 0 < dt_max -> 0 < h -> t <= t_stop ->
  update_func suggestions update viscosity fuel dt_max h t_stop s t = Some (s', t', steps) -> t' = Rmin t_stop (t + h) /\ path update viscosity false s t steps s' t'.
Proof. intros P M H L E. assert (Lt : t <= Rmin t_stop (t + h)) by (apply Rmin_glb; lra). destruct (py_march suggestions update viscosity false fuel dt_max _ s t s' t' steps P M Lt E) as (T & Pa & _). auto. Qed.
Print Assumptions py_animation.
Theorem py_animation_refuted : exists (suggestions : nat -> option (list R)) update viscosity fuel dt_max h t_stop s t s1 s2 t' steps1 steps2, 0 < dt_max /\ 0 < h /\ t < t_stop /\ Rmin t_stop (t + h) = t + h /\
  update_func suggestions update viscosity fuel dt_max h t_stop s t = Some (s1, t', steps1) /\ march suggestions update viscosity true fuel dt_max (t + h) s t [] = Some (s2, t', steps2) /\ s1 <> s2.
Proof.
  exists (fun _ => Some [1]), (fun s _ _ => Some s), (fun s => Some (s + 1)%nat), 1%nat, 1, 1, 2, 0%nat, 0, 0%nat, 1%nat, (0 + 1), [(0%nat, 0, 1)], [(0%nat, 0, 1)].
  assert (Rm : Rmin 1 (Rmin (0 + 1 - 0) 1) = 1) by (unfold Rmin; repeat destruct (Rle_dec _ _); lra). assert (R2 : Rmin 2 (0 + 1) = 0 + 1) by (unfold Rmin; destruct (Rle_dec _ _); lra). repeat split; try lra; try discriminate.
  - unfold update_func. rewrite R2. cbn [march suggest_delta_t bind]. destruct (Rlt_dec 0 (0 + 1)); [|lra]. unfold suggest_delta_t. cbn [bind fold_left app]. rewrite Rm. destruct (Rlt_dec (0 + 1) (0 + 1)); [lra|]. reflexivity.
  - cbn [march suggest_delta_t bind]. destruct (Rlt_dec 0 (0 + 1)); [|lra]. unfold suggest_delta_t. cbn [bind fold_left app]. rewrite Rm. cbn [Nat.add]. destruct (Rlt_dec (0 + 1) (0 + 1)); [lra|]. reflexivity.
Qed.
Print Assumptions py_animation_refuted.
(** counting steps: two frames on [0, 2], suggestions [3/5] and [4/5]; two steps per frame *)
Example py_march_example : let march := march (fun _ : nat => Some [3 / 5; 4 / 5]) (fun s _ _ => Some (s + 1)%nat) Some true in
  march 2%nat 2 1 5%nat 0 [] = Some (7%nat, 3 / 5 + 2 / 5, [(5%nat, 0, 3 / 5); (6%nat, 3 / 5, 2 / 5)]) /\ march 1%nat 2 1 5%nat 0 [] = None.
Proof.
  assert (R1 : Rmin 2 (Rmin (Rmin (1 - 0) (3 / 5)) (4 / 5)) = 3 / 5) by (rewrite (Rmin_right (1 - 0)), (Rmin_left (3 / 5)), Rmin_right by lra; reflexivity). assert (R2 : Rmin 2 (Rmin (Rmin (1 - (3 / 5)) (3 / 5)) (4 / 5)) = 2 / 5) by (rewrite (Rmin_left (1 - 3 / 5)), (Rmin_left (1 - 3 / 5)), Rmin_right by lra; lra).
  cbv zeta. split; cbn [march]; unfold suggest_delta_t; cbn [bind fold_left app]; (destruct (Rlt_dec 0 1); [|lra]); rewrite R1; replace (0 + 3 / 5) with (3 / 5) by lra; (destruct (Rlt_dec (3 / 5) 1); [|lra]); [|reflexivity]. rewrite R2. destruct (Rlt_dec (3 / 5 + 2 / 5) 1); [lra|]. reflexivity.
Qed.
