(** Proofs about the scalar and coupled Riemann solvers of the Python package. *)
From Coq Require Import Reals List Lra Lia Psatz.
From Verif Require Import Arrays Model_Simple Spec_Simple Proof_Simple Model_PyRiemann Spec_PyRiemann.
Import ListNotations.
Open Scope R_scope.

Definition flux_of (e : Equation) : R -> R :=
  match e with ELinear a _ => linear_flux a | EBurgers k _ => burgers_flux k end.

(** what the constructors leave *)
Definition built (e : Equation) : Prop :=
  match e with ELinear _ _ => True | EBurgers k _ => 0 < k end.

Lemma flux_eq e u : get_convective_flux e u = flux_of e u.
Proof. destruct e; reflexivity. Qed.

Lemma Some_inj (A : Type) (x y : A) : Some x = Some y -> x = y.
Proof. intros E. inversion E. reflexivity. Qed.

(** the self-similar solution in closed form *)
Definition ray (e : Equation) (l r s : R) : R :=
  match e with
  | ELinear a _ => if Rle_dec s a then l else r
  | EBurgers k _ =>
      if Rle_dec l r then
        if Rle_dec s (k * l) then l else if Rge_dec s (k * r) then r else s / k
      else if Rle_dec s (k * ((l + r) / 2)) then l else r
  end.

Lemma ray_osher e l r : built e -> osher (flux_of e) l r (ray e l r).
Proof.
  intros B s. destruct e as [a b|k nu]; cbn [built flux_of ray] in *;
    unfold linear_flux, burgers_flux.
  - split; intros H; destruct (Rle_dec s a); split; try lra; intros u Hu; nra.
  - split; intros H.
    + destruct (Rle_dec l r) as [_|N]; [|lra].
      destruct (Rle_dec s (k * l)); [split; [lra|intros u Hu]|].
      * assert (0 <= (u - l) * (k * (u + l) / 2 - s)) by
          (apply Rmult_le_pos; nra). nra.
      * destruct (Rge_dec s (k * r)); [split; [lra|intros u Hu]|].
        -- assert (0 <= (r - u) * (s - k * (u + r) / 2)) by (apply Rmult_le_pos; nra). nra.
        -- assert (E : s = k * (s / k)) by (field; lra). revert E. generalize (s / k) as w. intros w E.
           split; [split; nra|intros u Hu]. rewrite E.
           assert (0 <= k * (u - w) ^ 2) by (apply Rmult_le_pos; [lra|apply pow2_ge_0]). nra.
    + destruct (Rle_dec l r) as [L|N].
      * assert (l = r) by lra. subst r.
        destruct (Rle_dec s (k * l)); [split; [lra|intros u Hu; assert (u = l) by lra; subst; lra]|].
        destruct (Rge_dec s (k * l)); [split; [lra|intros u Hu; assert (u = l) by lra; subst; lra]|].
        lra.
      * destruct (Rle_dec s (k * ((l + r) / 2))); split; try lra; intros u Hu.
        -- assert (0 <= (l - u) * (k * (u + l) / 2 - s)) by
             (apply Rmult_le_pos; nra). nra.
        -- assert (0 <= (u - r) * (s - k * (u + r) / 2)).
           { apply Rmult_le_pos; nra. } nra.
Qed.

Definition solved (e : Equation) (l r : R) (s : Solver) : Prop :=
  s_equation s = e /\ s_left s = Value l /\ s_right s = Value r /\
  forall x, get_value_at s x = Some (Value (ray e l r x)).

Lemma get_value_structure (s : Solver) e l r : s_equation s = e -> s_left s = Value l ->
  s_right s = Value r -> built e ->
  exists s', determine_wave_structure s = Some s' /\ solved e l r s'.
Proof.
  intros E L R B. unfold determine_wave_structure. rewrite E, L, R.
  destruct e as [a b|k nu].
  - exists s. split; auto. repeat split; auto. intros x. unfold get_value_at.
    rewrite E, L, R. cbn [ray]. destruct (Rle_dec x a); reflexivity.
  - cbn [built get_convective_speed] in *. destruct (Rle_dec l r) as [H|H].
    + eexists. split; [reflexivity|]. repeat split. intros x. unfold get_value_at.
      cbn [s_equation s_left s_right s_slope_left s_slope_right ray].
      destruct (Rle_dec l r) as [_|N]; [|lra].
      destruct (Rle_dec x (k * l)); [reflexivity|].
      destruct (Rge_dec x (k * r)); [reflexivity|].
      assert (D : r - l <> 0) by nra.
      destruct (Req_EM_T (r - l) 0); [lra|].
      replace ((k * r - k * l) / (r - l)) with k by (field; lra).
      destruct (Req_EM_T k 0); [lra|reflexivity].
    + eexists. split; [reflexivity|]. repeat split. intros x. unfold get_value_at.
      cbn [s_equation s_left s_right s_slope_left s_slope_right ray].
      destruct (Rle_dec l r) as [N|_]; [lra|].
      destruct (Rle_dec x (k * ((l + r) / 2))); [reflexivity|].
      destruct (Rge_dec x (k * ((l + r) / 2))); [reflexivity|]. lra.
Qed.

Lemma set_initial_solved s l r : built (s_equation s) ->
  exists s', set_initial s l r = Some s' /\ solved (s_equation s) l r s'.
Proof. intros B. unfold set_initial. apply get_value_structure; auto. Qed.

Theorem value_entropy s l r : built (s_equation s) ->
  exists s' w, set_initial s l r = Some s' /\
    (forall x t, 0 < t -> get_value s' x t = Some (Value (w (x / t)))) /\
    (forall x, x <= 0 -> get_value s' x 0 = Some (Value l)) /\
    (forall x, 0 < x -> get_value s' x 0 = Some (Value r)) /\
    osher (flux_of (s_equation s)) l r w.
Proof.
  intros B. destruct (set_initial_solved s l r B) as [s' [E (Eq & L & R & V)]].
  exists s', (ray (s_equation s) l r). split; [exact E|].
  assert (Z : forall x, get_value s' x 0 = if Rle_dec x 0 then Some (Value l) else Some (Value r)).
  { intros x. unfold get_value. destruct (Req_EM_T 0 0) as [_|N]; [|lra]. rewrite L, R. reflexivity. }
  split; [|split; [|split]].
  - intros x t T. unfold get_value. destruct (Req_EM_T t 0); [lra|]. apply V.
  - intros x X. rewrite Z. destruct (Rle_dec x 0); [reflexivity|lra].
  - intros x X. rewrite Z. destruct (Rle_dec x 0); [lra|reflexivity].
  - apply ray_osher. exact B.
Qed.

Definition upwind (e : Equation) (l r : R) : R := flux_of e (ray e l r 0).

Lemma osher_godunov f w : (forall l r, osher f l r (w l r)) -> godunov f (fun l r => f (w l r 0)).
Proof.
  intros O l r. destruct (O l r 0) as [A B]. split; intros H.
  - destruct (A H) as [W M]. split; [exists (w l r 0); auto|]. intros u U. specialize (M u U). lra.
  - destruct (B H) as [W M]. split; [exists (w l r 0); auto|]. intros u U. specialize (M u U). lra.
Qed.

Lemma upwind_flux_eq s l r : built (s_equation s) ->
  exists s', get_upwind_flux s l r = Some (s', upwind (s_equation s) l r) /\
    set_initial s l r = Some s' /\ s_equation s' = s_equation s.
Proof.
  intros B. destruct (set_initial_solved s l r B) as [s' [E (Eq & L & R & V)]].
  exists s'. split; [|auto]. unfold get_upwind_flux. rewrite E. cbn [bind].
  unfold get_value. destruct (Req_EM_T 1 0); [lra|].
  rewrite V. cbn [bind]. rewrite Eq, flux_eq.
  replace (0 / 1) with 0 by field. reflexivity.
Qed.

Theorem upwind_godunov e : built e -> godunov (flux_of e) (upwind e).
Proof. intros B. apply osher_godunov. intros l r. apply ray_osher; auto. Qed.

Theorem speed_derivative e u : derivable_pt_lim (flux_of e) u (get_convective_speed e u).
Proof.
  destruct e as [a b|k nu]; cbn [flux_of get_convective_speed].
  - intros eps He. exists (mkposreal 1 Rlt_0_1). intros h H0 _. unfold linear_flux.
    replace ((a * (u + h) - a * u) / h - a) with 0 by (field; auto). rewrite Rabs_R0. exact He.
  - intros eps He. exists (mkposreal (eps / (Rabs k + 1)) ltac:(apply Rdiv_lt_0_compat; [lra|pose proof (Rabs_pos k); lra])).
    intros h H0 Hh. cbn [pos] in Hh. unfold burgers_flux.
    replace ((k * (u + h) ^ 2 / 2 - k * u ^ 2 / 2) / h - k * u) with (k * h / 2) by (field; auto).
    pose proof (Rabs_pos k) as K.
    unfold Rdiv. rewrite !Rabs_mult, (Rabs_right (/ 2)) by lra.
    assert (Q : Rabs h * (Rabs k + 1) < eps).
    { apply Rmult_lt_reg_r with (/ (Rabs k + 1)); [apply Rinv_0_lt_compat; lra|].
      rewrite Rmult_assoc, Rinv_r by lra. unfold Rdiv in Hh. lra. }
    pose proof (Rabs_pos h). nra.
Qed.

(** ** Construction *)
Lemma init_linear a : built (LinearAdvection_init a) /\ flux_of (LinearAdvection_init a) = linear_flux a.
Proof. split; [exact I|reflexivity]. Qed.
Lemma init_diffusion a b : built (LinearAdvectionDiffusion_init a b) /\
  flux_of (LinearAdvectionDiffusion_init a b) = linear_flux a.
Proof. split; [exact I|reflexivity]. Qed.
Lemma init_burgers k : 0 < k -> exists e, InviscidBurgers_init [Num k] = Some e /\ built e /\
  flux_of e = burgers_flux k /\ forall u, get_diffusive_coeff e u = 0.
Proof.
  intros K. exists (EBurgers k 0). cbn. destruct (Rgt_dec k 0); [auto|lra].
Qed.
Lemma init_viscous k nu : Burgers_init k nu = None.
Proof. unfold Burgers_init. destruct (Rgt_dec k 0), (Rge_dec nu 0); reflexivity. Qed.

(** ** Coupled equations *)
Lemma coupled_init_ok e0 e1 r : det2 r <> 0 -> exists c, Coupled_init e0 e1 r = Some c /\
  c_v_0 c = e0 /\ c_v_1 c = e1 /\ c_R c = r /\
  (forall v, to_characteristics c (from_characteristics c v) = v) /\
  (forall u, from_characteristics c (to_characteristics c u) = u) /\
  (forall k0 k1 d, mul2 (madd2 (scale2 k0 (c_A_0 c)) (scale2 k1 (c_A_1 c))) d =
     mul2 r (k0 * fst (to_characteristics c d), k1 * snd (to_characteristics c d))).
Proof.
  intros D. unfold det2 in D. destruct r as [a b c d]. cbn [m00 m01 m10 m11] in D.
  unfold Coupled_init, inv2. cbn [m00 m01 m10 m11].
  destruct (Req_EM_T (a * d - b * c) 0); [lra|]. cbn [bind].
  eexists. split; [reflexivity|]. cbn [c_v_0 c_v_1 c_R]. repeat split.
  - intros [x y]. unfold to_characteristics, from_characteristics, mul2. cbn [c_L c_R m00 m01 m10 m11 fst snd].
    f_equal; field; lra.
  - intros [x y]. unfold to_characteristics, from_characteristics, mul2. cbn [c_L c_R m00 m01 m10 m11 fst snd].
    f_equal; field; lra.
  - intros k0 k1 [x y]. unfold to_characteristics, mul2, madd2, scale2.
    cbn [c_L c_R c_A_0 c_A_1 m00 m01 m10 m11 fst snd]. f_equal; field; lra.
Qed.

Lemma to_char_linear c u d t : to_characteristics c (fst u + t * fst d, snd u + t * snd d) =
  (fst (to_characteristics c u) + t * fst (to_characteristics c d),
   snd (to_characteristics c u) + t * snd (to_characteristics c d)).
Proof. unfold to_characteristics, mul2. cbn [fst snd]. f_equal; ring. Qed.

Lemma ray_derivative e v d : derivable_pt_lim (fun t => flux_of e (v + t * d)) 0 (get_convective_speed e v * d).
Proof.
  replace (get_convective_speed e v) with (get_convective_speed e (v + 0 * d)) by (f_equal; ring).
  apply (derivable_pt_lim_comp (fun t => v + t * d) (flux_of e) 0 d).
  - intros eps He. exists (mkposreal 1 Rlt_0_1). intros h H0 _.
    replace ((v + (0 + h) * d - (v + 0 * d)) / h - d) with 0 by (field; auto). rewrite Rabs_R0. exact He.
  - apply speed_derivative.
Qed.

Lemma lin_derivative f g p q f' g' : derivable_pt_lim f 0 f' -> derivable_pt_lim g 0 g' ->
  derivable_pt_lim (fun t => p * f t + q * g t) 0 (p * f' + q * g').
Proof.
  intros F G. apply (derivable_pt_lim_plus (fun t => p * f t) (fun t => q * g t)).
  - apply (derivable_pt_lim_scal f p 0 f' F).
  - apply (derivable_pt_lim_scal g q 0 g' G).
Qed.

Lemma derivable_ext f g x l : (forall t, f t = g t) -> derivable_pt_lim f x l -> derivable_pt_lim g x l.
Proof. intros E H eps He. destruct (H eps He) as [d D]. exists d. intros h H0 Hh. rewrite <- !E. auto. Qed.

Theorem coupled_jacobian_ok e0 e1 r c u : det2 r <> 0 -> Coupled_init e0 e1 r = Some c ->
  jacobian2 (coupled_flux c) u (coupled_jacobian c u).
Proof.
  intros D C. destruct (coupled_init_ok e0 e1 r D) as (c' & E & V0 & V1 & Rr & LR & RL & A).
  rewrite C in E. apply Some_inj in E. subst c'. intros d.
  unfold coupled_jacobian. rewrite A. unfold coupled_eigvals, mul2. cbn [fst snd].
  split.
  - eapply derivable_ext; [|apply lin_derivative; apply ray_derivative].
    intros t. cbv beta. unfold coupled_flux. rewrite to_char_linear. cbn [fst snd].
    rewrite !flux_eq, Rr. unfold mul2. cbn [fst snd]. reflexivity.
  - eapply derivable_ext; [|apply lin_derivative; apply ray_derivative].
    intros t. cbv beta. unfold coupled_flux. rewrite to_char_linear. cbn [fst snd].
    rewrite !flux_eq, Rr. unfold mul2. cbn [fst snd]. reflexivity.
Qed.

Theorem coupled_eigen e0 e1 r c u : det2 r <> 0 -> Coupled_init e0 e1 r = Some c ->
  mul2 (coupled_jacobian c u) (col0 r) = (fst (coupled_eigvals c u) * m00 r, fst (coupled_eigvals c u) * m10 r) /\
  mul2 (coupled_jacobian c u) (col1 r) = (snd (coupled_eigvals c u) * m01 r, snd (coupled_eigvals c u) * m11 r).
Proof.
  intros D C. destruct (coupled_init_ok e0 e1 r D) as (c' & E & V0 & V1 & Rr & LR & RL & A).
  rewrite C in E. apply Some_inj in E. subst c'. unfold coupled_jacobian. rewrite !A.
  assert (B0 : to_characteristics c (col0 r) = (1, 0)).
  { rewrite <- (LR (1, 0)). f_equal. unfold from_characteristics. rewrite Rr. unfold mul2, col0.
    cbn [fst snd]. f_equal; ring. }
  assert (B1 : to_characteristics c (col1 r) = (0, 1)).
  { rewrite <- (LR (0, 1)). f_equal. unfold from_characteristics. rewrite Rr. unfold mul2, col1.
    cbn [fst snd]. f_equal; ring. }
  rewrite B0, B1. unfold mul2. cbn [fst snd]. split; f_equal; ring.
Qed.

Theorem coupled_diffusive_ok e0 e1 r c u du nu : det2 r <> 0 -> Coupled_init e0 e1 r = Some c ->
  coupled_diffusive_flux c u du (0, 0) = mul2 (coupled_coeff c u) du /\
  to_characteristics c (coupled_diffusive_flux c u du nu) =
    ((get_diffusive_coeff e0 0 + fst nu) * fst (to_characteristics c du),
     (get_diffusive_coeff e1 0 + snd nu) * snd (to_characteristics c du)).
Proof.
  intros D C. destruct (coupled_init_ok e0 e1 r D) as (c' & E & V0 & V1 & Rr & LR & RL & A).
  rewrite C in E. apply Some_inj in E. subst c'. split.
  - unfold coupled_coeff. rewrite A. unfold coupled_diffusive_flux, get_diffusive_flux. cbn [fst snd].
    rewrite Rr, !Rplus_0_r. reflexivity.
  - unfold coupled_diffusive_flux. change (mul2 (c_R c)) with (from_characteristics c).
    rewrite LR, V0, V1. unfold get_diffusive_flux. destruct e0, e1; reflexivity.
Qed.

Definition coupled_built (s : CoupledSolver) : Prop :=
  built (s_equation (cs_v_0 s)) /\ built (s_equation (cs_v_1 s)) /\
  det2 (c_R (cs_equation s)) <> 0 /\
  Coupled_init (s_equation (cs_v_0 s)) (s_equation (cs_v_1 s)) (c_R (cs_equation s)) = Some (cs_equation s).

Lemma coupled_solver_init v0 v1 r : built (s_equation v0) -> built (s_equation v1) -> det2 r <> 0 ->
  exists s, CoupledSolver_init v0 v1 r = Some s /\ coupled_built s /\ cs_v_0 s = v0 /\ cs_v_1 s = v1 /\
    c_R (cs_equation s) = r /\ cs_left s = NoneObject /\ cs_right s = NoneObject.
Proof.
  intros B0 B1 D. destruct (coupled_init_ok (s_equation v0) (s_equation v1) r D) as (c & E & V0 & V1 & Rr & _).
  unfold CoupledSolver_init. rewrite E. cbn [bind]. eexists. split; [reflexivity|].
  unfold coupled_built. cbn [cs_v_0 cs_v_1 cs_equation cs_left cs_right].
  rewrite Rr. repeat split; auto.
Qed.

Lemma coupled_solved s ul ur : coupled_built s -> exists s',
  coupled_set_initial s ul ur = Some s' /\ coupled_built s' /\
  cs_equation s' = cs_equation s /\ cs_left s' = cs_left s /\ cs_right s' = cs_right s /\
  s_equation (cs_v_0 s') = s_equation (cs_v_0 s) /\ s_equation (cs_v_1 s') = s_equation (cs_v_1 s) /\
  forall x, coupled_get_value_at s' x = Some (Value (from_characteristics (cs_equation s)
    (ray (s_equation (cs_v_0 s)) (fst (to_characteristics (cs_equation s) ul)) (fst (to_characteristics (cs_equation s) ur)) x,
     ray (s_equation (cs_v_1 s)) (snd (to_characteristics (cs_equation s) ul)) (snd (to_characteristics (cs_equation s) ur)) x))).
Proof.
  intros (B0 & B1 & D & C). unfold coupled_set_initial.
  destruct (set_initial_solved (cs_v_0 s) (fst (to_characteristics (cs_equation s) ul)) (fst (to_characteristics (cs_equation s) ur)) B0)
    as [v0 [E0 (Q0 & L0 & R0 & _)]].
  destruct (set_initial_solved (cs_v_1 s) (snd (to_characteristics (cs_equation s) ul)) (snd (to_characteristics (cs_equation s) ur)) B1)
    as [v1 [E1 (Q1 & L1 & R1 & _)]].
  rewrite E0, E1. cbn [bind]. unfold coupled_wave_structure.
  cbn [cs_v_0 cs_v_1 cs_equation cs_left cs_right].
  destruct (get_value_structure v0 _ _ _ Q0 L0 R0 B0) as [w0 [F0 (P0 & _ & _ & W0)]].
  destruct (get_value_structure v1 _ _ _ Q1 L1 R1 B1) as [w1 [F1 (P1 & _ & _ & W1)]].
  rewrite F0, F1. cbn [bind]. eexists. split; [reflexivity|].
  unfold coupled_built. cbn [cs_v_0 cs_v_1 cs_equation cs_left cs_right]. rewrite P0, P1.
  repeat split; auto. intros x. unfold coupled_get_value_at.
  cbn [cs_v_0 cs_v_1 cs_equation]. rewrite W0, W1. reflexivity.
Qed.

Theorem coupled_value_entropy s ul ur : coupled_built s -> exists s' w0 w1,
  coupled_set_initial s ul ur = Some s' /\
  (forall x t, 0 < t -> coupled_get_value s' x t =
     Some (Value (from_characteristics (cs_equation s) (w0 (x / t), w1 (x / t))))) /\
  osher (flux_of (s_equation (cs_v_0 s))) (fst (to_characteristics (cs_equation s) ul))
    (fst (to_characteristics (cs_equation s) ur)) w0 /\
  osher (flux_of (s_equation (cs_v_1 s))) (snd (to_characteristics (cs_equation s) ul))
    (snd (to_characteristics (cs_equation s) ur)) w1.
Proof.
  intros B. destruct (coupled_solved s ul ur B) as (s' & E & _ & _ & _ & _ & _ & _ & V).
  exists s'. do 2 eexists. split; [exact E|]. split; [|split; apply ray_osher; apply B].
  intros x t T. unfold coupled_get_value. destruct (Req_EM_T t 0); [lra|]. apply V.
Qed.

Theorem coupled_upwind_ok s ul ur : coupled_built s -> exists s' f,
  coupled_upwind_flux s ul ur = Some (s', f) /\ cs_equation s' = cs_equation s /\
  to_characteristics (cs_equation s) f =
    (upwind (s_equation (cs_v_0 s)) (fst (to_characteristics (cs_equation s) ul)) (fst (to_characteristics (cs_equation s) ur)),
     upwind (s_equation (cs_v_1 s)) (snd (to_characteristics (cs_equation s) ul)) (snd (to_characteristics (cs_equation s) ur))).
Proof.
  intros B. destruct (coupled_solved s ul ur B) as (s' & E & _ & Eq & _ & _ & _ & _ & V).
  destruct B as (_ & _ & D & C).
  destruct (coupled_init_ok (s_equation (cs_v_0 s)) (s_equation (cs_v_1 s)) _ D) as (c' & E' & V0 & V1 & Rr & LR & RL & A).
  rewrite C in E'. apply Some_inj in E'. subst c'.
  unfold coupled_upwind_flux. rewrite E. cbn [bind]. unfold coupled_get_value.
  destruct (Req_EM_T 1 0); [lra|]. rewrite V. cbn [bind]. rewrite Eq.
  do 2 eexists. split; [reflexivity|]. split; [exact Eq|].
  unfold coupled_flux. rewrite LR. change (mul2 (c_R (cs_equation s))) with (from_characteristics (cs_equation s)).
  rewrite LR, V0, V1, !flux_eq. cbn [fst snd]. replace (0 / 1) with 0 by field. reflexivity.
Qed.

Theorem coupled_forgets s ul ur : coupled_built s -> exists s',
  coupled_set_initial s ul ur = Some s' /\ forall x,
  coupled_get_value s' x 0 = if Rle_dec x 0 then Some (cs_left s) else Some (cs_right s).
Proof.
  intros B. destruct (coupled_solved s ul ur B) as (s' & E & _ & _ & L & R & _).
  exists s'. split; [exact E|]. intros x. unfold coupled_get_value.
  destruct (Req_EM_T 0 0) as [_|N]; [|lra]. rewrite L, R. reflexivity.
Qed.

(** ** Interfaces *)
Lemma coeff_const e u v : get_diffusive_coeff e u = get_diffusive_coeff e v.
Proof. destruct e; reflexivity. Qed.

Theorem interface_ok s left right : built (s_equation s) -> d_length left + d_length right <> 0 ->
  let nu := get_diffusive_coeff (s_equation s) 0 + Rmin (d_extra left) (d_extra right) in
  exists s', get_interface_flux_and_bjump s left right =
    Some (s', upwind (s_equation s) (d_u left) (d_u right) -
      nu * ddg_gradient (d_length left) (d_length right) (d_u left) (d_u right)
        (side_du left) (side_du right) (side_ddu left) (side_ddu right),
      nu * (d_u right - d_u left) / 2).
Proof.
  intros B H nu. unfold get_interface_flux_and_bjump.
  destruct (upwind_flux_eq s (d_u left) (d_u right) B) as (s' & E & _ & Q).
  rewrite E. cbn [bind]. rewrite Q.
  rewrite (coeff_const _ (d_u left) 0), (coeff_const _ (d_u right) 0).
  rewrite Rmin_left with (x := get_diffusive_coeff (s_equation s) 0) by lra.
  destruct (Req_EM_T _ 0) as [Z|Z].
  - exists s'. assert (N : nu = 0) by (unfold nu; lra). rewrite N. do 2 f_equal; [f_equal|]; field.
  - exists s'. unfold get_interface_gradient, get_diffusive_flux, ddg_gradient, beta_0, beta_1, nu.
    rewrite (coeff_const _ ((d_u left + d_u right) / 2) 0). do 2 f_equal; [f_equal|]; field. exact H.
Qed.

Theorem interface_consistent s left right : built (s_equation s) -> d_length left + d_length right <> 0 ->
  d_u right = d_u left -> side_du right = side_du left -> side_ddu right = side_ddu left ->
  exists s', get_interface_flux_and_bjump s left right = Some (s',
    flux_of (s_equation s) (d_u left) -
      (get_diffusive_coeff (s_equation s) 0 + Rmin (d_extra left) (d_extra right)) * side_du left, 0).
Proof.
  intros B H U D DD. destruct (interface_ok s left right B H) as [s' E]. exists s'. rewrite E.
  rewrite U, D, DD. unfold ddg_gradient.
  rewrite (godunov_consistent _ _ (upwind_godunov _ B) (d_u left)).
  do 2 f_equal; [f_equal|]; field. exact H.
Qed.

Theorem coupled_inviscid_interface s (left right : Side Col2 Col2) : coupled_built s ->
  (forall u, get_diffusive_coeff (s_equation (cs_v_0 s)) u = 0) ->
  (forall u, get_diffusive_coeff (s_equation (cs_v_1 s)) u = 0) ->
  d_extra left = (0, 0) -> d_extra right = (0, 0) ->
  exists s' f, coupled_flux_and_bjump s left right = Some (s', f, Vec (0, 0)) /\
    coupled_upwind_flux s (d_u left) (d_u right) = Some (s', f).
Proof.
  intros B N0 N1 X0 X1. destruct (coupled_upwind_ok s (d_u left) (d_u right) B) as (s' & f & E & Q & _).
  exists s', f. split; [|exact E]. unfold coupled_flux_and_bjump. cbv zeta. rewrite E. cbn [bind]. rewrite Q, X0, X1.
  destruct B as (_ & _ & D & C).
  destruct (coupled_init_ok (s_equation (cs_v_0 s)) (s_equation (cs_v_1 s)) _ D) as (c' & E' & V0 & V1 & _).
  rewrite C in E'. apply Some_inj in E'. subst c'.
  assert (Z : forall u, coupled_coeff (cs_equation s) u = mat2 0 0 0 0).
  { intros u. unfold coupled_coeff. rewrite V0, V1, N0, N1. unfold madd2, scale2. cbn [m00 m01 m10 m11].
    f_equal; ring. }
  rewrite !Z. unfold is_zero2, row_add, mmin2, col_of, pick. cbn [m00 m01 m10 m11 fst snd].
  rewrite !Rmin_left by lra. rewrite !Rplus_0_l.
  destruct (Req_EM_T 0 0) as [_|N]; [|lra]. rewrite !Rminus_diag_eq by reflexivity. reflexivity.
Qed.

(** ** Two diffusing quantities that do not meet *)
Definition unit2 : Mat2 := mat2 1 0 0 1.
Definition heat : Solver := Solver_init (LinearAdvectionDiffusion_init 0 1).

Lemma matrix_jump (left right : Side Col2 Col2) : d_extra left = (0, 0) -> d_extra right = (0, 0) ->
  exists s s' f m, CoupledSolver_init heat heat unit2 = Some s /\
    coupled_flux_and_bjump s left right = Some (s', f, Matrix m).
Proof.
  intros X0 X1. destruct (coupled_solver_init heat heat unit2 I I) as (s & E & B & V0 & V1 & Rr & _).
  { unfold det2, unit2. cbn. lra. }
  destruct (coupled_upwind_ok s (d_u left) (d_u right) B) as (s' & f & F & Q & _).
  exists s, s'. unfold coupled_flux_and_bjump. cbv zeta. rewrite F. cbn [bind]. rewrite Q, X0, X1.
  destruct B as (_ & _ & D & C). rewrite V0, V1, Rr in C.
  destruct (coupled_init_ok (s_equation heat) (s_equation heat) unit2) as (c' & E' & W0 & W1 & _).
  { rewrite <- Rr. exact D. }
  assert (Z : forall u, m00 (coupled_coeff (cs_equation s) u) = 1).
  { intros u. unfold Coupled_init, inv2, unit2 in C. cbn [m00 m01 m10 m11] in C.
    destruct (Req_EM_T (1 * 1 - 0 * 0) 0); [lra|]. cbn [bind] in C. apply Some_inj in C. rewrite <- C.
    unfold coupled_coeff, heat, Solver_init, LinearAdvectionDiffusion_init, LinearAdvection_init, madd2, scale2.
    cbn [c_v_0 c_v_1 s_equation get_diffusive_coeff c_A_0 c_A_1 m00 m01 m10 m11]. field. }
  match goal with |- context [is_zero2 ?m] => assert (N : is_zero2 m = false) end.
  { unfold is_zero2. match goal with |- context [Req_EM_T ?a 0] => destruct (Req_EM_T a 0) as [Y|] end; [|reflexivity].
    exfalso. revert Y. unfold row_add, mmin2, col_of, pick. cbn [m00 fst]. rewrite !Z, !Rmin_left by lra. lra. }
  rewrite N. do 2 eexists. split; [exact E|reflexivity].
Qed.

(** ** Outside of the waves *)
Lemma ray_outside e l r : exists m, 0 < m /\ (forall s, s < - m -> ray e l r s = l) /\ (forall s, m < s -> ray e l r s = r).
Proof.
  destruct e as [a b|k nu]; cbn [ray].
  - exists (Rabs a + 1). pose proof (Rle_abs a). pose proof (Rle_abs (- a)). rewrite Rabs_Ropp in *.
    pose proof (Rabs_pos a).
    split; [lra|]. split; intros s S; destruct (Rle_dec s a); auto; lra.
  - exists (Rabs (k * l) + Rabs (k * r) + 1).
    pose proof (Rle_abs (k * l)). pose proof (Rle_abs (- (k * l))).
    pose proof (Rle_abs (k * r)). pose proof (Rle_abs (- (k * r))). rewrite !Rabs_Ropp in *.
    pose proof (Rabs_pos (k * l)). pose proof (Rabs_pos (k * r)).
    split; [lra|]. split; intros s S.
    + destruct (Rle_dec l r).
      * destruct (Rle_dec s (k * l)); [reflexivity|lra].
      * destruct (Rle_dec s (k * ((l + r) / 2))); [reflexivity|lra].
    + destruct (Rle_dec l r).
      * destruct (Rle_dec s (k * l)); [lra|]. destruct (Rge_dec s (k * r)); [reflexivity|lra].
      * destruct (Rle_dec s (k * ((l + r) / 2))); [lra|reflexivity].
Qed.

Theorem coupled_outside s ul ur : coupled_built s -> exists s',
  coupled_set_initial s ul ur = Some s' /\
  exists m, 0 < m /\
    (forall x t, 0 < t -> x / t < - m -> coupled_get_value s' x t = Some (Value ul)) /\
    (forall x t, 0 < t -> m < x / t -> coupled_get_value s' x t = Some (Value ur)).
Proof.
  intros B. destruct (coupled_solved s ul ur B) as (s' & E & _ & _ & _ & _ & _ & _ & V).
  exists s'. split; [exact E|]. destruct B as (_ & _ & D & C).
  destruct (coupled_init_ok (s_equation (cs_v_0 s)) (s_equation (cs_v_1 s)) _ D) as (c' & E' & _ & _ & _ & LR & RL & _).
  rewrite C in E'. apply Some_inj in E'. subst c'.
  destruct (ray_outside (s_equation (cs_v_0 s)) (fst (to_characteristics (cs_equation s) ul)) (fst (to_characteristics (cs_equation s) ur))) as (m0 & P0 & A0 & B0).
  destruct (ray_outside (s_equation (cs_v_1 s)) (snd (to_characteristics (cs_equation s) ul)) (snd (to_characteristics (cs_equation s) ur))) as (m1 & P1 & A1 & B1).
  exists (m0 + m1). split; [lra|].
  split; intros x t T S; unfold coupled_get_value; (destruct (Req_EM_T t 0); [lra|]); rewrite V.
  - rewrite A0, A1 by lra. rewrite <- surjective_pairing, RL. reflexivity.
  - rewrite B0, B1 by lra. rewrite <- surjective_pairing, RL. reflexivity.
Qed.
