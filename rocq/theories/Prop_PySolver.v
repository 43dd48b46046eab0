(** C169, C170: exact solutions of the Python package *)
From Coq Require Import Reals List Arith ZArith Lra Lia.
From Coquelicot Require Import Coquelicot.
From Verif Require Import Arrays Model_PySolver.
Import ListNotations.
Open Scope R_scope.

(** ** C169 *)
(** [u] satisfies the equation of advection and diffusion everywhere *)
Definition solves (a b : R) (u : R -> R -> R) : Prop :=
  exists u_t u_x u_xx : R -> R -> R,
    (forall x t, is_derive (fun s => u x s) t (u_t x t)) /\
    (forall x t, is_derive (fun y => u y t) x (u_x x t)) /\
    (forall x t, is_derive (fun y => u_x y t) x (u_xx x t)) /\
    (forall x t, u_t x t + a * u_x x t = b * u_xx x t).
Lemma exact_dt (x_left w m a b x t : R) : is_derive (fun s => linear_exact (smooth_init x_left w m) w a b x s) t
  (exp (- t * b * w ^ 2) * (- b * w ^ 2 * (sin ((x - a * t - x_left) * w) + m) - a * w * cos ((x - a * t - x_left) * w))).
Proof. unfold linear_exact, smooth_init. auto_derive; [exact I|]. change (w * (w * 1)) with (w ^ 2). unfold Rminus. ring. Qed.
Lemma exact_dx (x_left w m a b x t : R) : is_derive (fun y => linear_exact (smooth_init x_left w m) w a b y t) x
  (exp (- t * b * w ^ 2) * (w * cos ((x - a * t - x_left) * w))).
Proof. unfold linear_exact, smooth_init. auto_derive; [exact I|]. change (w * (w * 1)) with (w ^ 2). unfold Rminus. ring. Qed.
Lemma exact_dxx (x_left w a b x t : R) : is_derive (fun y => exp (- t * b * w ^ 2) * (w * cos ((y - a * t - x_left) * w))) x
  (exp (- t * b * w ^ 2) * (- w ^ 2 * sin ((x - a * t - x_left) * w))).
Proof. auto_derive; [exact I|]. change (w * (w * 1)) with (w ^ 2). unfold Rminus. ring. Qed.
(** what is left over when the formula is put into the equation is caused by the mean *)
Theorem py_linear_exact_iff x_left k length m a b : (1 <= k)%nat -> 0 < length ->
  (solves a b (linear_exact (smooth_init x_left (wave_number k length) m) (wave_number k length) a b) <-> b * m = 0).
Proof.
  intros K L. set (w := wave_number k length). assert (W : 0 < w).
  { unfold w, wave_number. apply Rdiv_lt_0_compat; [|exact L]. apply Rmult_lt_0_compat; [|lra]. apply Rmult_lt_0_compat; [apply lt_0_INR; lia|apply PI_RGT_0]. }
  split.
  - intros (ut & ux & uxx & Ht & Hx & Hxx & E). specialize (E x_left 0).
    assert (E1 : ut x_left 0 = _) by (rewrite <- (is_derive_unique _ _ _ (Ht x_left 0)); apply is_derive_unique, exact_dt).
    assert (Ex : forall x t, ux x t = exp (- t * b * w ^ 2) * (w * cos ((x - a * t - x_left) * w))) by (intros x t; rewrite <- (is_derive_unique _ _ _ (Hx x t)); apply is_derive_unique, exact_dx).
    assert (E2 : uxx x_left 0 = exp (- 0 * b * w ^ 2) * (- w ^ 2 * sin ((x_left - a * 0 - x_left) * w))).
    { rewrite <- (is_derive_unique _ _ _ (Hxx x_left 0)). rewrite (Derive_ext _ (fun y => exp (- 0 * b * w ^ 2) * (w * cos ((y - a * 0 - x_left) * w)))) by (intros y; apply Ex). apply is_derive_unique, exact_dxx. }
    rewrite E1, E2, Ex in E. replace (- 0 * b * w ^ 2) with 0 in E by ring. rewrite exp_0 in E. replace ((x_left - a * 0 - x_left) * w) with 0 in E by ring. rewrite sin_0, cos_0 in E.
    assert (F : w ^ 2 * (b * m) = 0) by lra. apply Rmult_integral in F as [F|F]; [|exact F]. pose proof (pow_lt w 2 W). lra.
  - intros Z. exists (fun x t => exp (- t * b * w ^ 2) * (- b * w ^ 2 * (sin ((x - a * t - x_left) * w) + m) - a * w * cos ((x - a * t - x_left) * w))),
      (fun x t => exp (- t * b * w ^ 2) * (w * cos ((x - a * t - x_left) * w))), (fun x t => exp (- t * b * w ^ 2) * (- w ^ 2 * sin ((x - a * t - x_left) * w))).
    split; [intros; apply exact_dt|]. split; [intros; apply exact_dx|]. split; [intros; apply exact_dxx|]. intros x t. generalize (exp (- t * b * w ^ 2)). intros e.
    transitivity (e * (- b * w ^ 2 * sin ((x - a * t - x_left) * w)) - e * w ^ 2 * (b * m)); [ring|rewrite Z; ring].
Qed.
Print Assumptions py_linear_exact_iff.
(** ... so with diffusion and a mean other than zero the "exact" solution does not solve the equation *)
Theorem py_linear_exact_refuted : exists x_left length m a b, 0 < length /\ 0 < b /\
  ~ solves a b (linear_exact (smooth_init x_left (wave_number 1 length) m) (wave_number 1 length) a b).
Proof. exists (-1), 2, 1, 1, (1 / 2). split; [lra|]. split; [lra|]. rewrite (py_linear_exact_iff (-1) 1 2 1 1 (1 / 2)); [lra|lia|lra]. Qed.
Print Assumptions py_linear_exact_refuted.
Lemma period x_left k length x : 0 < length -> sin ((x + length - x_left) * wave_number k length) = sin ((x - x_left) * wave_number k length).
Proof.
  intros L. rewrite <- (sin_period ((x - x_left) * wave_number k length) k). f_equal. unfold wave_number. field. lra.
Qed.
(** initial values, periods, and transport without diffusion, for smooth waves and for jumps *)
Theorem py_linear_exact x_left k length m a b : 0 < length -> forall init, init = smooth_init x_left (wave_number k length) m \/ init = jumps_init x_left (wave_number k length) m ->
  let u := linear_exact init (wave_number k length) a b in
  (forall x, u x 0 = init x) /\ (forall x t, u (x + length) t = u x t) /\ (b = 0 -> forall x t s, u (x + a * s) (t + s) = u x t) /\
  (forall x, m - 1 <= init x <= m + 1) /\ init x_left = m /\ ((1 <= k)%nat -> init (x_left + length / INR k / 4) = m + 1).
Proof.
  intros L init I u. unfold u, linear_exact.
  assert (Pe : forall x, init (x + length) = init x) by (intros x; destruct I as [-> | ->]; unfold smooth_init, jumps_init; rewrite period by exact L; reflexivity).
  split; [|split; [|split; [|split; [|split]]]].
  - intros x. replace (- 0 * b * wave_number k length ^ 2) with 0 by ring. rewrite exp_0. replace (x - a * 0) with x by ring. ring.
  - intros x t. rewrite <- (Pe (x - a * t)). replace (x + length - a * t) with (x - a * t + length) by ring. reflexivity.
  - intros -> x t s. replace (- (t + s) * 0 * wave_number k length ^ 2) with (- t * 0 * wave_number k length ^ 2) by ring. replace (x + a * s - a * (t + s)) with (x - a * t) by ring. reflexivity.
  - intros x. destruct I as [-> | ->]; unfold smooth_init, jumps_init, sign_of; [pose proof (SIN_bound ((x - x_left) * wave_number k length)); lra|].
    destruct (Rlt_dec _ 0); [lra|]. destruct (Rlt_dec 0 _); lra.
  - destruct I as [-> | ->]; unfold smooth_init, jumps_init, sign_of; replace ((x_left - x_left) * wave_number k length) with 0 by ring; rewrite sin_0; [ring|]. destruct (Rlt_dec 0 0); lra.
  - intros K. assert (0 < INR k) by (apply lt_0_INR; lia). assert (Q : (x_left + length / INR k / 4 - x_left) * wave_number k length = PI / 2) by (unfold wave_number; field; lra).
    destruct I as [-> | ->]; unfold smooth_init, jumps_init, sign_of; rewrite Q, sin_PI2; [ring|]. destruct (Rlt_dec 1 0); [lra|]. destruct (Rlt_dec 0 1); lra.
Qed.
Print Assumptions py_linear_exact.
Example py_linear_exact_example : linear_exact (smooth_init 0 (wave_number 1 2) 3) (wave_number 1 2) 2 0 (9 / 2) 2 = 4 /\ linear_exact (jumps_init 0 (wave_number 1 2) 3) (wave_number 1 2) 2 0 (9 / 2) 2 = 4.
Proof.
  destruct (py_linear_exact 0 1 2 3 2 0 ltac:(lra) _ (or_introl eq_refl)) as (A & _ & B & _). destruct (py_linear_exact 0 1 2 3 2 0 ltac:(lra) _ (or_intror eq_refl)) as (C & _ & D & _).
  specialize (B eq_refl (1 / 2) 0 2). specialize (D eq_refl (1 / 2) 0 2). replace (1 / 2 + 2 * 2) with (9 / 2) in B, D by field. replace (0 + 2) with 2 in B, D by ring. rewrite B, D, A, C.
  assert (Si : sin ((1 / 2 - 0) * wave_number 1 2) = 1) by (replace ((1 / 2 - 0) * wave_number 1 2) with (PI / 2) by (unfold wave_number; cbn; field); apply sin_PI2).
  unfold smooth_init, jumps_init, sign_of. rewrite Si. destruct (Rlt_dec 1 0); [lra|]. destruct (Rlt_dec 0 1); lra.
Qed.

(** ** C170 *)
(** bisection finds a zero of [f] between values of opposite sign *)
Definition bisects (bisect : (R -> R) -> R -> R -> option R) (f : R -> R) : Prop :=
  forall a b, a <= b -> f a * f b <= 0 -> exists r, bisect f a b = Some r /\ a <= r <= b /\ f r = 0.
Lemma sin_lipschitz a b : Rabs (sin a - sin b) <= Rabs (a - b).
Proof.
  assert (H : forall x y, x <= y -> Rabs (sin y - sin x) <= y - x).
  { intros x y [L|E]; [|subst y; unfold Rminus; rewrite !Rplus_opp_r, Rabs_R0; lra].
    destruct (MVT_cor2 sin cos x y L) as (c & E & _); [intros c _; apply derivable_pt_lim_sin|]. rewrite E, Rabs_mult, (Rabs_right (y - x)) by lra. pose proof (COS_bound c). assert (Rabs (cos c) <= 1) by (apply Rabs_le; lra). nra. }
  destruct (Rle_dec a b) as [L|L]; [rewrite Rabs_minus_sym, (Rabs_minus_sym a b), (Rabs_right (b - a)) by lra; apply H, L|rewrite (Rabs_right (a - b)) by lra; apply H; lra].
Qed.
Lemma func_continuous x_left w k x t : continuity (burgers_func (smooth_init x_left w 0) k x t).
Proof.
  intros u. apply derivable_continuous_pt. unfold derivable_pt, derivable_pt_abs, burgers_func, smooth_init.
  assert (D : is_derive (fun u => u - (sin ((x - k * u * t - x_left) * w) + 0)) u (1 + k * t * w * cos ((x - k * u * t - x_left) * w))) by (auto_derive; [exact I|unfold Rminus; ring]).
  exists (1 + k * t * w * cos ((x - k * u * t - x_left) * w)). apply is_derive_Reals in D. exact D.
Qed.
Lemma enlarge_stops f delta : 0 < delta -> (forall u, 1 <= u -> 0 <= f u) -> (forall u, u <= -1 -> f u <= 0) -> forall fuel lo hi, lo <= hi -> 1 <= hi + INR fuel * delta -> lo - INR fuel * delta <= -1 ->
  exists a b, enlarge f delta (S fuel) lo hi = Some (a, b) /\ a <= b /\ f a * f b <= 0 /\ a <= lo /\ hi <= b.
Proof.
  intros D Hi Lo. induction fuel as [|fuel IH]; intros lo hi L H1 H2.
  - cbn [INR] in H1, H2. cbn [enlarge]. assert (f lo * f hi <= 0) by (pose proof (Hi hi ltac:(lra)); pose proof (Lo lo ltac:(lra)); nra). destruct (Rlt_dec 0 (f lo * f hi)); [lra|]. exists lo, hi. repeat split; lra.
  - change (enlarge f delta (S (S fuel)) lo hi) with (if Rlt_dec 0 (f lo * f hi) then enlarge f delta (S fuel) (lo - delta) (hi + delta) else Some (lo, hi)).
    destruct (Rlt_dec 0 (f lo * f hi)) as [P|P]; [|exists lo, hi; repeat split; lra]. rewrite S_INR in H1, H2. destruct (IH (lo - delta) (hi + delta)) as (a & b & E & A); try lra. exists a, b. split; [exact E|]. lra.
Qed.
Theorem py_burgers_exact bisect x_left w k x t prev : bisects bisect (burgers_func (smooth_init x_left w 0) k x t) -> exists fuel u, (forall more, (fuel <= more)%nat -> burgers_exact bisect (smooth_init x_left w 0) 0 k prev more x t = Some u) /\
  u = smooth_init x_left w 0 (x - k * u * t) /\ -1 <= u <= 1 /\
  (Rabs (k * t * w) < 1 -> forall v, v = smooth_init x_left w 0 (x - k * v * t) -> v = u).
Proof.
  intros B. set (f := burgers_func (smooth_init x_left w 0) k x t). set (p := match prev with Some u => u | None => smooth_init x_left w 0 x end).
  assert (Hf : forall u, u - 1 <= f u <= u + 1). { intros u. unfold f, burgers_func, smooth_init. pose proof (SIN_bound ((x - k * u * t - x_left) * w)). lra. }
  destruct (archimed ((Rabs p + 1) * 50)) as (Ar & _). set (N := Z.to_nat (up ((Rabs p + 1) * 50))).
  assert (HN : (Rabs p + 1) * 50 < INR N).
  { unfold N. rewrite INR_IZR_INZ, Z2Nat.id; [exact Ar|]. pose proof (Rabs_pos p). apply le_IZR. lra. }
  assert (Pp := Rle_abs p). assert (Pm : - p <= Rabs p) by (rewrite <- Rabs_Ropp; apply Rle_abs).
  destruct (enlarge_stops f (2 / 100)) with (fuel := N) (lo := p - 2 / 100) (hi := p + 2 / 100) as (a & b & E & L & S & _); try lra; [intros u Hu; pose proof (Hf u); lra|intros u Hu; pose proof (Hf u); lra|].
  destruct (B a b L S) as (r & Br & Rr & Z). change (f r = 0) in Z.
  assert (Er : r = smooth_init x_left w 0 (x - k * r * t)) by (unfold f, burgers_func in Z; lra).
  assert (Mono : forall fl lo hi q, enlarge f (2 / 100) fl lo hi = Some q -> forall m, (fl <= m)%nat -> enlarge f (2 / 100) m lo hi = Some q).
  { induction fl as [|fl IH]; intros lo hi q Q m M; [discriminate|]. destruct m as [|m]; [lia|]. cbn [enlarge] in *. destruct (Rlt_dec 0 (f lo * f hi)); [apply IH; [exact Q|lia]|exact Q]. }
  exists (Datatypes.S N), r. split; [|split; [exact Er|split]].
  - intros more M. unfold burgers_exact. destruct (Req_EM_T 0 0); [|lra]. fold f. fold p. rewrite (Mono _ _ _ _ E more M). cbn [bind fst snd]. exact Br.
  - pose proof (Hf r). lra.
  - intros K v Ev. assert (D : Rabs (v - r) <= Rabs (k * t * w) * Rabs (v - r)).
    { rewrite Ev at 1. rewrite Er at 1. unfold smooth_init. rewrite <- Rabs_mult. replace (sin ((x - k * v * t - x_left) * w) + 0 - (sin ((x - k * r * t - x_left) * w) + 0)) with (sin ((x - k * v * t - x_left) * w) - sin ((x - k * r * t - x_left) * w)) by ring.
      eapply Rle_trans; [apply sin_lipschitz|]. replace ((x - k * v * t - x_left) * w - (x - k * r * t - x_left) * w) with (- (k * t * w * (v - r))) by ring. rewrite Rabs_Ropp. lra. }
    pose proof (Rabs_pos (v - r)). assert (Z0 : Rabs (v - r) = 0) by nra. destruct (Req_dec (v - r) 0) as [Q|Q]; [lra|]. apply Rabs_no_R0 in Q. contradiction.
Qed.
Print Assumptions py_burgers_exact.
(** at the beginning the initial value is found, and while the waves have not broken what was asked before does not matter *)
Theorem py_burgers_history bisect x_left w k x t prev prev' : bisects bisect (burgers_func (smooth_init x_left w 0) k x t) -> Rabs (k * t * w) < 1 ->
  exists fuel u, forall more, (fuel <= more)%nat -> burgers_exact bisect (smooth_init x_left w 0) 0 k prev more x t = Some u /\ burgers_exact bisect (smooth_init x_left w 0) 0 k prev' more x t = Some u /\
    (t = 0 -> u = smooth_init x_left w 0 x).
Proof.
  intros B K. destruct (py_burgers_exact bisect x_left w k x t prev B) as (n & u & E & U & _ & Un). destruct (py_burgers_exact bisect x_left w k x t prev' B) as (n' & u' & E' & U' & _ & _).
  pose proof (Un K u' U'). subst u'. exists (n + n')%nat, u. intros more M. split; [apply E; lia|]. split; [apply E'; lia|]. intros ->. rewrite U. f_equal. ring.
Qed.
Print Assumptions py_burgers_history.
(** these functions are continuous, so bisection does find a zero *)
Lemma bisection_exists x_left w k x t : exists bisect, bisects bisect (burgers_func (smooth_init x_left w 0) k x t).
Proof.
  set (f := burgers_func (smooth_init x_left w 0) k x t).
  assert (C : forall a b, { r : R | a <= b -> f a * f b <= 0 -> a <= r <= b /\ f r = 0 }).
  { intros a b. destruct (Rle_dec a b) as [L|L]; [|exists 0; intros; contradiction]. destruct (Rle_dec (f a * f b) 0) as [P|P]; [|exists 0; intros; contradiction].
    destruct (IVT_cor f a b (func_continuous x_left w k x t) L P) as (r & H & Z). exists r. intros _ _. split; assumption. }
  exists (fun _ a b => Some (proj1_sig (C a b))). intros a b L P. destruct (C a b) as (r & H). cbn. exists r. split; [reflexivity|]. destruct (H L P) as (H1 & H2). split; assumption.
Qed.
Example py_burgers_exact_example : exists bisect fuel u, burgers_exact bisect (smooth_init (-1) PI 0) 0 1 None fuel (1 / 2) (1 / 4) = Some u /\ u = sin ((1 / 2 - u / 4 + 1) * PI).
Proof.
  destruct (bisection_exists (-1) PI 1 (1 / 2) (1 / 4)) as (bisect & B). destruct (py_burgers_exact bisect (-1) PI 1 (1 / 2) (1 / 4) None B) as (fuel & u & E & U & _). exists bisect, fuel, u. split; [apply E, le_n|].
  rewrite U at 1. unfold smooth_init. replace (1 / 2 - 1 * u * (1 / 4) - -1) with (1 / 2 - u / 4 + 1) by field. ring.
Qed.
