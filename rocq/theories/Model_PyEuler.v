(** Model of the one-dimensional Euler equations of the Python package and of its approximate Riemann
    solvers: /repo/python/gas.py, /repo/python/equation.py lines 167-297 and /repo/python/riemann.py
    lines 388-463.  Numbers are real numbers.  A failed assertion, a division by zero and the square
    root of a negative number (warnings and NaN in numpy) are [None]. *)
From Coq Require Import Reals.
From Verif Require Import Arrays.
Open Scope R_scope.

(** an array of three numbers, an array of shape (3, 3) by rows *)
Record Arr := arr { a0 : R; a1 : R; a2 : R }.
Record Mat3 := mat3 { r0 : Arr; r1 : Arr; r2 : Arr }.

(** numpy's operations on them *)
Definition map3 (f : R -> R) (u : Arr) : Arr := arr (f (a0 u)) (f (a1 u)) (f (a2 u)).
Definition add3 (u v : Arr) : Arr := arr (a0 u + a0 v) (a1 u + a1 v) (a2 u + a2 v).
Definition sub3 (u v : Arr) : Arr := arr (a0 u - a0 v) (a1 u - a1 v) (a2 u - a2 v).
Definition scale3 (k : R) (u : Arr) : Arr := arr (k * a0 u) (k * a1 u) (k * a2 u).
Definition dot3 (u v : Arr) : R := a0 u * a0 v + a1 u * a1 v + a2 u * a2 v.
Definition mul3 (m : Mat3) (u : Arr) : Arr := arr (dot3 (r0 m) u) (dot3 (r1 m) u) (dot3 (r2 m) u).
Definition madd3 (m n : Mat3) : Mat3 := mat3 (add3 (r0 m) (r0 n)) (add3 (r1 m) (r1 n)) (add3 (r2 m) (r2 n)).
(** [np.tensordot(u, v, 0)] *)
Definition outer3 (u v : Arr) : Mat3 := mat3 (scale3 (a0 u) v) (scale3 (a1 u) v) (scale3 (a2 u) v).
Definition zeros3 : Mat3 := mat3 (arr 0 0 0) (arr 0 0 0) (arr 0 0 0).
(** [R[:, i]] *)
Definition column3 (p : Arr -> R) (m : Mat3) : Arr := arr (p (r0 m)) (p (r1 m)) (p (r2 m)).

(** division and square root that fail *)
Definition div (x y : R) : option R := if Req_EM_T y 0 then None else Some (x / y).
Definition root (x : R) : option R := if Rlt_dec x 0 then None else Some (sqrt x).

(** ** gas.py *)

(** gas.py lines 35-41 [p_rho_to_aa] *)
Definition p_rho_to_aa (gamma p rho : R) : option R :=
  if Req_EM_T rho 0 then if Req_EM_T p 0 then Some 0 else None
  else Some ((p / rho) * gamma).
(** gas.py lines 43-44 [p_rho_to_a] *)
Definition p_rho_to_a (gamma p rho : R) : option R := do aa <- p_rho_to_aa gamma p rho; root aa.

(** gas.py lines 46-52 [get_heat_flux] *)
Definition get_heat_flux (gamma rho dx_rho u dx_u p dx_e0 mu prandtl : R) : option R :=
  let dx_kinetic := dx_rho * u * u / 2 + rho * u * dx_u in
  do q <- div p rho;
  do inv <- div 1 (gamma - 1);
  let temp := q * dx_rho * inv in
  do temp <- div (dx_e0 - dx_kinetic - temp) rho;
  do k <- div (- mu) prandtl;
  Some (k * gamma * temp).

(** ** equation.py, class Euler *)

(** equation.py lines 182-186 *)
Definition primitive_to_conservative (gamma rho u p : R) : option Arr :=
  do e <- div p (gamma - 1);
  Some (arr rho (rho * u) (u * (rho * u) / 2 + e)).

(** equation.py lines 188-198 *)
Definition conservative_to_primitive (gamma : R) (U : Arr) : option (R * R * R) :=
  let rho := a0 U in
  do u <- (if Req_EM_T rho 0 then
             if Req_EM_T (a1 U) (a2 U) then if Req_EM_T (a2 U) 0 then Some 0 else None else None
           else Some (a1 U / a0 U));
  let p := (a2 U - u * a1 U / 2) * (gamma - 1) in
  if Rge_dec rho 0 then if Rge_dec p 0 then Some (rho, u, p) else None else None.

(** equation.py lines 200-203 *)
Definition primitive_to_total_enthalpy (gamma rho u p : R) : option R :=
  do aa <- div (gamma * p) rho;
  do enthalpy <- div aa (gamma - 1);
  Some (enthalpy + u * u / 2).

(** equation.py lines 205-213 [_get_diffusive_flux] *)
Definition scalar_diffusive_flux (gamma : R) (U dx_U : Arr) (nu_scalar prandtl : R) : option Arr :=
  do w <- conservative_to_primitive gamma U;
  let '(rho, u, p) := w in
  let dx_rho := a0 dx_U in
  do dx_u <- div (a1 dx_U - u * dx_rho) rho;
  let mu := rho * nu_scalar in
  let tau := (4 / 3) * mu * dx_u in
  let dx_e0 := a2 dx_U in
  do q <- get_heat_flux gamma rho dx_rho u dx_u p dx_e0 mu prandtl;
  Some (arr 0 tau (tau * u - q)).

(** equation.py lines 230-235 *)
Definition get_convective_flux (gamma : R) (U : Arr) : option Arr :=
  do w <- conservative_to_primitive gamma U;
  let '(rho, u, p) := w in
  let F := scale3 u U in
  Some (arr (a0 F) (a1 F + p) (a2 F + p * u)).

(** equation.py lines 237-250 *)
Definition get_convective_jacobian (gamma : R) (U : Arr) : option Mat3 :=
  do u <- div (a1 U) (a0 U);
  let uu := u ^ 2 in
  let e_kinetic := uu / 2 in
  do e_total <- div (a2 U) (a0 U);
  let gamma_times_e_total := e_total * gamma in
  Some (mat3 (arr 0 1 0)
    (arr (e_kinetic * (gamma - 3)) (- u * (gamma - 3)) (gamma - 1))
    (arr (u * (uu * (gamma - 1) - gamma_times_e_total))
         (gamma_times_e_total - 3 * e_kinetic * (gamma - 1))
         (u * gamma))).

(** equation.py lines 252-255 *)
Definition get_convective_eigvals (gamma : R) (U : Arr) : option Arr :=
  do w <- conservative_to_primitive gamma U;
  let '(rho, u, p) := w in
  do aa <- div (gamma * p) rho;
  do a <- root aa;
  Some (arr (u - a) u (u + a)).

(** equation.py lines 257-286: the left and the right matrix *)
Definition get_convective_eigmats (gamma : R) (U : Arr) : option (Mat3 * Mat3) :=
  do w <- conservative_to_primitive gamma U;
  let '(rho, u, p) := w in
  do aa <- div (gamma * p) rho;
  do a <- root aa;
  let ua := u * a in
  let ke := (1 / 2) * u * u in
  do h <- div aa (gamma - 1);
  let h0 := h + ke in
  let right := mat3 (arr 1 1 1) (arr (u - a) u (u + a)) (arr (h0 - ua) ke (h0 + ua)) in
  do b1 <- div (gamma - 1) aa;
  let b2 := b1 * ke in
  do u_a <- div u a;
  do one_a <- div 1 a;
  let left := mat3
    (arr ((b2 + u_a) / 2) (- (b1 * u + one_a) / 2) (b1 / 2))
    (arr (1 - b2) (b1 * u) (- b1))
    (arr ((b2 - u_a) / 2) (- (b1 * u - one_a) / 2) (b1 / 2)) in
  Some (left, right).

(** equation.py lines 215-220 [_get_matrix_nu] *)
Definition get_matrix_nu (gamma : R) (U nu : Arr) : option Mat3 :=
  do m <- get_convective_eigmats gamma U;
  let '(L, R_) := m in
  let B := madd3 zeros3 (outer3 (column3 a0 R_) (scale3 (a0 nu) (r0 L))) in
  let B := madd3 B (outer3 (column3 a1 R_) (scale3 (a1 nu) (r1 L))) in
  let B := madd3 B (outer3 (column3 a2 R_) (scale3 (a2 nu) (r2 L))) in
  Some B.

(** equation.py lines 222-228: a number, an array of 3 or of 9 numbers *)
Inductive Nu := NuScalar (nu : R) | NuVector (nu : Arr) | NuMatrix (nu : Mat3).
(** with the default Prandtl number 1e100 of line 205 *)
Definition get_diffusive_flux (gamma : R) (U dx_U : Arr) (nu_extra : Nu) : option Arr :=
  match nu_extra with
  | NuScalar nu => scalar_diffusive_flux gamma U dx_U nu (10 ^ 100)
  | NuVector nu => do B <- get_matrix_nu gamma U nu; Some (mul3 B dx_U)
  | NuMatrix B => Some (mul3 B dx_U)
  end.

(** concept.py lines 426-428 with equation.py lines 252-255 *)
Definition get_convective_radius (gamma : R) (U : Arr) : option R :=
  do l <- get_convective_eigvals gamma U;
  Some (Rmax (Rmax (Rabs (a0 l)) (Rabs (a1 l))) (Rabs (a2 l))).

(** ** riemann.py, class Roe *)

(** riemann.py lines 403-440; the second result is [_roe_average], which [get_upwind_value] of lines
    442-443 returns *)
Definition Roe_upwind_flux (gamma : R) (value_left value_right : Arr) : option (Arr * Arr) :=
  do flux_left <- get_convective_flux gamma value_left;
  do flux_right <- get_convective_flux gamma value_right;
  let flux := map3 (fun x => x / 2) (add3 flux_left flux_right) in
  do wl <- conservative_to_primitive gamma value_left;
  do wr <- conservative_to_primitive gamma value_right;
  let '(rho_left, u_left, p_left) := wl in
  let '(rho_right, u_right, p_right) := wr in
  do h0_left <- primitive_to_total_enthalpy gamma rho_left u_left p_left;
  do h0_right <- primitive_to_total_enthalpy gamma rho_right u_right p_right;
  do rho_left_sqrt <- root rho_left;
  do rho_right_sqrt <- root rho_right;
  let rho_sqrt_sum := rho_left_sqrt + rho_right_sqrt in
  let average0 := rho_sqrt_sum ^ 2 / 4 in
  let rho := rho_left_sqrt * rho_right_sqrt in
  do u <- div (rho_left_sqrt * u_left + rho_right_sqrt * u_right) rho_sqrt_sum;
  let average1 := average0 * u in
  let ke := u * u / 2 in
  do h0 <- div (rho_left_sqrt * h0_left + rho_right_sqrt * h0_right) rho_sqrt_sum;
  let aa := (gamma - 1) * (h0 - ke) in
  let average2 := average0 * (h0 - aa / gamma) in
  do a <- root aa;
  let ua := u * a in
  let p_jump := p_right - p_left in
  let u_jump := u_right - u_left in
  do alpha <- div (p_jump - rho * a * u_jump) (2 * aa);
  let flux := sub3 flux (scale3 (1 / 2 * alpha * Rabs (u - a)) (arr 1 (u - a) (h0 - ua))) in
  do p_aa <- div p_jump aa;
  let alpha := (rho_right - rho_left) - p_aa in
  let flux := sub3 flux (scale3 (1 / 2 * alpha * Rabs u) (arr 1 u ke)) in
  do alpha <- div (p_jump + rho * a * u_jump) (2 * aa);
  let flux := sub3 flux (scale3 (1 / 2 * alpha * Rabs (u + a)) (arr 1 (u + a) (h0 + ua))) in
  Some (flux, arr average0 average1 average2).

(** ** riemann.py, class LaxFriedrichs *)

(** riemann.py lines 456-459: the largest speed *)
Definition LaxFriedrichs_lambda (gamma : R) (value_left value_right : Arr) : option R :=
  do lambdas <- get_convective_eigvals gamma value_left;
  let lambda_max := Rmax (Rabs (a0 lambdas)) (Rabs (a2 lambdas)) in
  do lambdas <- get_convective_eigvals gamma value_right;
  Some (Rmax (Rmax lambda_max (Rabs (a0 lambdas))) (Rabs (a2 lambdas))).

(** riemann.py lines 451-461 *)
Definition LaxFriedrichs_upwind_flux (gamma : R) (value_left value_right : Arr) : option Arr :=
  do flux_right <- get_convective_flux gamma value_right;
  do flux_left <- get_convective_flux gamma value_left;
  let flux := map3 (fun x => x / 2) (add3 flux_right flux_left) in
  do lambda_max <- LaxFriedrichs_lambda gamma value_left value_right;
  Some (sub3 flux (scale3 (lambda_max / 2) (sub3 value_right value_left))).
